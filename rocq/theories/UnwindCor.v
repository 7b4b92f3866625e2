(** Proofs for C62. *)
From Verif Require Import Base Ints Ops Spec ByteSet ByteMap Coll Boxed BTree SizedT Tree Lists Laws CollProofs WrapProofs TreeChildren TreeUpd TreeProofs
  Hist Types HistProofs TypesProofs HistCor HeldCor Iter IterSpec IterProofs Fits FitsCor Unwind.

Section Tree.
  Context {B : Build} (fixed : bool) {K Hi Lo V : Type} {ko : KeyOps K Hi Lo} (KL : KeyLaws ko)
    {S : VebOps Hi unit} {Tr : VebOps Lo V} {C : CollOps Hi Lo V Tr}.
  Notation cmp := (k_cmp ko).
  Notation T := (Tree (K := K) S Tr C).
  Implicit Types (t s : T).
  (** Watching changes nothing *)
  Lemma w_push_same mn mx och k v : snd (w_push ko S Tr C mn mx och k v) = tr_push ko S Tr C mn mx och k v.
  Proof.
    unfold w_push, tr_push, wbind, wcall. cbn [snd]. destruct (k_split_val ko k) as [h l]. destruct och as [[s c]|].
    - destruct (c_insert_key C c h (l, v)) as [[c' r]|]; cbn [snd bind]; [|reflexivity]. destruct r as [h'|[h' [[l' v']|]]]; try reflexivity.
      destruct (v_insert S s h' tt) as [[s' u]|]; reflexivity.
    - destruct (c_create C h (v_from_monad Tr l v)) as [c|]; reflexivity.
  Qed.
  Lemma w_insert_same t k v : snd (w_insert fixed ko S Tr C t k v) = tr_insert fixed ko S Tr C t k v.
  Proof.
    unfold w_insert, tr_insert, wbind at 1, wcall at 1. cbn [snd]. destruct (cmp k (fst (t_min t))), (t_data t) as [d|]; try reflexivity.
    - destruct (t_min t) as [k1 v1]. unfold wbind at 1, wcall at 1. cbn [snd fst]. destruct (cmp (fst (d_max d)) k1); try reflexivity; try apply w_push_same.
      destruct fixed; apply w_push_same.
    - unfold wbind at 1, wcall at 1. cbn [snd fst]. destruct (cmp k (fst (d_max d))); try reflexivity; apply w_push_same.
  Qed.
  (** The states *)
  Lemma w_push_states s mn mx och k v : In s (fst (w_push ko S Tr C mn mx och k v)) ->
    s = TR mn (Some (TD mx och)) \/ s = TR mn (Some (TD mx None)).
  Proof.
    unfold w_push, wbind, wcall, wret. cbn [snd fst]. destruct (k_split_val ko k) as [h l]. destruct och as [[x c]|].
    - destruct (c_insert_key C c h (l, v)) as [[c' r]|]; cbn [snd fst]; [|cbn; intuition auto]. destruct r as [h'|[h' [[l' v']|]]]; [|cbn; intuition auto|cbn; intuition auto].
      destruct (v_insert S x h' tt) as [[s' u]|]; cbn; intuition auto.
    - destruct (c_create C h (v_from_monad Tr l v)) as [c|]; cbn; intuition auto.
  Qed.
  Lemma w_insert_states s t k v : In s (fst (w_insert fixed ko S Tr C t k v)) -> s = t \/
    exists d, t_data t = Some d /\
      ((cmp k (fst (t_min t)) = Lt /\
        (s = TR (k, v) (Some d) \/ s = TR (k, v) (Some (TD (d_max d) None)) \/
         (fixed = false /\ (s = TR (k, v) (Some (TD (t_min t) (d_children d))) \/ s = TR (k, v) (Some (TD (t_min t) None)))))) \/
       (cmp k (fst (t_min t)) = Gt /\
        ((cmp k (fst (d_max d)) = Gt /\ (s = TR (t_min t) (Some (TD (k, v) (d_children d))) \/ s = TR (t_min t) (Some (TD (k, v) None)))) \/
         s = TR (t_min t) (Some (TD (d_max d) None))))).
  Proof.
    unfold w_insert, wbind at 1, wcall at 1. cbn [snd fst]. intros H. apply in_app_or in H. destruct H as [[-> | []]|H]; [left; reflexivity|].
    destruct t as [m [d|]]; cbn [t_min t_data] in *; [|destruct (cmp k (fst m)); destruct H]. 
    assert (Ed : d = TD (d_max d) (d_children d)) by (destruct d; reflexivity).
    destruct (cmp k (fst m)) eqn:Ek.
    - destruct H.
    - right. exists d. split; [reflexivity|]. left. split; [reflexivity|]. destruct m as [k1 v1]. unfold wbind at 1, wcall at 1 in H. cbn [snd fst] in H.
      apply in_app_or in H. destruct H as [[<-|[]]|H]; [left; reflexivity|].
      destruct (cmp (fst (d_max d)) k1); [destruct H| |].
      + apply w_push_states in H. rewrite <- Ed in H. tauto.
      + destruct fixed; apply w_push_states in H; [rewrite <- Ed in H|]; tauto.
    - unfold wbind at 1, wcall at 1 in H. cbn [snd fst] in H. apply in_app_or in H. destruct H as [[<-|[]]|H]; [left; reflexivity|].
      destruct (cmp k (fst (d_max d))) eqn:Em; [destruct H| |]; apply w_push_states in H.
      + rewrite <- Ed in H. destruct H as [H|H]; [left; exact H|]. right. exists d. split; [reflexivity|]. right. split; [reflexivity|]. right. exact H.
      + right. exists d. split; [reflexivity|]. right. split; [reflexivity|]. left. split; [exact Em|exact H].
  Qed.
End Tree.

(** *** What a state left behind is *)
Section Left.
  Context {B : Build} {K V : Type} {cmp : K -> K -> comparison} {O : VebOps K V} (L : VebLaws cmp O).
  Definition left_ok (t : vt O) (k : K) (v : V) (s : vt O) : Prop :=
    winv L s /\ (exists lost, Permutation ((k, v) :: ents L t) (ents L s ++ lost) /\ lost <> []) /\ (ord L t -> safe L t k -> ord L s).
End Left.
Section TreeLeft.
  Context {B : Build} (fixed : bool) {K Hi Lo V : Type} {ko : KeyOps K Hi Lo} (KL : KeyLaws ko)
    {S : VebOps Hi unit} {Tr : VebOps Lo V} {C : CollOps Hi Lo V Tr}
    (LS : VebLaws (hi_cmp ko) S) (LT : VebLaws (lo_cmp ko) Tr) (LC : CollLaws C).
  Notation cmp := (k_cmp ko).
  Notation T := (Tree (K := K) S Tr C).
  Lemma tree_left (t s : T) k v : tr_winv LS LT LC t -> In s (fst (w_insert fixed ko S Tr C t k v)) ->
    left_ok (Tree_laws fixed KL LS LT LC) t k v s.
  Proof.
    intros Hw Hs. apply w_insert_states in Hs. unfold left_ok. cbn [winv ents ord safe Tree_laws].
    destruct Hs as [-> | [d [Ed Hs]]].
    { split; [exact Hw|]. split; [exists [(k, v)]; split; [apply Permutation_cons_append|discriminate]|]. auto. }
    destruct t as [m [d'|]]; cbn [t_data t_min] in *; [|discriminate]. injection Ed as ->. destruct d as [x ch]. cbn [d_max d_children] in *.
    unfold tr_winv in Hw. cbn [t_data d_children] in Hw.
    unfold tr_ord, tr_safe. cbn [t_data t_min d_max d_children]. unfold tr_ents. cbn [t_data t_min d_max d_children].
    set (E := och_ents LT LC ch). assert (Et : forall a b : K, cmp a b = Lt -> forall c, cmp b c = Lt -> cmp a c = Lt) by (intros; eapply (cmp_trans (KL_k KL)); eassumption).
    pose proof (cmp_gt_lt (KL_k KL)) as Hg.
    destruct Hs as [[Hk Hs]|[Hk Hs]]; rewrite Hk.
    - destruct Hs as [-> | [-> | [Hf [-> | ->]]]]; cbn [t_data t_min d_max d_children fst och_ents ooch owch].
      + split; [exact Hw|]. split.
        { exists [m]. split; [|discriminate]. cbn [app]. apply perm_skip. change (x :: E ++ [m]) with ((x :: E) ++ [m]). apply Permutation_cons_append. }
        intros [H1 [H2 H3]] _. fold E. split; [eauto|]. split; [|exact H3]. intros q Hq. destruct (H2 q Hq). split; eauto.
      + split; [exact I|]. split.
        { exists (m :: E). split; [|discriminate]. cbn [app]. apply perm_skip. apply perm_swap. }
        intros [H1 [H2 H3]] _. split; [eauto|]. split; [intros q []|exact I].
      + split; [exact Hw|]. split.
        { exists [x]. split; [|discriminate]. cbn [app]. fold E. apply perm_skip, perm_skip. apply Permutation_cons_append. }
        intros _ [H _]. congruence.
      + split; [exact I|]. split.
        { exists (x :: E). split; [|discriminate]. reflexivity. }
        intros _ [H _]. congruence.
    - destruct Hs as [[Hx [-> | ->]]| ->]; cbn [t_data t_min d_max d_children fst och_ents ooch owch].
      + split; [exact Hw|]. split.
        { exists [x]. split; [|discriminate]. cbn [app]. fold E. rewrite perm_swap. apply perm_skip, perm_skip. apply Permutation_cons_append. }
        intros [H1 [H2 H3]] _. fold E. apply Hg in Hk, Hx. split; [exact Hk|]. split; [|exact H3]. intros q Hq. destruct (H2 q Hq). split; eauto.
      + split; [exact I|]. split.
        { exists (x :: E). split; [|discriminate]. cbn [app]. apply perm_swap. }
        intros _ _. apply Hg in Hk. split; [exact Hk|]. split; [intros q []|exact I].
      + split; [exact I|]. split.
        { exists ((k, v) :: E). split; [|discriminate]. cbn [app]. rewrite perm_swap. apply perm_skip. apply perm_swap. }
        intros [H1 _] _. split; [exact H1|]. split; [intros q []|exact I].
  Qed.
End TreeLeft.
Lemma unwound_left {B : Build} {fixed K V cmp O} (T : VebType fixed K V cmp O) : uncounted T = true ->
  forall t k v s, winv (type_laws T) t -> In s (unwound T t k v) -> left_ok (type_laws T) t k v s.
Proof.
  induction T; intros Hu t k v s Hw Hs; cbn [unwound uncounted] in *; try discriminate Hu.
  - destruct Hs.
  - destruct Hs.
  - destruct Hs as [<-|[]]. split; [exact Hw|]. split; [exists [(k, v)]; split; [apply Permutation_cons_append|discriminate]|auto].
  - exact (tree_left fixed KL (type_laws T1) (type_laws T2) (coll_laws CT) t s k v Hw Hs).
  - apply in_map_iff in Hs. destruct Hs as [s' [<- Hs]]. exact (IHT Hu (unbox t) k v s' Hw Hs).
Qed.

(** *** Histories with caught panics *)
Section Survive.
  Context {B : Build} {fixed : bool} {K V : Type} {cmp : K -> K -> comparison} {O : VebOps K V} (T : VebType fixed K V cmp O) (Hu : uncounted T = true).
  Notation L := (type_laws T).
  Lemma survives_winv t : survives T t -> winv L t.
  Proof.
    induction 1 as [k v|t c t' o _ IH Hr E|t k v s _ IH Hs].
    - apply L_from_monad.
    - destruct (step_weak L c (Some t) (ents L t)) as [ot [o' [bag [E' [Hb _]]]]].
      + split; auto.
      + destruct c; auto. destruct (Hr _ _ eq_refl) as [d [Hd Hn]]. rewrite <- (Permutation_length (contents_perm L t d IH Hd)). exact Hn.
      + rewrite E in E'. injection E' as <- <-. apply Hb.
    - exact (proj1 (unwound_left T Hu t k v s IH Hs)).
  Qed.
  Lemma survives_step t d c : survives T t -> contents O t d -> (forall k v, c = Insert k v -> (N.of_nat (length d) < usize_max)%N) ->
    exists ot o, step O c (Some t) = Ret (ot, o) /\
      match ot with
      | Some t' => survives T t' /\ exists d', contents O t' d' /\ Permutation (pairs_in c o ++ d) (pairs_out c o ++ d')
      | None => Permutation d (pairs_out c o)
      end.
  Proof.
    intros Hs Hd Hr. pose proof (survives_winv t Hs) as Hw. pose proof (contents_perm L t d Hw Hd) as HP.
    destruct (step_weak L c (Some t) d) as [ot [o [bag [E [Hb Hst]]]]].
    - split; auto.
    - destruct c; auto. eauto.
    - exists ot, o. split; [exact E|]. destruct Hst as [rest [H1 H2]]. destruct ot as [t'|].
      + split; [apply (sv_call T t c t' o); auto; intros k v Hc; exists d; eauto|]. destruct Hb as [Hw' HP'].
        destruct (contents_ents L t' Hw') as [d' [Hd' Hp]]. exists d'. split; [exact Hd'|]. rewrite Hp, <- HP', H1, H2.
        rewrite !app_assoc. apply Permutation_app_tail, Permutation_app_comm.
      + cbn in Hb. subst bag. apply Permutation_nil in H2. apply app_eq_nil in H2. destruct H2 as [_ ->]. rewrite app_nil_r in H1. exact H1.
  Qed.
  Lemma survives_contents t : survives T t -> exists d, contents O t d /\ d <> [].
  Proof.
    intros H. apply survives_winv in H. destruct (contents_ents L t H) as [d [Hd HP]]. exists d. split; [exact Hd|]. intros ->.
    apply Permutation_nil in HP. exact (L_nonempty L t H HP).
  Qed.
  Lemma caught_pairs t d k v s : survives T t -> contents O t d -> In s (unwound T t k v) ->
    survives T s /\ exists d' lost, contents O s d' /\ Permutation ((k, v) :: d) (d' ++ lost) /\ lost <> [].
  Proof.
    intros Hs Hd Hi. split; [exact (sv_caught T t k v s Hs Hi)|]. pose proof (survives_winv t Hs) as Hw.
    destruct (unwound_left T Hu t k v s Hw Hi) as [Hw' [[lost [HP Hl]] _]]. destruct (contents_ents L s Hw') as [d' [Hd' Hp]].
    exists d', lost. split; [exact Hd'|]. split; [|exact Hl]. rewrite (contents_perm L t d Hw Hd), HP, Hp. reflexivity.
  Qed.

  Lemma reachable_survives t : reachable O t -> survives T t.
  Proof.
    intros [cs [os [E Hf]]]. assert (H : forall cs ot bag ot' os, weakO L ot bag -> match ot with Some t => survives T t | None => True end -> run O cs ot = Ret (ot', os) ->
      fitting cs os (length bag) -> match ot' with Some t => survives T t | None => True end).
    { clear. intros cs. induction cs as [|c cs IH]; intros ot bag ot' os Hb Hs E Hf; cbn [run] in E.
      - injection E as <- <-. exact Hs.
      - destruct (step O c ot) as [[ot1 o]|] eqn:E1; [|discriminate E]. cbn [bind] in E. destruct (run O cs ot1) as [[ot2 os1]|] eqn:E2; cbn [bind] in E; [|discriminate E].
        injection E as <- <-. destruct Hf as [Hf1 Hf2]. destruct (step_weak L c ot bag Hb Hf1) as [ot1' [o' [bag1 [E1' [Hb1 [rest [H1 H2]]]]]]]. rewrite E1 in E1'. injection E1' as <- <-.
        apply (IH ot1 bag1 ot2 os1 Hb1); [|exact E2|].
        + destruct ot1 as [t1|]; [|exact I]. destruct ot as [t|].
          * apply (sv_call T t c t1 o Hs); [|exact E1]. intros k v ->. destruct Hb as [Hw HP]. destruct (contents_ents L t Hw) as [d [Hd HP']]. exists d. split; [exact Hd|].
            rewrite (Permutation_length HP'), <- (Permutation_length HP). exact Hf1.
          * destruct c; cbn in E1; try discriminate E1. injection E1 as <- _. apply sv_new.
        + replace (length bag1) with (length bag + length (pairs_in c o) - length (pairs_out c o)); [exact Hf2|].
          apply Permutation_length in H1, H2. rewrite app_length in H1, H2. lia. }
    exact (H cs None [] _ _ eq_refl I E Hf).
  Qed.
  Lemma survives_stored t d : survives T t -> contents O t d ->
    (exists p, v_min_val O t = Ret p /\ In p d) /\ (exists p, v_max_val O t = Ret p /\ In p d) /\
    (forall k p, v_find O t k = Ret (Some p) -> In p d /\ fst p = k) /\
    (forall k p, v_predecessor O t k = Ret (Some p) -> In p d) /\
    (forall k p, v_successor O t k = Ret (Some p) -> In p d) /\
    (forall k v t' p, (N.of_nat (length d) < usize_max)%N -> v_insert O t k v = Ret (t', Some p) -> In p d) /\
    (forall k ot p, v_remove O t k = Ret (Ok (ot, p)) -> In p d /\ fst p = k).
  Proof. intros H. apply (stored_w T t d). apply survives_winv, H. Qed.
  Lemma survives_read t d k v : survives T t -> contents O t d -> (N.of_nat (length d) < usize_max)%N ->
    exists t' r, v_insert O t k v = Ret (t', r) /\ v_find O t' k = Ret (Some (k, v)) /\ exists ot, v_remove O t' k = Ret (Ok (ot, (k, v))).
  Proof. intros H Hd Hl. destruct (read_w T t d k v (survives_winv t H) Hd Hl) as [t' [r [H1 [H2 [H3 _]]]]]. exists t', r. auto. Qed.

  Context (adm : list (K * V) -> K -> Prop) (Hcov : covered L adm).
  Let OL := type_ord T.
  Lemma repr_contents t l : repr L t l -> contents O t l.
  Proof. intros H. exists (length l). apply (drain_min OL L); auto. Qed.
  Lemma ents_sorted t : winv L t -> ord L t -> exists l, repr L t l.
  Proof. intros Hw Ho. destruct (sort_exists OL (ents L t) (L_nodup L t Hw Ho)) as [l [Ha HP]]. exists l. split; auto. Qed.
  Lemma orderly_repr t l : orderly T adm t l -> repr L t l.
  Proof.
    induction 1 as [k v|t l c t' o _ IH Hr E|t l k v s l' _ IH Ha Hs Hd].
    - apply repr_from.
    - destruct (step_refines OL L adm c (Some t) l Hcov IH) as [ot [E' Hrp]].
      + destruct c; auto. eauto.
      + rewrite E in E'. injection E' as <- _. exact Hrp.
    - destruct (unwound_left T Hu t k v s (proj1 IH) Hs) as [Hw [_ Ho]]. specialize (Ho (proj1 (proj2 IH)) (Hcov _ _ _ IH Ha)).
      destruct (ents_sorted s Hw Ho) as [l0 Hl0]. rewrite (contents_fun O s l' l0 Hd (repr_contents s l0 Hl0)). exact Hl0.
  Qed.
  Lemma orderly_map t l cs : orderly T adm t l -> ascending cmp l /\ contents O t l /\
    (admissible cmp adm cs l -> exists ot, run O cs (Some t) = Ret (ot, snd (sp_run cmp cs l)) /\ (ot = None <-> fst (sp_run cmp cs l) = [])).
  Proof.
    intros H. apply orderly_repr in H. split; [apply H|]. split; [exact (repr_contents t l H)|]. intros Ha.
    destruct (run_refines OL L adm cs Hcov (Some t) l H Ha) as [ot [E Hr]]. exists ot. split; [exact E|]. destruct ot as [t'|]; cbn in Hr.
    - split; [discriminate|]. intros E'. elim (repr_ne L t' _ Hr E').
    - rewrite Hr. tauto.
  Qed.
  Lemma orderly_caught t l k v s : orderly T adm t l -> adm l k -> In s (unwound T t k v) ->
    exists l' lost, orderly T adm s l' /\ Permutation ((k, v) :: l) (l' ++ lost) /\ lost <> [].
  Proof.
    intros H Ha Hs. pose proof (orderly_repr t l H) as Hr. destruct (unwound_left T Hu t k v s (proj1 Hr) Hs) as [Hw [[lost [HP Hl]] _]].
    destruct (contents_ents L s Hw) as [l' [Hd HP']]. exists l', lost. split; [exact (or_caught T adm t l k v s l' H Ha Hs Hd)|]. split; [|exact Hl].
    rewrite (proj2 (proj2 (proj2 Hr))), HP, HP'. reflexivity.
  Qed.
  Lemma orderly_len t l : orderly T adm t l -> (N.of_nat (length l) <= usize_max)%N.
  Proof.
    induction 1 as [k v|t l c t' o H IH Hr E|t l k v s l' H IH Ha Hs Hd].
    - cbn [length]. unfold usize_max, usize_bits. destruct ptr; cbn; lia.
    - apply orderly_repr in H. assert (Hl : admissible cmp adm [c] l) by (split; [|exact I]; destruct c; eauto).
      pose proof (admissible_len OL adm [c] l (proj1 (proj2 (proj2 H))) IH Hl) as Hn. cbn [sp_run] in Hn. destruct (sp_step cmp c l). exact Hn.
    - destruct (orderly_caught t l k v s H Ha Hs) as [l2 [lost [H2 [HP Hl]]]]. apply orderly_repr in H2. rewrite (contents_fun O s l' l2 Hd (repr_contents s l2 H2)).
      apply Permutation_length in HP. rewrite app_length in HP. cbn [length] in HP. destruct lost; [congruence|]. cbn [length] in HP. lia.
  Qed.
  Lemma orderly_iter t l dirs : orderly T adm t l -> exists it, it_run O (eqb cmp) t dirs it_new = Ret (it, fst (sp_pops dirs l)).
  Proof.
    intros H. assert (Hl := orderly_len t l H). apply orderly_repr in H. destruct (it_run_ok OL L t l H Hl dirs it_new l (inv_new l)) as [it [E _]]. eauto.
  Qed.
  Lemma run_orderly cs : forall ot l ot' os, match ot with Some t => orderly T adm t l | None => l = [] end -> admissible cmp adm cs l ->
    run O cs ot = Ret (ot', os) -> match ot' with Some t => orderly T adm t (fst (sp_run cmp cs l)) | None => fst (sp_run cmp cs l) = [] end.
  Proof.
    induction cs as [|c cs IH]; intros ot l ot' os H Ha E.
    - cbn [run sp_run fst] in *. injection E as <- <-. exact H.
    - cbn [run] in E. destruct Ha as [Ha Ha2]. destruct (step_refines OL L adm c ot l Hcov) as [ot1 [E1 Hr1]]; [destruct ot; [apply orderly_repr|]; exact H|exact Ha|].
      rewrite E1 in E. cbn [bind] in E. destruct (run O cs ot1) as [[ot2 os2]|] eqn:E2; cbn [bind] in E; [|discriminate E]. injection E as <- _.
      assert (H1 : match ot1 with Some t => orderly T adm t (fst (sp_step cmp c l)) | None => fst (sp_step cmp c l) = [] end).
      { destruct ot1 as [t1|]; [|exact Hr1]. destruct ot as [t|].
        - apply (or_call T adm t l c t1 (snd (sp_step cmp c l)) H); [|exact E1]. intros k v ->. exact Ha.
        - cbn in H. subst l. destruct c; cbn in E1; try discriminate E1. injection E1 as <-. apply or_new. }
      specialize (IH ot1 _ ot2 os2 H1 Ha2 E2). cbn [sp_run]. destruct (sp_step cmp c l) as [l1 o]. cbn [fst] in IH. destruct (sp_run cmp cs l1) as [l2 os']. exact IH.
  Qed.
  Lemma reached_orderly t l : reached cmp O adm t l -> orderly T adm t l.
  Proof. intros [cs [os [Ha [E <-]]]]. exact (run_orderly cs None [] _ _ eq_refl Ha E). Qed.
End Survive.

(** *** All but two pairs can be lost *)
Fixpoint tree_top {B : Build} {fixed K V cmp O} (T : VebType fixed K V cmp O) : bool :=
  match T with
  | VT_Tree _ _ _ _ _ _ _ _ _ _ _ _ _ => true
  | VT_Box _ _ _ _ _ T' => tree_top T'
  | _ => false
  end.
Lemma tree_uncounted {B : Build} {fixed K V cmp O} (T : VebType fixed K V cmp O) : tree_top T = true -> uncounted T = true.
Proof. induction T; cbn; auto; discriminate. Qed.
Lemma lose_repr {B : Build} {fixed K V cmp O} (T : VebType fixed K V cmp O) : tree_top T = true ->
  forall t mn mid mx k v, repr (type_laws T) t (mn :: mid ++ [mx]) -> cmp (fst mn) k = Lt -> cmp k (fst mx) = Lt ->
  exists s, In s (unwound T t k v) /\ winv (type_laws T) s /\ ord (type_laws T) s /\ ents (type_laws T) s = [mn; mx].
Proof.
  induction T; intros Ht t mn mid mx k v Hr H1 H2; cbn [tree_top unwound] in *; try discriminate Ht.
  - clear IHT1 IHT2. destruct (repr_min (KL_k KL) _ t _ Hr) as [p [E1 E2]]. destruct (repr_max (KL_k KL) _ t _ Hr) as [q [E3 E4]].
    cbn in E2. injection E2 as <-. unfold sp_max in E4. change (mn :: mid ++ [mx]) with ((mn :: mid) ++ [mx]) in E4.
    assert (q = mx) by (clear - E4; revert E4; generalize (mn :: mid); intros l; induction l as [|a [|b l] IH]; cbn; [congruence|congruence|exact IH]).
    subst q. cbn [v_min_val v_max_val Tree_ops] in E1, E3. unfold tr_min_val in E1. unfold tr_max_val in E3. injection E1 as <-.
    destruct t as [m [d|]]; cbn [t_min t_data] in *.
    2:{ injection E3 as ->. rewrite (proj2 (cmp_gt_lt (KL_k KL) _ _) H1) in H2. discriminate. }
    injection E3 as <-. exists (TR m (Some (TD (d_max d) None))). split.
    + unfold w_insert, wbind at 1, wcall at 1. cbn [snd fst t_min t_data]. rewrite (proj2 (cmp_gt_lt (KL_k KL) _ _) H1).
      apply in_or_app. right. unfold wbind at 1, wcall at 1. cbn [snd fst]. rewrite H2. apply in_or_app. right.
      unfold w_push, wbind at 1, wcall at 1. cbn [snd fst]. apply in_or_app. right. destruct (k_split_val ko k) as [h l]. destruct (d_children d) as [[x c]|].
      * unfold wbind at 1, wcall at 1. cbn [snd fst]. destruct (c_insert_key C c h (l, v)) as [[c' r]|]; cbn [fst]; left; reflexivity.
      * unfold wbind at 1, wcall at 1. cbn [snd fst]. destruct (c_create C h _); cbn [fst]; left; reflexivity.
    + split; [exact I|]. split; [|reflexivity]. cbn. split; [|split; [intros ? []|exact I]]. eapply (cmp_trans (KL_k KL)); eassumption.
  - destruct (IHT Ht (unbox t) mn mid mx k v Hr H1 H2) as [s [Hs H]]. exists (mkbox s). split; [apply in_map, Hs|exact H].
Qed.
Lemma lose {B : Build} {fixed K V cmp O} (T : VebType fixed K V cmp O) adm : tree_top T = true -> allowed T adm ->
  forall t mn mid mx k v, orderly T adm t (mn :: mid ++ [mx]) -> cmp (fst mn) k = Lt -> cmp k (fst mx) = Lt ->
  exists s, In s (unwound T t k v) /\ contents O s [mn; mx].
Proof.
  intros Ht Ha t mn mid mx k v H H1 H2. apply (orderly_repr T (tree_uncounted T Ht) adm (allowed_covered T adm Ha)) in H.
  destruct (lose_repr T Ht t mn mid mx k v H H1 H2) as [s [Hs [Hw [Ho He]]]]. exists s. split; [exact Hs|].
  apply (repr_contents T). split; [exact Hw|]. split; [exact Ho|]. split; [|rewrite He; reflexivity].
  constructor; [constructor; constructor|]. constructor; [|constructor]. eapply (cmp_trans (type_ord T)); eassumption.
Qed.

(** *** Exactly what can be left *)
Section Exactly.
  Context {B : Build} (fixed : bool) {K Hi Lo V : Type} {ko : KeyOps K Hi Lo} (KL : KeyLaws ko)
    {S : VebOps Hi unit} {Tr : VebOps Lo V} {C : CollOps Hi Lo V Tr}.
  Notation cmp := (k_cmp ko).
  Notation T := (Tree (K := K) S Tr C).
  Lemma in_push (s : T) mn mx och k v : In s (fst (w_push ko S Tr C mn mx och k v)) <-> s = TR mn (Some (TD mx och)) \/ s = TR mn (Some (TD mx None)).
  Proof.
    split; [apply w_push_states|]. intros H. unfold w_push, wbind at 1, wcall at 1. cbn [snd fst]. destruct (k_split_val ko k) as [h l].
    apply in_or_app. destruct H as [-> | ->]; [left; left; reflexivity|right]. destruct och as [[x c]|].
    - unfold wbind at 1, wcall at 1. cbn [snd fst]. destruct (c_insert_key C c h (l, v)) as [[c' r]|]; cbn [fst]; left; reflexivity.
    - unfold wbind at 1, wcall at 1. cbn [snd fst]. destruct (c_create C h _); cbn [fst]; left; reflexivity.
  Qed.
  Lemma in_insert (s : T) m d k v : (cmp k (fst m) = Lt -> fixed = true) -> cmp (fst m) (fst (d_max d)) = Lt ->
    In s (fst (w_insert fixed ko S Tr C (TR m (Some d)) k v)) <-> s = TR m (Some d) \/
      match cmp k (fst m), cmp k (fst (d_max d)) with
      | Lt, _ => s = TR (k, v) (Some d) \/ s = TR (k, v) (Some (TD (d_max d) None))
      | Gt, Lt => s = TR m (Some (TD (d_max d) None))
      | Gt, Gt => s = TR m (Some (TD (k, v) (d_children d))) \/ s = TR m (Some (TD (k, v) None))
      | _, _ => False
      end.
  Proof.
    intros Hf Hm. unfold w_insert, wbind at 1, wcall at 1. cbn [snd fst t_min t_data]. rewrite in_app_iff.
    assert (Ed : TD (d_max d) (d_children d) = d) by (destruct d; reflexivity).
    destruct (cmp k (fst m)) eqn:E.
    - cbn. intuition auto.
    - rewrite (Hf eq_refl). destruct m as [k1 v1]. cbn [fst] in *. unfold wbind at 1, wcall. cbn [snd fst].
      rewrite (proj2 (cmp_gt_lt (KL_k KL) _ _) Hm), in_app_iff, in_push, Ed. cbn [In]. intuition auto.
    - unfold wbind at 1, wcall. cbn [snd fst]. destruct (cmp k (fst (d_max d))).
      + cbn. intuition auto.
      + rewrite in_app_iff, in_push, Ed. cbn [In]. intuition auto.
      + rewrite in_app_iff, in_push. cbn [In]. intuition auto.
  Qed.
End Exactly.
Lemma two_ends {A} (l : list A) : match l with _ :: _ :: _ => exists a m b, l = a :: m ++ [b] | _ => True end.
Proof.
  destruct l as [|a [|b l]]; auto. exists a. destruct (exists_last (l := b :: l)) as [m [x E]]; [discriminate|]. exists m, x. rewrite E. reflexivity.
Qed.
Lemma left_repr {B : Build} {fixed K V cmp O} (T : VebType fixed K V cmp O) : tree_top T = true ->
  forall t l k v, repr (type_laws T) t l -> safe (type_laws T) t k ->
  (forall s, In s (unwound T t k v) -> exists d, repr (type_laws T) s d /\ remnant cmp l (k, v) d) /\
  (forall d, remnant cmp l (k, v) d -> exists s, In s (unwound T t k v) /\ repr (type_laws T) s d).
Proof.
  induction T; intros Ht t l k v Hr Hs; cbn [tree_top unwound] in *; try discriminate Ht.
  2:{ destruct (IHT Ht (unbox t) l k v Hr Hs) as [H1 H2]. split.
      - intros s Hin. apply in_map_iff in Hin. destruct Hin as [s' [<- Hin]]. exact (H1 s' Hin).
      - intros d Hd. destruct (H2 d Hd) as [s [Hin H]]. exists (mkbox s). split; [apply in_map, Hin|exact H]. }
  clear IHT1 IHT2. set (OL := KL_k KL). set (LL := type_laws (VT_Tree fixed K Hi Lo V ko KL S Tr C T1 T2 CT)) in *.
  destruct t as [m [[x ch]|]].
  2:{ assert (El : l = [m]).
      { destruct Hr as [_ [_ [_ HP]]]. cbn in HP. apply Permutation_sym, Permutation_length_1_inv in HP. exact HP. }
      assert (Hu : fst (w_insert fixed ko S Tr C (TR m None) k v) = [TR m None]).
      { unfold w_insert, wbind, wcall. cbn [snd fst t_min t_data]. destruct (k_cmp ko k (fst m)); reflexivity. }
      rewrite Hu. split.
      - intros s [<-|[]]. exists l. split; [exact Hr|left; reflexivity].
      - intros d [-> | [mn [mid [mx [E _]]]]]; [exists (TR m None); split; [left; reflexivity|exact Hr]|]. rewrite El in E. destruct mid; discriminate E. }
  assert (Hend : exists mid, l = m :: mid ++ [x] /\ k_cmp ko (fst m) (fst x) = Lt /\ Permutation mid (och_ents (type_laws T2) (coll_laws CT) ch)).
  { destruct (repr_min OL LL _ _ Hr) as [p [E1 E2]]. destruct (repr_max OL LL _ _ Hr) as [q [E3 E4]]. cbn in E1, E3. injection E1 as <-. injection E3 as <-.
    pose proof (two_ends l) as H2. destruct Hr as [Hw [Ho [Ha HP]]]. destruct l as [|a [|b l]]; [discriminate E2| |].
    - apply Permutation_length in HP. cbn in HP. discriminate HP.
    - destruct H2 as [a' [mid [y E]]]. rewrite E in *. clear E. cbn in E2. injection E2 as ->.
      assert (y = x) by (clear - E4; unfold sp_max in E4; change (m :: mid ++ [y]) with ((m :: mid) ++ [y]) in E4; revert E4; generalize (m :: mid);
        intros l; induction l as [|a [|b l] IH]; cbn; [congruence|congruence|exact IH]). subst y.
      exists mid. split; [reflexivity|]. split; [exact (proj1 Ho)|]. cbn [ents LL type_laws Tree_laws] in HP. unfold tr_ents in HP. cbn [t_min t_data d_max d_children] in HP.
      apply Permutation_cons_inv in HP. rewrite <- Permutation_cons_append in HP. apply Permutation_cons_inv in HP. exact HP. }
  destruct Hend as [mid [El [Hmx HPm]]]. 
  assert (Hf : k_cmp ko k (fst m) = Lt -> fixed = true).
  { intros E. cbn [safe LL type_laws Tree_laws] in Hs. unfold tr_safe in Hs. cbn [t_min t_data] in Hs. rewrite E in Hs. apply Hs. }
  assert (Hrep : forall s d, In s (fst (w_insert fixed ko S Tr C (TR m (Some (TD x ch))) k v)) -> ascending (k_cmp ko) d -> Permutation d (ents LL s) -> repr LL s d).
  { intros s d Hin Ha HP. destruct (tree_left fixed KL (type_laws T1) (type_laws T2) (coll_laws CT) (TR m (Some (TD x ch))) s k v (proj1 Hr) Hin) as [Hw [_ Ho]].
    split; [exact Hw|]. split; [exact (Ho (proj1 (proj2 Hr)) Hs)|]. split; assumption. }
  assert (Hasc : ascending (k_cmp ko) mid /\ (forall q, In q mid -> k_cmp ko (fst m) (fst q) = Lt /\ k_cmp ko (fst q) (fst x) = Lt)).
  { destruct Hr as [_ [_ [Ha _]]]. rewrite El in Ha. apply asc_cons in Ha. destruct Ha as [Ha H1]. apply asc_app in Ha. destruct Ha as [H2 [_ H3]].
    split; [exact H2|]. intros q Hq. split; [apply H1, in_or_app; left; exact Hq|apply H3; [exact Hq|left; reflexivity]]. }
  destruct Hasc as [Hasc Hbet].
  assert (Hext : forall a b : K * V, k_cmp ko (fst a) (fst b) = Lt -> (forall q, In q mid -> k_cmp ko (fst a) (fst q) = Lt /\ k_cmp ko (fst q) (fst b) = Lt) ->
    ascending (k_cmp ko) (a :: mid ++ [b])).
  { intros a b Hab H. apply asc_cons. split.
    - apply asc_app. split; [exact Hasc|]. split; [apply asc_cons; split; [apply asc_nil|intros ? []]|]. intros q b' Hq [<-|[]]. apply H, Hq.
    - intros q Hq. apply in_app_or in Hq. destruct Hq as [Hq|[<-|[]]]; [apply H, Hq|exact Hab]. }
  assert (Htwo : forall a b : K * V, k_cmp ko (fst a) (fst b) = Lt -> ascending (k_cmp ko) [a; b]).
  { intros a b Hab. apply asc_cons. split; [apply asc_cons; split; [apply asc_nil|intros ? []]|]. intros q [<-|[]]. exact Hab. }
  assert (Hperm : forall a b : K * V, Permutation (a :: mid ++ [b]) (a :: b :: och_ents (type_laws T2) (coll_laws CT) ch)).
  { intros a b. apply perm_skip. rewrite <- Permutation_cons_append. apply perm_skip. exact HPm. }
  assert (Htr : forall a b c : K, k_cmp ko a b = Lt -> k_cmp ko b c = Lt -> k_cmp ko a c = Lt) by (intros; eapply (cmp_trans OL); eassumption).
  pose proof (fun s => in_insert fixed KL s m (TD x ch) k v Hf Hmx) as Hin. cbn [d_max d_children] in Hin.
  assert (Hrem : forall d, remnant (k_cmp ko) l (k, v) d <-> d = l \/
    match k_cmp ko k (fst m), k_cmp ko k (fst x) with
    | Lt, _ => d = (k, v) :: mid ++ [x] \/ d = [(k, v); x]
    | Gt, Lt => d = [m; x]
    | Gt, Gt => d = m :: mid ++ [(k, v)] \/ d = [m; (k, v)]
    | _, _ => False
    end).
  { intros d. unfold remnant. cbn [fst]. split.
    - intros [H|[mn [mid' [mx [E H]]]]]; [left; exact H|right]. rewrite El in E. injection E as <- E. apply app_inj_tail in E. destruct E as [<- <-]. exact H.
    - intros [H|H]; [left; exact H|right]. exists m, mid, x. split; [exact El|exact H]. }
  destruct (k_cmp ko k (fst m)) eqn:Ek.
  - split.
    + intros s Hi'. apply Hin in Hi'. destruct Hi' as [-> | []]. exists l. split; [exact Hr|left; reflexivity].
    + intros d Hd. apply Hrem in Hd. destruct Hd as [-> | []]. eexists. split; [apply Hin; left; reflexivity|exact Hr].
  - assert (A1 : ascending (k_cmp ko) ((k, v) :: mid ++ [x])) by (apply Hext; cbn [fst]; [eauto|]; intros q Hq; destruct (Hbet q Hq); eauto).
    assert (A2 : ascending (k_cmp ko) [(k, v); x]) by (apply Htwo; cbn [fst]; eauto).
    assert (R1 : repr LL (TR (k, v) (Some (TD x ch))) ((k, v) :: mid ++ [x])) by (apply Hrep; [apply Hin; right; left; reflexivity|exact A1|apply Hperm]).
    assert (R2 : repr LL (TR (k, v) (Some (TD x None))) [(k, v); x]) by (apply Hrep; [apply Hin; right; right; reflexivity|exact A2|reflexivity]).
    split.
    + intros s Hi'. apply Hin in Hi'. destruct Hi' as [-> | [-> | ->]]; eexists; (split; [eassumption|]); apply Hrem; [left|right; left|right; right]; reflexivity.
    + intros d Hd. apply Hrem in Hd. destruct Hd as [-> | [-> | ->]]; eexists; (split; [|eassumption]); apply Hin; [left|right; left|right; right]; reflexivity.
  - apply (cmp_gt_lt OL) in Ek. destruct (k_cmp ko k (fst x)) eqn:Ex.
    + split.
      * intros s Hi'. apply Hin in Hi'. destruct Hi' as [-> | []]. exists l. split; [exact Hr|left; reflexivity].
      * intros d Hd. apply Hrem in Hd. destruct Hd as [-> | []]. eexists. split; [apply Hin; left; reflexivity|exact Hr].
    + assert (R2 : repr LL (TR m (Some (TD x None))) [m; x]) by (apply Hrep; [apply Hin; right; reflexivity|apply Htwo; exact Hmx|reflexivity]).
      split.
      * intros s Hi'. apply Hin in Hi'. destruct Hi' as [-> | ->]; eexists; (split; [eassumption|]); apply Hrem; [left|right]; reflexivity.
      * intros d Hd. apply Hrem in Hd. destruct Hd as [-> | ->]; eexists; (split; [|eassumption]); apply Hin; [left|right]; reflexivity.
    + apply (cmp_gt_lt OL) in Ex.
      assert (R1 : repr LL (TR m (Some (TD (k, v) ch))) (m :: mid ++ [(k, v)])).
      { apply Hrep; [apply Hin; right; left; reflexivity| |apply Hperm]. apply Hext; cbn [fst]; [exact Ek|]. intros q Hq. destruct (Hbet q Hq). eauto. }
      assert (R2 : repr LL (TR m (Some (TD (k, v) None))) [m; (k, v)]) by (apply Hrep; [apply Hin; right; right; reflexivity|apply Htwo; exact Ek|reflexivity]).
      split.
      * intros s Hi'. apply Hin in Hi'. destruct Hi' as [-> | [-> | ->]]; eexists; (split; [eassumption|]); apply Hrem; [left|right; left|right; right]; reflexivity.
      * intros d Hd. apply Hrem in Hd. destruct Hd as [-> | [-> | ->]]; eexists; (split; [|eassumption]); apply Hin; [left|right; left|right; right]; reflexivity.
Qed.
Lemma left_exactly {B : Build} {fixed K V cmp O} (T : VebType fixed K V cmp O) adm : tree_top T = true -> allowed T adm ->
  forall t l k v d, orderly T adm t l -> adm l k -> (exists s, In s (unwound T t k v) /\ contents O s d) <-> remnant cmp l (k, v) d.
Proof.
  intros Ht Ha t l k v d H Hk. apply (orderly_repr T (tree_uncounted T Ht) adm (allowed_covered T adm Ha)) in H.
  destruct (left_repr T Ht t l k v H (allowed_covered T adm Ha _ _ _ H Hk)) as [H1 H2]. split.
  - intros [s [Hs Hd]]. destruct (H1 s Hs) as [d' [Hr Hm]]. rewrite (contents_fun O s d d' Hd (repr_contents T s d' Hr)). exact Hm.
  - intros Hm. destruct (H2 d Hm) as [s [Hs Hr]]. exists s. split; [exact Hs|exact (repr_contents T s d Hr)].
Qed.
Lemma counted_unwound {B : Build} {fixed K V cmp O} (T : VebType fixed K V cmp O) (t s : vt (Sized_ops O)) k v :
  In s (unwound (VT_Sized _ _ _ _ _ T) t k v) <-> In (sz_tree s) (unwound T (sz_tree t) k v) /\ sz_len s = sz_len t.
Proof.
  cbn [unwound]. rewrite in_map_iff. split.
  - intros [s' [<- H]]. split; [exact H|reflexivity].
  - intros [H E]. exists (sz_tree s). split; [|exact H]. unfold sz_len in E. rewrite <- E. destruct s; reflexivity.
Qed.

(** *** Counted trees *)
Section Counted.
  Context {B : Build} {fixed : bool} {K V : Type} {cmp : K -> K -> comparison} {O : VebOps K V} (T : VebType fixed K V cmp O) (Hu : uncounted T = true).
  Notation L := (type_laws T).
  Notation SO := (Sized_ops O).
  Definition loose (t : vt SO) : Prop := winv L (sz_tree t) /\ (N.of_nat (length (ents L (sz_tree t))) <= sz_size t)%N.
  Lemma loose_taken (t : vt SO) p t' : loose t -> taken (winv L) (ord L) (ents L) (sz_tree t) p (Some t') ->
    exists n, checked_sub (sz_size t) 1 = Ret n /\ nonzero n = Some n /\ loose (SZ t' n).
  Proof.
    intros [Hw Hl] [Hw' [HP _]]. apply Permutation_length in HP. cbn [length] in HP. assert (length (ents L t') <> 0).
    { intros E. apply length_zero_iff_nil in E. exact (L_nonempty L t' Hw' E). }
    exists (sz_size t - 1)%N. split; [|split].
    - unfold checked_sub. destruct (1 <=? sz_size t)%N eqn:E; [reflexivity|]. apply N.leb_gt in E. lia.
    - unfold nonzero. destruct (sz_size t - 1 =? 0)%N eqn:E; [|reflexivity]. apply N.eqb_eq in E. lia.
    - split; [exact Hw'|]. cbn [sz_tree sz_size]. lia.
  Qed.
  Lemma loose_step c (t : vt SO) : loose t -> c <> IsMonad -> (forall k v, c = Insert k v -> (sz_size t < usize_max)%N) ->
    exists ot o, step SO c (Some t) = Ret (ot, o) /\ step O c (Some (sz_tree t)) = Ret (option_map sz_tree ot, o) /\
      match ot with Some t' => loose t' | None => True end.
  Proof.
    intros Hl Hc Hr. pose proof Hl as [Hw Hn].
    assert (Hput : forall p put, lens_ok (winv L) (ord L) (ents L) (sz_tree t) p put -> forall w, loose (SZ (put w) (sz_size t))).
    { intros p put [rest [H1 H2]] w. destruct (H2 w) as [H3 [H4 _]]. split; [exact H3|]. cbn [sz_tree sz_size].
      rewrite (Permutation_length H4). rewrite (Permutation_length H1) in Hn. exact Hn. }
    destruct c; cbn [step]; unfold query, query1, write, write1; cbn [Sized_ops v_insert v_remove v_remove_min v_remove_max v_into_monad v_min_val v_max_val
      v_find v_predecessor v_successor v_min_val_mut v_max_val_mut v_find_mut v_predecessor_mut v_successor_mut].
    - specialize (Hr _ _ eq_refl). unfold sz_insert. destruct (L_insert L (sz_tree t) k v Hw) as [t' [r [E [Hw' [HP _]]]]]; [lia|]. rewrite E. cbn [bind].
      destruct r as [q|].
      + destruct HP as [rest [H1 H2]]. cbn [bind]. eexists _, _. split; [reflexivity|]. split; [reflexivity|]. split; [exact Hw'|]. cbn [sz_tree sz_size].
        rewrite (Permutation_length H2). rewrite (Permutation_length H1) in Hn. exact Hn.
      + unfold checked_add. replace (sz_size t + 1 <=? usize_max)%N with true by (symmetry; apply N.leb_le; lia). cbn [expect bind].
        eexists _, _. split; [reflexivity|]. split; [reflexivity|]. split; [exact Hw'|]. cbn [sz_tree sz_size]. rewrite (Permutation_length HP). cbn [length]. lia.
    - unfold sz_remove. destruct (L_remove L (sz_tree t) k Hw) as [[ot [p [E [_ Ht]]]]|[E _]]; rewrite E; cbn [bind].
      + destruct ot as [t'|].
        * destruct (loose_taken t p t' Hl Ht) as [n [E1 [E2 H3]]]. rewrite E1. cbn [bind]. rewrite E2. cbn [expect bind]. eexists _, _. split; [reflexivity|]. split; [reflexivity|exact H3].
        * cbn [bind]. eexists _, _. split; [reflexivity|]. split; [reflexivity|exact I].
      + cbn [bind]. eexists _, _. split; [reflexivity|]. split; [reflexivity|exact Hl].
    - unfold sz_remove_end. destruct (L_remove_min L (sz_tree t) Hw) as [ot [p [E [_ Ht]]]]. destruct ot as [t'|].
      + destruct (loose_taken t p t' Hl Ht) as [n [E1 [E2 H3]]]. rewrite E1. cbn [bind]. rewrite E. cbn [bind]. rewrite E2. cbn [expect bind].
        eexists _, _. split; [reflexivity|]. split; [reflexivity|exact H3].
      + assert (Es : exists n, checked_sub (sz_size t) 1 = Ret n).
        { unfold checked_sub. destruct (1 <=? sz_size t)%N eqn:E1; [eauto|]. apply N.leb_gt in E1. cbn in Ht. rewrite Ht in Hn. cbn in Hn. lia. }
        destruct Es as [n Es]. rewrite Es. cbn [bind]. rewrite E. cbn [bind]. eexists _, _. split; [reflexivity|]. split; [reflexivity|exact I].
    - unfold sz_remove_end. destruct (L_remove_max L (sz_tree t) Hw) as [ot [p [E [_ Ht]]]]. destruct ot as [t'|].
      + destruct (loose_taken t p t' Hl Ht) as [n [E1 [E2 H3]]]. rewrite E1. cbn [bind]. rewrite E. cbn [bind]. rewrite E2. cbn [expect bind].
        eexists _, _. split; [reflexivity|]. split; [reflexivity|exact H3].
      + assert (Es : exists n, checked_sub (sz_size t) 1 = Ret n).
        { unfold checked_sub. destruct (1 <=? sz_size t)%N eqn:E1; [eauto|]. apply N.leb_gt in E1. cbn in Ht. rewrite Ht in Hn. cbn in Hn. lia. }
        destruct Es as [n Es]. rewrite Es. cbn [bind]. rewrite E. cbn [bind]. eexists _, _. split; [reflexivity|]. split; [reflexivity|exact I].
    - destruct (L_into_monad L (sz_tree t) Hw) as [[p [E _]]|[E _]]; rewrite E; cbn [bind]; eexists _, _; (split; [reflexivity|]); (split; [reflexivity|]); [exact I|exact Hl].
    - congruence.
    - destruct (L_min L (sz_tree t) Hw) as [p [E _]]. rewrite E. cbn [bind]. eexists _, _. split; [reflexivity|]. split; [reflexivity|exact Hl].
    - destruct (L_max L (sz_tree t) Hw) as [p [E _]]. rewrite E. cbn [bind]. eexists _, _. split; [reflexivity|]. split; [reflexivity|exact Hl].
    - destruct (L_find L (sz_tree t) k Hw) as [p [E _]]. rewrite E. cbn [bind]. eexists _, _. split; [reflexivity|]. split; [reflexivity|exact Hl].
    - destruct (L_pred L (sz_tree t) k Hw) as [p [E _]]. rewrite E. cbn [bind]. eexists _, _. split; [reflexivity|]. split; [reflexivity|exact Hl].
    - destruct (L_succ L (sz_tree t) k Hw) as [p [E _]]. rewrite E. cbn [bind]. eexists _, _. split; [reflexivity|]. split; [reflexivity|exact Hl].
    - destruct (L_min_mut L (sz_tree t) Hw) as [p [put [E [_ H]]]]. rewrite E. cbn [rmap bind]. unfold sz_lens. cbn [fst snd bind].
      eexists _, _. split; [reflexivity|]. split; [reflexivity|]. cbn. apply (Hput p). exact H.
    - destruct (L_max_mut L (sz_tree t) Hw) as [p [put [E [_ H]]]]. rewrite E. cbn [rmap bind]. unfold sz_lens. cbn [fst snd bind].
      eexists _, _. split; [reflexivity|]. split; [reflexivity|]. cbn. apply (Hput p). exact H.
    - destruct (L_find_mut L (sz_tree t) k Hw) as [[[p put]|] [E [_ H]]]; rewrite E; cbn [rmap bind omap]; unfold sz_lens; cbn [fst snd bind];
        eexists _, _; (split; [reflexivity|]); (split; [reflexivity|]); [apply (Hput p); apply H; reflexivity|exact Hl].
    - destruct (L_pred_mut L (sz_tree t) k Hw) as [[[p put]|] [E [_ H]]]; rewrite E; cbn [rmap bind omap]; unfold sz_lens; cbn [fst snd bind];
        eexists _, _; (split; [reflexivity|]); (split; [reflexivity|]); [apply (Hput p); apply H; reflexivity|exact Hl].
    - destruct (L_succ_mut L (sz_tree t) k Hw) as [[[p put]|] [E [_ H]]]; rewrite E; cbn [rmap bind omap]; unfold sz_lens; cbn [fst snd bind];
        eexists _, _; (split; [reflexivity|]); (split; [reflexivity|]); [apply (Hput p); apply H; reflexivity|exact Hl].
  Qed.
  (** What a call of the counted tree returns, the same call of the tree inside returns *)
  Lemma inner_step c (t : vt SO) ot o : step SO c (Some t) = Ret (ot, o) -> step O c (Some (sz_tree t)) = Ret (option_map sz_tree ot, o).
  Proof.
    destruct c; cbn [step]; unfold query, query1, write, write1; cbn [Sized_ops v_insert v_remove v_remove_min v_remove_max v_into_monad v_is_monad v_min_val v_max_val
      v_find v_predecessor v_successor v_min_val_mut v_max_val_mut v_find_mut v_predecessor_mut v_successor_mut].
    - unfold sz_insert. destruct (v_insert O (sz_tree t) k v) as [[t' r]|]; cbn [bind]; [|discriminate 1]. destruct r as [q|]; cbn [bind].
      + intros [= <- <-]. reflexivity.
      + destruct (expect (checked_add (sz_size t) 1)); cbn [bind]; [|discriminate 1]. intros [= <- <-]. reflexivity.
    - unfold sz_remove. destruct (v_remove O (sz_tree t) k) as [[[[t'|] p]|t']|]; cbn [bind]; [| | |discriminate 1].
      + destruct (checked_sub (sz_size t) 1) as [n|]; cbn [bind]; [|discriminate 1]. destruct (expect (nonzero n)); cbn [bind]; [|discriminate 1]. intros [= <- <-]. reflexivity.
      + intros [= <- <-]. reflexivity.
      + intros [= <- <-]. reflexivity.
    - unfold sz_remove_end. destruct (checked_sub (sz_size t) 1) as [n|]; cbn [bind]; [|discriminate 1]. destruct (v_remove_min O (sz_tree t)) as [[[t'|] p]|]; cbn [bind]; [| |discriminate 1].
      + destruct (expect (nonzero n)); cbn [bind]; [|discriminate 1]. intros [= <- <-]. reflexivity.
      + intros [= <- <-]. reflexivity.
    - unfold sz_remove_end. destruct (checked_sub (sz_size t) 1) as [n|]; cbn [bind]; [|discriminate 1]. destruct (v_remove_max O (sz_tree t)) as [[[t'|] p]|]; cbn [bind]; [| |discriminate 1].
      + destruct (expect (nonzero n)); cbn [bind]; [|discriminate 1]. intros [= <- <-]. reflexivity.
      + intros [= <- <-]. reflexivity.
    - destruct (v_into_monad O (sz_tree t)) as [[p|t']|]; cbn [bind]; [| |discriminate 1]; intros [= <- <-]; reflexivity.
    - destruct (v_is_monad O (sz_tree t)) as [[]|]; cbn [bind]; [| |discriminate 1].
      + destruct (debug_assert _); cbn [bind]; [|discriminate 1]. intros [= <- <-]. reflexivity.
      + intros [= <- <-]. reflexivity.
    - destruct (v_min_val O (sz_tree t)); cbn [bind]; [|discriminate 1]; intros [= <- <-]; reflexivity.
    - destruct (v_max_val O (sz_tree t)); cbn [bind]; [|discriminate 1]; intros [= <- <-]; reflexivity.
    - destruct (v_find O (sz_tree t) k); cbn [bind]; [|discriminate 1]; intros [= <- <-]; reflexivity.
    - destruct (v_predecessor O (sz_tree t) k); cbn [bind]; [|discriminate 1]; intros [= <- <-]; reflexivity.
    - destruct (v_successor O (sz_tree t) k); cbn [bind]; [|discriminate 1]; intros [= <- <-]; reflexivity.
    - destruct (v_min_val_mut O (sz_tree t)) as [[p put]|]; cbn [rmap bind]; [|discriminate 1]; intros [= <- <-]; reflexivity.
    - destruct (v_max_val_mut O (sz_tree t)) as [[p put]|]; cbn [rmap bind]; [|discriminate 1]; intros [= <- <-]; reflexivity.
    - destruct (v_find_mut O (sz_tree t) k) as [[[p put]|]|]; cbn [rmap bind omap]; [| |discriminate 1]; intros [= <- <-]; reflexivity.
    - destruct (v_predecessor_mut O (sz_tree t) k) as [[[p put]|]|]; cbn [rmap bind omap]; [| |discriminate 1]; intros [= <- <-]; reflexivity.
    - destruct (v_successor_mut O (sz_tree t) k) as [[[p put]|]|]; cbn [rmap bind omap]; [| |discriminate 1]; intros [= <- <-]; reflexivity.
  Qed.
  Lemma loose_ret c (t t' : vt SO) o : loose t -> (forall k v, c = Insert k v -> (N.of_nat (length (ents L (sz_tree t))) < usize_max)%N) ->
    step SO c (Some t) = Ret (Some t', o) -> loose t'.
  Proof.
    intros Hl Hr E. assert (Hs : c <> IsMonad -> (forall k v, c <> Insert k v) -> loose t').
    { intros H1 H2. destruct (loose_step c t Hl H1 (fun k v Hc => False_ind _ (H2 k v Hc))) as [ot [o' [E' [_ H]]]]. rewrite E in E'. injection E' as <- <-. exact H. }
    destruct c; try (apply Hs; discriminate); clear Hs.
    - pose proof Hl as [Hw Hn]. revert E. cbn [step Sized_ops v_insert]. unfold sz_insert.
      destruct (L_insert L (sz_tree t) k v Hw) as [t2 [r [E [Hw' [HP _]]]]]; [eauto|]. rewrite E. cbn [bind]. destruct r as [q|].
      + destruct HP as [rest [H1 H2]]. cbn [bind]. intros [= <- _]. split; [exact Hw'|]. cbn [sz_tree sz_size].
        rewrite (Permutation_length H2). rewrite (Permutation_length H1) in Hn. exact Hn.
      + unfold checked_add. destruct (sz_size t + 1 <=? usize_max)%N; cbn [expect bind]; [|discriminate 1]. intros [= <- _]. split; [exact Hw'|].
        cbn [sz_tree sz_size]. rewrite (Permutation_length HP). cbn [length]. lia.
    - apply (f_equal (fun r => match r with Ret (x, _) => x | Panic => None end)) in E. revert E. cbn [step]. unfold query. destruct (v_is_monad SO t); cbn [bind]; [|discriminate 1].
      intros [= <-]. exact Hl.
  Qed.
  Lemma drain_counted n : forall (ot : option (vt SO)) d, drain (v_remove_min SO) n ot = Ret (None, d) ->
    drain (v_remove_min O) n (option_map sz_tree ot) = Ret (None, d).
  Proof.
    induction n as [|n IH]; intros [t|] d; cbn [drain option_map]; try (intros [= <-]; reflexivity). intros E. pose proof (inner_step RemoveMin t) as Hi. cbn [step] in Hi. destruct (v_remove_min SO t) as [[ot p]|]; cbn [bind] in *; [|discriminate E].
    specialize (Hi _ _ eq_refl). destruct (v_remove_min O (sz_tree t)) as [[ot' p']|]; cbn [bind] in *; [|discriminate Hi]. injection Hi as -> ->.
    destruct (drain (v_remove_min SO) n ot) as [[x l]|] eqn:E2; cbn [bind] in *; [|discriminate E]. injection E as -> <-. rewrite (IH _ _ E2). reflexivity.
  Qed.
  Lemma drain_loose n : forall (ot : option (vt SO)) d, match ot with Some t => loose t | None => True end ->
    drain (v_remove_min O) n (option_map sz_tree ot) = Ret (None, d) -> drain (v_remove_min SO) n ot = Ret (None, d).
  Proof.
    induction n as [|n IH]; intros [t|] d Hl; cbn [drain option_map]; try (intros [= <-]; reflexivity). intros E. destruct (loose_step RemoveMin t Hl) as [ot [o [E1 [E2 H]]]]; [discriminate|discriminate|]. cbn [step] in E1, E2.
    destruct (v_remove_min SO t) as [[ot1 p]|]; cbn [bind] in *; [|discriminate E1]. destruct (v_remove_min O (sz_tree t)) as [[ot' p']|]; cbn [bind] in *; [|discriminate E2].
    injection E1 as -> <-. injection E2 as -> ->. destruct (drain (v_remove_min O) n (option_map sz_tree ot)) as [[x l]|] eqn:E3; cbn [bind] in *; [|discriminate E].
    injection E as -> <-. rewrite (IH _ _ H E3). reflexivity.
  Qed.
  Lemma counted_survives (t : vt SO) : survives (VT_Sized _ _ _ _ _ T) t -> survives T (sz_tree t) /\ loose t.
  Proof.
    induction 1 as [k v|t c t' o _ [IH1 IH2] Hr E|t k v s _ [IH1 IH2] Hs].
    - split; [apply sv_new|]. destruct (L_from_monad L k v) as [Hw [_ He]]. split; [exact Hw|]. cbn [Sized_ops v_from_monad sz_tree sz_size]. rewrite He. cbn. lia.
    - assert (Hr' : forall k v, c = Insert k v -> exists d, contents O (sz_tree t) d /\ (N.of_nat (length d) < usize_max)%N).
      { intros k v Hc. destruct (Hr k v Hc) as [d [[n Hd] Hn]]. exists d. split; [|exact Hn]. exists n. exact (drain_counted n (Some t) d Hd). }
      split; [apply (sv_call T (sz_tree t) c _ o IH1 Hr' (inner_step c t _ _ E))|]. apply (loose_ret c t t' o IH2); [|exact E].
      intros k v Hc. destruct (Hr' k v Hc) as [d [Hd Hn]]. rewrite <- (Permutation_length (contents_perm L _ d (proj1 IH2) Hd)). exact Hn.
    - cbn [unwound] in Hs. apply in_map_iff in Hs. destruct Hs as [s' [<- Hs]]. split; [exact (sv_caught T _ k v s' IH1 Hs)|].
      destruct (unwound_left T Hu _ k v s' (proj1 IH2) Hs) as [Hw [[lost [HP Hl]] _]]. split; [exact Hw|]. cbn [sz_tree sz_size]. destruct IH2 as [_ Hn].
      apply Permutation_length in HP. rewrite app_length in HP. cbn [length] in HP. destruct lost; [congruence|]. cbn [length] in HP. lia.
  Qed.
  Lemma counted_size (t : vt SO) : survives (VT_Sized _ _ _ _ _ T) t ->
    exists d, contents SO t d /\ contents O (sz_tree t) d /\ d <> [] /\ (N.of_nat (length d) <= sz_len t)%N.
  Proof.
    intros H. apply counted_survives in H. destruct H as [H1 H2]. destruct (survives_contents T Hu _ H1) as [d [Hd Hn]]. exists d. split; [|split; [exact Hd|split; [exact Hn|]]].
    - destruct Hd as [n Hd]. exists n. exact (drain_loose n (Some t) d H2 Hd).
    - unfold sz_len. rewrite (Permutation_length (contents_perm L _ d (proj1 H2) Hd)). apply H2.
  Qed.
  Lemma counted_step c (t : vt SO) : survives (VT_Sized _ _ _ _ _ T) t -> c <> IsMonad -> (forall k v, c = Insert k v -> (sz_len t < usize_max)%N) ->
    exists ot o, step SO c (Some t) = Ret (ot, o) /\ step O c (Some (sz_tree t)) = Ret (option_map sz_tree ot, o) /\
      match ot with Some t' => survives (VT_Sized _ _ _ _ _ T) t' | None => True end.
  Proof.
    intros H Hc Hr. destruct (counted_survives t H) as [H1 H2]. destruct (loose_step c t H2 Hc Hr) as [ot [o [E1 [E2 _]]]]. exists ot, o. split; [exact E1|]. split; [exact E2|].
    destruct ot as [t'|]; [|exact I]. apply (sv_call _ t c t' o H); [|exact E1]. intros k v Hk. destruct (counted_size t H) as [d [Hd [_ [_ Hl]]]]. exists d. split; [exact Hd|].
    eapply N.le_lt_trans; [exact Hl|]. eauto.
  Qed.
  Lemma counted_is_monad (t : vt SO) d : survives (VT_Sized _ _ _ _ _ T) t -> contents SO t d ->
    v_is_monad SO t = if ((length d =? 1) && dbg && negb (sz_len t =? 1)%N)%bool then Panic else Ret (length d =? 1).
  Proof.
    intros H Hd. destruct (counted_survives t H) as [H1 [Hw Hn]]. assert (Hd' : contents O (sz_tree t) d) by (destruct Hd as [n Hd]; exists n; exact (drain_counted n (Some t) d Hd)).
    cbn [Sized_ops v_is_monad]. rewrite (L_is_monad L _ Hw), <- (Permutation_length (contents_perm L _ d Hw Hd')). cbn [bind].
    destruct (length d =? 1); cbn [andb]; [|reflexivity]. unfold debug_assert, sz_len. destruct (sz_size t =? 1)%N; cbn [negb]; destruct dbg; reflexivity.
  Qed.
End Counted.

(** The iterator *)
Section WatchIter.
  Context {B : Build} {K V : Type} {O : VebOps K V} (keq : K -> K -> bool) (t : vt O).
  Implicit Types it s : Iter K.
  Lemma w_step_same back it : snd (w_step O keq t back it) = it_call O keq t back it.
  Proof.
    unfold w_step, it_call, it_next, it_next_back, w_emit. destruct it as [d n]. cbn [it_data it_emitted]. destruct d as [[|k|k|f b]|].
    - destruct back; [destruct (v_max_val O t)|destruct (v_min_val O t)]; reflexivity.
    - destruct back.
      + destruct (v_max_val O t) as [p|]; [|reflexivity]. unfold wbind at 1, wcall at 1. cbn [snd fst bind]. destruct (keq k (fst p)); reflexivity.
      + destruct (v_successor O t k) as [[p|]|]; reflexivity.
    - destruct back.
      + destruct (v_predecessor O t k) as [[p|]|]; reflexivity.
      + destruct (v_min_val O t) as [p|]; [|reflexivity]. unfold wbind at 1, wcall at 1. cbn [snd fst bind]. destruct (keq (fst p) k); reflexivity.
    - destruct back.
      + destruct (v_predecessor O t b) as [[p|]|]; try reflexivity. unfold wbind at 1, wcall at 1. cbn [snd fst bind]. destruct (keq f (fst p)); reflexivity.
      + destruct (v_successor O t f) as [[p|]|]; try reflexivity. unfold wbind at 1, wcall at 1. cbn [snd fst bind]. destruct (keq (fst p) b); reflexivity.
    - destruct back; reflexivity.
  Qed.
  (** every state in it has no data, and there is one unless the iterator was exhausted already *)
  Lemma wbind_all {St A A'} (P : St -> Prop) (m : watched St A) (f : A -> watched St A') :
    Forall P (fst m) -> (forall a, snd m = Ret a -> Forall P (fst (f a))) -> Forall P (fst (wbind m f)).
  Proof. intros H1 H2. unfold wbind. destruct (snd m) as [a|]; [|exact H1]. cbn [fst]. apply Forall_app. split; [exact H1|exact (H2 a eq_refl)]. Qed.
  Lemma w_step_states back it : Forall (fun s => s = IT None (it_emitted it)) (fst (w_step O keq t back it)).
  Proof.
    unfold w_step, w_emit. destruct (it_data it) as [[|k|k|f b]|]; destruct back;
    repeat first [ apply Forall_nil | progress cbn [fst wcall] | apply Forall_cons; [reflexivity|] | apply wbind_all; [|intros ? _]
                 | match goal with |- context [match ?x with _ => _ end] => destruct x end ].
  Qed.
  Lemma w_step_some back it : it_data it <> None -> fst (w_step O keq t back it) <> [].
  Proof.
    intros H. unfold w_step. destruct (it_data it) as [[|k|k|f b]|]; try congruence; destruct back; unfold wbind at 1, wcall at 1; cbn [snd fst];
    repeat match goal with |- context [match ?x with Ret _ => _ | Panic => _ end] => destruct x end; discriminate.
  Qed.
  Lemma exhausted_run dirs n : it_run O keq t dirs (IT None n) = Ret (IT None n, map (fun _ => None) dirs).
  Proof.
    induction dirs as [|d dirs IH]; [reflexivity|]. cbn [it_run map]. unfold it_call, it_next, it_next_back, stop.
    destruct d; cbn [it_data it_emitted bind]; rewrite IH; reflexivity.
  Qed.
End WatchIter.
Lemma caught_iter {B : Build} {K V} (O : VebOps K V) (keq : K -> K -> bool) (t : vt O) (back : bool) (it : Iter K) :
  snd (w_step O keq t back it) = it_call O keq t back it /\ (it_data it <> None -> exists s, In s (fst (w_step O keq t back it))) /\
  forall s, In s (fst (w_step O keq t back it)) ->
    (forall dirs, it_run O keq t dirs s = Ret (s, map (fun _ => None) dirs)) /\ it_size_hint O t s = Ret (0%N, Some 0%N).
Proof.
  split; [apply w_step_same|]. split.
  - intros H. pose proof (w_step_some keq t back it H) as E. destruct (fst (w_step O keq t back it)) as [|s l]; [congruence|]. exists s. left. reflexivity.
  - intros s Hs. pose proof (proj1 (Forall_forall _ _) (w_step_states keq t back it) s Hs) as ->. split; [intros dirs; apply exhausted_run|reflexivity].
Qed.
