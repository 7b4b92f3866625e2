(** Lemmas about the children of a Tree (summary + collection), used by TreeProofs.v.
    [b = false] is the ascending direction (min, successor), [b = true] the descending one. *)
From Verif Require Import Base Spec Ops Boxed Lists Laws Tree.

Definition dcmp {K} (b : bool) (cmp : K -> K -> comparison) (x y : K) : comparison :=
  if b then cmp y x else cmp x y.
Lemma dcmp_laws {K} b (cmp : K -> K -> comparison) : OrdLaws cmp -> OrdLaws (dcmp b cmp).
Proof.
  intros H. destruct b; auto. unfold dcmp. split.
  - intros x y. rewrite (cmp_eq H). split; auto.
  - intros x y. apply (cmp_opp H).
  - intros x y z H1 H2. apply (cmp_trans H) with y; assumption.
Qed.

Definition vext {K V} (O : VebOps K V) (b : bool) := if b then v_max_val O else v_min_val O.
Definition vext_mut {K V} (O : VebOps K V) (b : bool) := if b then v_max_val_mut O else v_min_val_mut O.
Definition vnext {K V} (O : VebOps K V) (b : bool) := if b then v_predecessor O else v_successor O.
Definition vnext_mut {K V} (O : VebOps K V) (b : bool) :=
  if b then v_predecessor_mut O else v_successor_mut O.
Definition vrm {K V} (O : VebOps K V) (b : bool) := if b then v_remove_max O else v_remove_min O.

Section Dir.
  Context {B : Build} {K V : Type} {cmp : K -> K -> comparison} {O : VebOps K V} (L : VebLaws cmp O).
  Lemma D_ext b t : winv L t -> exists p, vext O b t = Ret p /\ In p (ents L t) /\
      (ord L t -> forall q, In q (ents L t) -> dcmp b cmp (fst p) (fst q) <> Gt).
  Proof. destruct b; intros H; [exact (L_max L t H)|exact (L_min L t H)]. Qed.
  Lemma D_next b t k : winv L t -> exists o, vnext O b t k = Ret o /\
      match o with
      | Some p => In p (ents L t) /\
          (ord L t -> dcmp b cmp k (fst p) = Lt /\
           forall q, In q (ents L t) -> dcmp b cmp k (fst q) = Lt -> dcmp b cmp (fst p) (fst q) <> Gt)
      | None => ord L t -> forall q, In q (ents L t) -> dcmp b cmp k (fst q) <> Lt
      end.
  Proof. destruct b; intros H; [exact (L_pred L t k H)|exact (L_succ L t k H)]. Qed.
  Lemma D_ext_mut b t : winv L t -> mut1_ok (winv L) (ord L) (ents L) t (vext_mut O b t) (vext O b t).
  Proof. destruct b; intros H; [exact (L_max_mut L t H)|exact (L_min_mut L t H)]. Qed.
  Lemma D_next_mut b t k :
    winv L t -> mut_ok (winv L) (ord L) (ents L) t (vnext_mut O b t k) (vnext O b t k).
  Proof. destruct b; intros H; [exact (L_pred_mut L t k H)|exact (L_succ_mut L t k H)]. Qed.
  Lemma D_rm b t : winv L t -> exists ot p,
      vrm O b t = Ret (ot, p) /\ vext O b t = Ret p /\ taken (winv L) (ord L) (ents L) t p ot.
  Proof. destruct b; intros H; [exact (L_remove_max L t H)|exact (L_remove_min L t H)]. Qed.
End Dir.

Section Children.
  Context {B : Build} {K Hi Lo V : Type} {ko : KeyOps K Hi Lo} (KL : KeyLaws ko).
  Context {S : VebOps Hi unit} {Tr : VebOps Lo V} {C : CollOps Hi Lo V Tr}.
  Context (LS : VebLaws (hi_cmp ko) S) (LT : VebLaws (lo_cmp ko) Tr) (LC : CollLaws C).
  Notation J := (k_join ko).
  Notation split := (k_split_val ko).

  (** [(h, l)] is the split of a key *)
  Definition real (h : Hi) (l : Lo) : Prop := split (J h l) = (h, l).
  Lemma split_J k : exists h l, k = J h l /\ real h l /\ k_split_ref ko k = (h, l).
  Proof.
    pose proof (KL_join_split KL k) as E. pose proof (KL_split_ref KL k) as E2.
    destruct (split k) as [h l] eqn:Es. cbn [fst snd] in E. exists h, l. unfold real. rewrite E. split; auto.
  Qed.
  Lemma J_inj h l h' l' : real h l -> real h' l' -> J h l = J h' l' -> h = h' /\ l = l'.
  Proof. unfold real. intros H1 H2 E. rewrite E in H1. split; congruence. Qed.
  Lemma cmp_J h l h' l' : real h l -> real h' l' ->
    k_cmp ko (J h l) (J h' l') =
    match hi_cmp ko h h' with Eq => lo_cmp ko l l' | c => c end.
  Proof. unfold real. intros H1 H2. rewrite (KL_cmp KL), H1, H2. reflexivity. Qed.
  Lemma dcmp_J b h l h' l' : real h l -> real h' l' ->
    dcmp b (k_cmp ko) (J h l) (J h' l') =
    match dcmp b (hi_cmp ko) h h' with Eq => dcmp b (lo_cmp ko) l l' | c => c end.
  Proof. destruct b; intros; apply cmp_J; auto. Qed.

  Definition jp (h : Hi) (p : Lo * V) : K * V := (J h (fst p), snd p).
  Definition child_ents (ht : Hi * vt Tr) : list (K * V) := map (jp (fst ht)) (ents LT (snd ht)).
  Definition flat (l : list (Hi * vt Tr)) : list (K * V) := flat_map child_ents l.
  Definition ch_ents (x : vt S * ct C) : list (K * V) := flat (cents LC (snd x)).
  Definition wch (x : vt S * ct C) : Prop :=
    winv LS (fst x) /\ cinv LC (snd x) /\
    Permutation (keys (ents LS (fst x))) (map fst (cents LC (snd x))) /\
    (forall h t, In (h, t) (cents LC (snd x)) -> winv LT t) /\
    forall h t p, In (h, t) (cents LC (snd x)) -> In p (ents LT t) -> real h (fst p).
  Definition och (x : vt S * ct C) : Prop :=
    ord LS (fst x) /\ forall h t, In (h, t) (cents LC (snd x)) -> ord LT t.

  Lemma in_flat q l :
    In q (flat l) <-> exists h t p, In (h, t) l /\ In p (ents LT t) /\ q = jp h p.
  Proof.
    unfold flat, child_ents. rewrite in_flat_map. split.
    - intros [[h t] [H1 H2]]. apply in_map_iff in H2. destruct H2 as [p [<- H2]].
      exists h, t, p. auto.
    - intros [h [t [p [H1 [H2 ->]]]]]. exists (h, t). split; auto. apply in_map. exact H2.
  Qed.
  Lemma flat_perm l l' : Permutation l l' -> Permutation (flat l) (flat l').
  Proof. apply Permutation_flat_map. Qed.
  Lemma flat_cons h t l : flat ((h, t) :: l) = map (jp h) (ents LT t) ++ flat l.
  Proof. reflexivity. Qed.
  Lemma keys_jp h l : keys (map (jp h) l) = map (J h) (keys l).
  Proof. unfold keys. rewrite !map_map. reflexivity. Qed.

  Lemma coll_inj c h t t' : cinv LC c -> In (h, t) (cents LC c) -> In (h, t') (cents LC c) -> t = t'.
  Proof. intros H. apply nodup_keys_inj. exact (C_nodup LC c H). Qed.

  Lemma wch_win x h t : wch x -> In (h, t) (cents LC (snd x)) -> winv LT t.
  Proof. intros [_ [_ [_ [H _]]]]. apply H. Qed.
  Lemma wch_real x h t l v : wch x -> In (h, t) (cents LC (snd x)) -> In (l, v) (ents LT t) -> real h l.
  Proof. intros [_ [_ [_ [_ H]]]] H1 H2. exact (H h t (l, v) H1 H2). Qed.

  Ltac rl := solve [assumption | eapply wch_real; eauto].
  Lemma in_ch_J x h l v : wch x -> real h l ->
    (In (J h l, v) (ch_ents x) <-> exists t, In (h, t) (cents LC (snd x)) /\ In (l, v) (ents LT t)).
  Proof.
    intros Hw Hr. unfold ch_ents. rewrite in_flat. split.
    - intros [h' [t [[l' v'] [H1 [H2 E]]]]]. unfold jp in E. simpl in E. injection E as E ->.
      apply J_inj in E; [|exact Hr|exact (wch_real x _ _ _ _ Hw H1 H2)]. destruct E as [-> ->]. eauto.
    - intros [t [H1 H2]]. exists h, t, (l, v). auto.
  Qed.

  Lemma ch_summary x h : wch x ->
    (In h (keys (ents LS (fst x))) <-> exists t, In (h, t) (cents LC (snd x))).
  Proof.
    intros [_ [_ [HP _]]]. split; intros H.
    - apply (Permutation_in _ HP) in H. apply in_map_iff in H. destruct H as [[h' t] [E H]].
      simpl in E. subst. eauto.
    - destruct H as [t H]. apply (in_map fst) in H. simpl in H.
      eapply Permutation_in; [apply Permutation_sym; exact HP|exact H].
  Qed.

  Lemma ch_nonempty x : wch x -> ch_ents x <> [].
  Proof.
    intros Hw E. destruct (cents LC (snd x)) as [|[h t] l] eqn:Ec.
    - revert Ec. apply (C_nonempty LC). apply Hw.
    - assert (Ht : In (h, t) (cents LC (snd x))) by (rewrite Ec; left; auto).
      assert (Hwt : winv LT t) by (apply Hw in Ht; exact Ht).
      apply (L_nonempty LT t Hwt). unfold ch_ents in E. rewrite Ec, flat_cons in E.
      apply app_eq_nil in E. destruct E as [E _]. apply map_eq_nil in E. exact E.
  Qed.

  Lemma NoDup_app_intro {A} (a b : list A) :
    NoDup a -> NoDup b -> (forall z, In z a -> ~ In z b) -> NoDup (a ++ b).
  Proof.
    induction a as [|x a IH]; simpl; intros Ha Hb Hd; auto.
    inversion Ha; subst. constructor.
    - rewrite in_app_iff. intros [H|H]; auto. apply (Hd x); auto.
    - apply IH; auto.
  Qed.

  Lemma ch_nodup x : wch x -> och x -> NoDup (keys (ch_ents x)).
  Proof.
    intros Hw Ho. unfold ch_ents.
    assert (Hl : forall l, (forall ht, In ht l -> In ht (cents LC (snd x))) -> NoDup (map fst l) ->
                 NoDup (keys (flat l))).
    { induction l as [|[h t] l IH]; intros Hs Hn; [constructor|].
      rewrite flat_cons. unfold keys. rewrite map_app. simpl in Hn. inversion Hn as [|? ? Hh Hn']; subst.
      fold (keys (map (jp h) (ents LT t))). fold (keys (flat l)). rewrite keys_jp.
      assert (Ht : In (h, t) (cents LC (snd x))) by (apply Hs; left; auto).
      apply NoDup_app_intro.
      - assert (Hre : forall a, In a (keys (ents LT t)) -> real h a)
          by (intros a Ha; apply keys_in in Ha; destruct Ha as [v Ha]; exact (wch_real x h t a v Hw Ht Ha)).
        assert (Hnd : NoDup (keys (ents LT t))) by (apply (L_nodup LT); [apply Hw in Ht; exact Ht|apply Ho in Ht; exact Ht]).
        revert Hre Hnd. generalize (keys (ents LT t)). induction l0 as [|a l0 IHl]; intros Hre Hnd; [constructor|].
        inversion Hnd as [|? ? Ha Hnd']; subst. cbn [map]. constructor; [|apply IHl; auto; intros; apply Hre; right; auto].
        intros Hin. apply in_map_iff in Hin. destruct Hin as [a' [E Ha']]. apply Ha.
        apply J_inj in E; [|apply Hre; right; exact Ha'|apply Hre; left; reflexivity]. destruct E as [_ <-]. exact Ha'.
      - apply IH; auto. intros ht H. apply Hs. right. exact H.
      - intros z Hz Hz'. apply in_map_iff in Hz. destruct Hz as [lo [<- Hlo]].
        apply keys_in in Hz'. destruct Hz' as [v Hz']. apply in_flat in Hz'.
        destruct Hz' as [h' [t' [[l' v'] [H1 [H2 E]]]]]. unfold jp in E. injection E as E _.
        apply keys_in in Hlo. destruct Hlo as [v0 Hlo].
        apply J_inj in E; [|exact (wch_real x _ _ _ _ Hw Ht Hlo)|exact (wch_real x h' t' l' v' Hw (Hs _ (or_intror H1)) H2)]. destruct E as [-> _]. apply Hh. apply (in_map fst) in H1. exact H1. }
    apply Hl; auto. apply (C_nodup LC). apply Hw.
  Qed.

  (** *** Queries *)
  Lemma get_present c h t : cinv LC c -> In (h, t) (cents LC c) -> c_get C c h = Ret (Some t).
  Proof.
    intros Hc Hin. destruct (C_get LC c h Hc) as [[t'|] [E H]]; rewrite E.
    - f_equal. f_equal. eapply coll_inj; eauto.
    - elim H. apply (in_map fst) in Hin. exact Hin.
  Qed.

  (** The extreme of the child of [h]. *)
  Lemma child_end_ok b x h t : wch x -> In (h, t) (cents LC (snd x)) ->
    exists l v, child_end ko Tr C (snd x) h (vext Tr b) = Ret (Some (J h l, v)) /\
      In (l, v) (ents LT t) /\
      (ord LT t -> forall q, In q (ents LT t) -> dcmp b (lo_cmp ko) l (fst q) <> Gt).
  Proof.
    intros Hw Hin. destruct Hw as [_ [Hc [_ [Hwt _]]]].
    destruct (D_ext LT b t (Hwt _ _ Hin)) as [[l v] [E [H1 H2]]].
    exists l, v. split; [|auto]. unfold child_end. rewrite (get_present _ _ _ Hc Hin). simpl.
    rewrite E. reflexivity.
  Qed.

  Lemma ch_ext_ok b x : wch x ->
    exists p, (' (hi, _) <- vext S b (fst x) ;; child_end ko Tr C (snd x) hi (vext Tr b)) = Ret (Some p) /\
      In p (ch_ents x) /\
      (och x -> forall q, In q (ch_ents x) -> dcmp b (k_cmp ko) (fst p) (fst q) <> Gt).
  Proof.
    intros Hw. destruct (D_ext LS b (fst x) (proj1 Hw)) as [[h []] [E [H1 H2]]]. rewrite E. cbn [bind].
    apply in_keys in H1. apply (ch_summary x h Hw) in H1. destruct H1 as [t Ht].
    destruct (child_end_ok b x h t Hw Ht) as [l [v [E2 [H3 H4]]]]. rewrite E2.
    exists (J h l, v). split; auto. split.
    - apply in_ch_J; [exact Hw|rl|eauto].
    - intros [Ho1 Ho2] [k' v'] Hq. destruct (split_J k') as [h' [l' [-> [Hrl' _]]]].
      apply in_ch_J in Hq; [|exact Hw|rl]. destruct Hq as [t' [Hq1 Hq2]]. cbn [fst]. rewrite dcmp_J by rl.
      assert (Hh : In h' (keys (ents LS (fst x)))) by (apply ch_summary; eauto).
      apply keys_in in Hh. destruct Hh as [u Hh]. specialize (H2 Ho1 _ Hh). cbn [fst] in H2.
      destruct (dcmp b (hi_cmp ko) h h') eqn:Eh; try congruence.
      apply (cmp_eq_eq (dcmp_laws b _ (KL_hi KL))) in Eh. subst h'.
      assert (t' = t) by (eapply coll_inj; [apply Hw| |]; eauto). subst t'.
      apply (H4 (Ho2 _ _ Ht) _ Hq2).
  Qed.

  (** The neighbour of [k] among the children; [dflt] is what the code answers if there is none. *)
  Definition ch_next (b : bool) (x : vt S * ct C) (k : K) (dflt : res (option (K * V))) :
    res (option (K * V)) :=
    let (hi, lo) := k_split_ref ko k in
    oc <- c_get C (snd x) hi ;;
    o <- (match oc with Some child => vnext Tr b child lo | None => Ret None end) ;;
    match o with
    | Some (lo', val) => Ret (Some (J hi lo', val))
    | None =>
        oh <- vnext S b (fst x) hi ;;
        match oh with
        | Some (hi', _) => child_end ko Tr C (snd x) hi' (vext Tr b)
        | None => dflt
        end
    end.

  Lemma ch_next_ok b x k : wch x ->
    (exists p, (forall dflt, ch_next b x k dflt = Ret (Some p)) /\ In p (ch_ents x) /\
       (och x -> dcmp b (k_cmp ko) k (fst p) = Lt /\
        forall q, In q (ch_ents x) -> dcmp b (k_cmp ko) k (fst q) = Lt ->
                  dcmp b (k_cmp ko) (fst p) (fst q) <> Gt)) \/
    ((forall dflt, ch_next b x k dflt = dflt) /\
     (och x -> forall q, In q (ch_ents x) -> dcmp b (k_cmp ko) k (fst q) <> Lt)).
  Proof.
    intros Hw. unfold ch_next. destruct (split_J k) as [h [l [-> [Hrl ->]]]].
    assert (OH := dcmp_laws b _ (KL_hi KL)). assert (OLo := dcmp_laws b _ (KL_lo KL)).
    destruct (C_get LC (snd x) h) as [oc [E Hoc]]; [apply Hw|]. rewrite E. cbn [bind].
    assert (Hch : exists o, (match oc with Some child => vnext Tr b child l | None => Ret None end) = Ret o /\
              match o with
              | Some (l', v) => exists t, oc = Some t /\ In (l', v) (ents LT t) /\
                  (ord LT t -> dcmp b (lo_cmp ko) l l' = Lt /\
                    forall q, In q (ents LT t) -> dcmp b (lo_cmp ko) l (fst q) = Lt ->
                              dcmp b (lo_cmp ko) l' (fst q) <> Gt)
              | None => och x -> forall l' v, real h l' -> In (J h l', v) (ch_ents x) -> dcmp b (lo_cmp ko) l l' <> Lt
              end).
    { destruct oc as [t|].
      - destruct (D_next LT b t l) as [o [Eo Ho]]; [apply Hw in Hoc; exact Hoc|].
        exists o. split; auto. destruct o as [[l' v]|].
        + exists t. split; auto.
        + intros [_ Ho2] l' v Hrl' Hin. apply in_ch_J in Hin; [|exact Hw|rl]. destruct Hin as [t' [H1 H2]].
          assert (t' = t) by (eapply coll_inj; [apply Hw| |]; eauto). subst t'.
          apply (Ho (Ho2 _ _ Hoc) _ H2).
      - exists None. split; auto. intros _ l' v Hrl' Hin. apply in_ch_J in Hin; [|exact Hw|rl].
        destruct Hin as [t' [H1 _]]. apply (in_map fst) in H1. contradiction. }
    destruct Hch as [o [Eo Ho]]. rewrite Eo. cbn [bind]. destruct o as [[l' v]|].
    - left. exists (J h l', v). split; [reflexivity|]. destruct Ho as [t [-> [H1 H2]]].
      split; [apply in_ch_J; [exact Hw|rl|eauto]|]. intros [Ho1 Ho2].
      destruct (H2 (Ho2 _ _ Hoc)) as [H3 H4]. cbn [fst]. rewrite dcmp_J by rl. rewrite (cmp_refl OH).
      split; auto. intros [k' v'] Hq Hlt. destruct (split_J k') as [h'' [l'' [-> [Hrl'' _]]]]. cbn [fst] in *.
      rewrite dcmp_J in Hlt |- * by rl. destruct (dcmp b (hi_cmp ko) h h'') eqn:Eh; try congruence.
      apply (cmp_eq_eq OH) in Eh. subst h''. apply in_ch_J in Hq; [|exact Hw|rl]. destruct Hq as [t' [Hq1 Hq2]].
      assert (t' = t) by (eapply coll_inj; [apply Hw| |]; eauto). subst t'.
      apply (H4 _ Hq2 Hlt).
    - destruct (D_next LS b (fst x) h (proj1 Hw)) as [oh [Eh Hh]]. rewrite Eh. cbn [bind].
      destruct oh as [[h' []]|].
      + left. destruct Hh as [Hh1 Hh2]. apply in_keys in Hh1. apply ch_summary in Hh1; auto.
        destruct Hh1 as [t Ht]. destruct (child_end_ok b x h' t Hw Ht) as [l' [v [E2 [H3 H4]]]].
        exists (J h' l', v). split; [intros; exact E2|]. split; [apply in_ch_J; [exact Hw|rl|eauto]|].
        intros Hox. destruct Hox as [Ho1 Ho2]. destruct (Hh2 Ho1) as [H5 H6]. cbn [fst] in *.
        rewrite dcmp_J by rl. rewrite H5. split; auto.
        intros [k' v'] Hq Hlt. destruct (split_J k') as [h'' [l'' [-> [Hrl'' _]]]]. cbn [fst] in *.
        rewrite dcmp_J in Hlt |- * by rl. destruct (dcmp b (hi_cmp ko) h h'') eqn:Ehh; try congruence.
        * apply (cmp_eq_eq OH) in Ehh. subst h''. exfalso. revert Hlt.
          apply (Ho (conj Ho1 Ho2) _ _ Hrl'' Hq).
        * apply in_ch_J in Hq; [|exact Hw|rl]. destruct Hq as [t' [Hq1 Hq2]].
          assert (Hk : In h'' (keys (ents LS (fst x)))) by (apply ch_summary; eauto).
          apply keys_in in Hk. destruct Hk as [u Hk].
          assert (H7 := H6 _ Hk Ehh). cbn [fst] in H7.
          destruct (dcmp b (hi_cmp ko) h' h'') eqn:E3; try congruence.
          apply (cmp_eq_eq OH) in E3. subst h''.
          assert (t' = t) by (eapply coll_inj; [apply Hw| |]; eauto). subst t'.
          apply (H4 (Ho2 _ _ Ht) _ Hq2).
      + right. split; [reflexivity|]. intros Hox [k' v'] Hq Hlt.
        destruct (split_J k') as [h'' [l'' [-> [Hrl'' _]]]]. cbn [fst] in Hlt. rewrite dcmp_J in Hlt by rl.
        destruct (dcmp b (hi_cmp ko) h h'') eqn:Ehh; try congruence.
        * apply (cmp_eq_eq OH) in Ehh. subst h''. revert Hlt. apply (Ho Hox _ _ Hrl'' Hq).
        * apply in_ch_J in Hq; [|exact Hw|rl]. destruct Hq as [t' [Hq1 Hq2]].
          assert (Hk : In h'' (keys (ents LS (fst x)))) by (apply ch_summary; eauto).
          apply keys_in in Hk. destruct Hk as [u Hk]. apply (Hh (proj1 Hox) _ Hk Ehh).
  Qed.

  (** *** Replacing the tree of one key *)
  Lemma repl_wch s c c' h t t' rest : wch (s, c) -> (forall p, In p (ents LT t') -> real h (fst p)) -> cinv LC c' ->
    Permutation (cents LC c) ((h, t) :: rest) -> Permutation (cents LC c') ((h, t') :: rest) ->
    winv LT t' -> wch (s, c').
  Proof.
    intros [H1 [H2 [H3 [H4 H5]]]] Hr Hc HP HP' Ht. cbn [fst snd] in *. split; [|split; [|split; [|split]]]; auto; cbn [fst snd].
    - rewrite H3. rewrite (Permutation_map fst HP), (Permutation_map fst HP'). reflexivity.
    - intros h0 t0 Hin. apply (Permutation_in _ HP') in Hin. destruct Hin as [E|Hin].
      + injection E as <- <-. exact Ht.
      + apply (H4 h0). eapply Permutation_in; [apply Permutation_sym; exact HP|right; exact Hin].
    - intros h0 t0 p Hin. apply (Permutation_in _ HP') in Hin. destruct Hin as [E|Hin].
      + injection E as <- <-. apply Hr.
      + apply (H5 h0 t0 p). eapply Permutation_in; [apply Permutation_sym; exact HP|right; exact Hin].
  Qed.
  Lemma repl_och s c c' h t t' rest : och (s, c) ->
    Permutation (cents LC c) ((h, t) :: rest) -> Permutation (cents LC c') ((h, t') :: rest) ->
    ord LT t' -> och (s, c').
  Proof.
    intros [H1 H2] HP HP' Ht. split; auto. cbn [fst snd] in *.
    intros h0 t0 Hin. apply (Permutation_in _ HP') in Hin. destruct Hin as [E|Hin].
    - injection E as <- <-. exact Ht.
    - apply (H2 h0). eapply Permutation_in; [apply Permutation_sym; exact HP|right; exact Hin].
  Qed.
  Lemma ch_ents_split s c h t rest : Permutation (cents LC c) ((h, t) :: rest) ->
    Permutation (ch_ents (s, c)) (map (jp h) (ents LT t) ++ flat rest).
  Proof. intros HP. unfold ch_ents. cbn [snd]. rewrite (flat_perm _ _ HP). reflexivity. Qed.

  Definition ch_lens (x : vt S * ct C) (p : K * V) (put : V -> ct C) : Prop :=
    exists rest, Permutation (ch_ents x) (p :: rest) /\
    forall w, wch (fst x, put w) /\ Permutation (ch_ents (fst x, put w)) ((fst p, w) :: rest) /\
              (och x -> och (fst x, put w)).

  Lemma get_mut_lens s c h t put p putv : wch (s, c) -> c_get_mut C c h = Ret (Some (t, put)) ->
    lens_ok (winv LT) (ord LT) (ents LT) t p putv ->
    ch_lens (s, c) (jp h p) (fun w => put (putv w)).
  Proof.
    intros Hw E [r [Hr Hp]]. destruct (C_get_mut LC c h) as [o [E2 [E3 H]]]; [apply Hw|].
    rewrite E in E2. injection E2 as <-. destruct (H _ _ eq_refl) as [rest [HP Hput]].
    exists (map (jp h) r ++ flat rest). split.
    - rewrite (ch_ents_split _ _ _ _ _ HP). rewrite (Permutation_map (jp h) Hr). reflexivity.
    - intros w. destruct (Hp w) as [H1 [H2 H3]]. destruct (Hput (putv w)) as [H4 H5]. cbn [fst snd].
      assert (Hin : In (h, t) (cents LC c))
        by (eapply Permutation_in; [apply Permutation_sym; exact HP|left; auto]).
      split.
      { eapply repl_wch; eauto. intros p0 H0. apply (Permutation_in _ H2) in H0.
        assert (Hi0 : In (fst p0) (keys (ents LT t))).
        { apply (Permutation_in _ (Permutation_sym (Permutation_map fst Hr))). destruct H0 as [<-|H0]; [left; auto|right; apply in_map; auto]. }
        apply keys_in in Hi0. destruct Hi0 as [v0 Hi0]. exact (wch_real (s, c) h t _ v0 Hw Hin Hi0). }
      split.
      + rewrite (ch_ents_split _ _ _ _ _ H5). rewrite (Permutation_map (jp h) H2). reflexivity.
      + intros Ho. eapply repl_och; eauto. apply H3.
        apply Ho in Hin. exact Hin.
  Qed.

  Lemma get_mut_present c h t : cinv LC c -> In (h, t) (cents LC c) ->
    exists put, c_get_mut C c h = Ret (Some (t, put)).
  Proof.
    intros Hc Hin. destruct (C_get_mut LC c h Hc) as [[[t' put]|] [E [E2 H]]].
    - rewrite (get_present _ _ _ Hc Hin) in E2. cbn in E2. injection E2 as ->. eauto.
    - rewrite (get_present _ _ _ Hc Hin) in E2. discriminate.
  Qed.

  (** The mutable twins agree with the immutable ones and give lenses.  [mk put] is the tree-level
      write the code builds from the collection-level write [put]. *)
  Section Mut.
    Context {T : Type} (mk : vt S -> (vt Tr -> ct C) -> (V -> vt Tr) -> V -> T).
    Definition child_end_mut' (s : vt S) (children : ct C) (hi : Hi)
      (ext : vt Tr -> res (Lo * V * (V -> vt Tr))) : res (option (K * V * (V -> T))) :=
      oc <- c_get_mut C children hi ;;
      ' (child, put) <- expect oc ;;
      ' (lo, val, putv) <- ext child ;;
      Ret (Some (J hi lo, val, mk s put putv)).

    Lemma child_end_mut_ok b x h t : wch x -> In (h, t) (cents LC (snd x)) ->
      exists p put putv, child_end_mut' (fst x) (snd x) h (vext_mut Tr b) = Ret (Some (p, mk (fst x) put putv)) /\
        child_end ko Tr C (snd x) h (vext Tr b) = Ret (Some p) /\
        ch_lens x p (fun w => put (putv w)).
    Proof.
      intros Hw Hin. destruct x as [s c]. cbn [fst snd] in *.
      destruct (get_mut_present c h t) as [put Eg]; [apply Hw|exact Hin|].
      assert (Hwt : winv LT t) by (apply Hw in Hin; exact Hin).
      destruct (D_ext_mut LT b t Hwt) as [[l v] [putv [E1 [E2 Hl]]]].
      exists (J h l, v), put, putv. unfold child_end_mut', child_end.
      rewrite Eg, (get_present c h t); [|apply Hw|exact Hin]. cbn. rewrite E1, E2. cbn.
      split; auto. split; auto. exact (get_mut_lens s c h t put (l, v) putv Hw Eg Hl).
    Qed.

    Definition ch_next_mut (b : bool) (x : vt S * ct C) (k : K) (dflt : res (option (K * V * (V -> T)))) :
      res (option (K * V * (V -> T))) :=
      let (hi, lo) := k_split_ref ko k in
      oc <- c_get_mut C (snd x) hi ;;
      o <- (match oc with
            | Some (child, put) =>
                o' <- vnext_mut Tr b child lo ;;
                Ret (match o' with Some y => Some (y, put) | None => None end)
            | None => Ret None
            end) ;;
      match o with
      | Some (lo', val, putv, put) => Ret (Some (J hi lo', val, mk (fst x) put putv))
      | None =>
          oh <- vnext S b (fst x) hi ;;
          match oh with
          | Some (hi', _) => child_end_mut' (fst x) (snd x) hi' (vext_mut Tr b)
          | None => dflt
          end
      end.

    Lemma ch_next_mut_ok b x k : wch x ->
      (exists p put putv, (forall dflt, ch_next_mut b x k dflt = Ret (Some (p, mk (fst x) put putv))) /\
         (forall dflt, ch_next b x k dflt = Ret (Some p)) /\ ch_lens x p (fun w => put (putv w))) \/
      ((forall dflt, ch_next_mut b x k dflt = dflt) /\ (forall dflt, ch_next b x k dflt = dflt)).
    Proof.
      intros Hw. unfold ch_next, ch_next_mut. destruct (split_J k) as [h [l [-> [Hrl ->]]]].
      destruct (C_get_mut LC (snd x) h) as [oc [E [E2 _]]]; [apply Hw|]. rewrite E, E2. cbn [bind].
      destruct (C_get LC (snd x) h) as [oc' [E2' Hoc]]; [apply Hw|]. rewrite E2 in E2'.
      injection E2' as <-.
      assert (Hrest : (exists p put putv,
        (forall dflt, (oh <- vnext S b (fst x) h ;;
            match oh with Some (hi', _) => child_end_mut' (fst x) (snd x) hi' (vext_mut Tr b) | None => dflt end)
            = Ret (Some (p, mk (fst x) put putv))) /\
        (forall dflt, (oh <- vnext S b (fst x) h ;;
            match oh with Some (hi', _) => child_end ko Tr C (snd x) hi' (vext Tr b) | None => dflt end)
            = Ret (Some p)) /\ ch_lens x p (fun w => put (putv w))) \/
        ((forall dflt, (oh <- vnext S b (fst x) h ;;
            match oh with Some (hi', _) => child_end_mut' (fst x) (snd x) hi' (vext_mut Tr b) | None => dflt end)
            = dflt) /\
         (forall dflt, (oh <- vnext S b (fst x) h ;;
            match oh with Some (hi', _) => child_end ko Tr C (snd x) hi' (vext Tr b) | None => dflt end)
            = dflt))).
      { destruct (D_next LS b (fst x) h (proj1 Hw)) as [oh [Eh Hh]]. rewrite Eh. cbn [bind].
        destruct oh as [[h' []]|]; [|right; auto]. left.
        destruct Hh as [Hh1 Hh2]. apply in_keys in Hh1. apply ch_summary in Hh1; auto.
        destruct Hh1 as [t Ht]. destruct (child_end_mut_ok b x h' t Hw Ht) as [p [put [putv [H1 [H2 H3]]]]].
        exists p, put, putv. auto. }
      destruct oc as [[t put]|]; cbn [omap fst] in *.
      - assert (Hwt : winv LT t) by (apply Hw in Hoc; exact Hoc).
        destruct (D_next_mut LT b t l Hwt) as [o [Eo [Eo2 Hl]]]. rewrite Eo, Eo2. cbn [bind].
        destruct o as [[[l' v] putv]|]; cbn [omap fst].
        + left. exists (J h l', v), put, putv. split; [auto|]. split; [auto|].
          destruct x as [s c]. exact (get_mut_lens s c h t put (l', v) putv Hw E (Hl _ _ eq_refl)).
        + exact Hrest.
      - cbn [bind]. exact Hrest.
    Qed.
  End Mut.
End Children.
