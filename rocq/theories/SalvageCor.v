(** Proofs about trees built by insertions, the defect included. *)
From Verif Require Import Base Ints Lists Ops Spec Laws Boxed SizedT Tree TreeChildren TreeUpd TreeProofs WrapProofs Hist Types HistProofs TypesProofs HistCor HeldCor Fits FitsCor
  TwinCor BuiltCor ByteSet ByteMap BTree ByteSetProofs ByteMapProofs BTreeProofs ThreeCor Salvage.

(** Of the pairs with one key, a tree tells the newest: [fresh] holds of the trees that insertions lead to. *)
Section Aged.
  Context {B : Build} {K V : Type} {cmp : K -> K -> comparison} {O : VebOps K V} (L : VebLaws cmp O).
  Record Aged : Type := mkAged {
    fresh : vt O -> Prop;
    newest : vt O -> K -> V -> Prop;
    A_in : forall t k v, winv L t -> newest t k v -> In (k, v) (ents L t);
    A_some : forall t k, winv L t -> In k (keys (ents L t)) -> exists v, newest t k v;
    A_fun : forall t k v w, winv L t -> newest t k v -> newest t k w -> v = w;
    A_single : forall k v, fresh (v_from_monad O k v);
    A_two : forall t, winv L t -> fresh t -> length (ents L t) <> 1 -> exists k k', k <> k' /\ In k (keys (ents L t)) /\ In k' (keys (ents L t));
    A_insert : forall t k v t' r, winv L t -> room L t -> fresh t -> v_insert O t k v = Ret (t', r) ->
      fresh t' /\ forall x w, newest t' x w <-> (x = k /\ w = v) \/ (x <> k /\ newest t x w);
    A_find : forall t k o, winv L t -> fresh t -> v_find O t k = Ret o ->
      match o with Some p => newest t k (snd p) | None => ~ In k (keys (ents L t)) end;
    A_min : forall t p, winv L t -> fresh t -> v_min_val O t = Ret p ->
      newest t (fst p) (snd p) /\ forall k, In k (keys (ents L t)) -> cmp (fst p) k <> Gt;
    A_remove_min : forall t ot p, winv L t -> v_remove_min O t = Ret (ot, p) -> forall x w, newest t x w <->
      match ot with Some t' => newest t' x w \/ (~ In x (keys (ents L t')) /\ (x, w) = p) | None => (x, w) = p end
  }.
End Aged.
Arguments fresh {B K V cmp O L}.
Arguments newest {B K V cmp O L}.
Arguments A_in {B K V cmp O L}.
Arguments A_some {B K V cmp O L}.
Arguments A_fun {B K V cmp O L}.
Arguments A_single {B K V cmp O L}.
Arguments A_two {B K V cmp O L}.
Arguments A_insert {B K V cmp O L}.
Arguments A_find {B K V cmp O L}.
Arguments A_min {B K V cmp O L}.
Arguments A_remove_min {B K V cmp O L}.

(** *** Trees that are always in order *)
Section Leaf.
  Context {B : Build} {K V : Type} {cmp : K -> K -> comparison} (OL : OrdLaws cmp) {O : VebOps K V} (L : VebLaws cmp O)
          (Hord : forall t, ord L t) (Hsafe : forall t k, safe L t k).
  Lemma leaf_single t k v w : winv L t -> In (k, v) (ents L t) -> In (k, w) (ents L t) -> v = w.
  Proof. intros Hw. apply nodup_keys_inj. apply (L_nodup L); auto. Qed.
  Definition leaf_aged : Aged L.
  Proof.
    refine {| fresh := fun _ => True; newest := fun t k v => In (k, v) (ents L t) |}.
    - auto.
    - intros t k _ H. apply keys_in. exact H.
    - apply leaf_single.
    - auto.
    - intros t Hw _ Hl. assert (Hn := L_nodup L t Hw (Hord t)). assert (Hne := L_nonempty L t Hw).
      destruct (ents L t) as [|p [|q l]]; [congruence|cbn in Hl; lia|]. exists (fst p), (fst q). cbn in Hn |- *. apply NoDup_cons_iff in Hn.
      split; [|auto]. intros E. apply (proj1 Hn). left. auto.
    - intros t k v t' r Hw Hr _ E. split; [exact I|]. destruct (L_insert L t k v Hw Hr) as [t2 [r2 [E2 [Hw2 [HP _]]]]].
      rewrite E in E2. injection E2 as <- <-. assert (Hn := L_nodup L t' Hw2 (Hord t')). assert (Hn0 := L_nodup L t Hw (Hord t)).
      assert (Hsplit : exists rest, Permutation (ents L t') ((k, v) :: rest) /\ (forall q, In q rest -> In q (ents L t)) /\
        forall q, In q (ents L t) -> fst q <> k -> In q rest).
      { destruct r as [q|].
        - destruct HP as [rest [H1 H2]]. exists rest. split; [exact H2|]. split.
          + intros x Hx. apply (Permutation_in _ (Permutation_sym H1)). right. exact Hx.
          + intros x Hx Hk. assert (Hq : fst q = k).
            { destruct (L_find L t k Hw) as [o [_ Ho]]. clear o Ho.
              destruct (cmp (fst q) k) eqn:Ec; [apply (cmp_eq OL) in Ec; exact Ec| |].
              all: exfalso; assert (Hin : In k (keys (ents L t)) \/ ~ In k (keys (ents L t))) by
                (destruct (L_find L t k Hw) as [[p|] [_ Hp]]; [left; destruct Hp as [Hp <-]; apply in_keys'; exact Hp|right; auto]).
              all: destruct Hin as [Hin|Hin].
              all: try (assert (Hf := L_insert L t k v Hw Hr); destruct Hf as [t3 [r3 [E3 [_ [_ [Hf _]]]]]]; rewrite E in E3; injection E3 as _ <-;
                discriminate (Hf Hn0 Hin)).
              all: apply keys_in in Hin; destruct Hin as [u Hu]; apply (Permutation_in _ H1) in Hu; destruct Hu as [Hu|Hu];
                [subst q; cbn in Ec; rewrite (cmp_refl OL) in Ec; discriminate Ec|];
                apply keys_perm in H2; apply (NoDup_perm _ _ H2) in Hn; cbn in Hn; apply NoDup_cons_iff in Hn; apply (proj1 Hn); apply in_keys in Hu; exact Hu. }
            apply (Permutation_in _ H1) in Hx. destruct Hx as [<-|Hx]; [contradiction|exact Hx].
        - exists (ents L t). auto. }
      destruct Hsplit as [rest [H2 [Hr1 Hr2]]].
      assert (Hk : ~ In k (keys rest)).
      { apply keys_perm in H2. apply (NoDup_perm _ _ H2) in Hn. cbn in Hn. apply NoDup_cons_iff in Hn. apply Hn. }
      intros x w. split.
      + intros H. apply (Permutation_in _ H2) in H. destruct H as [H|H]; [injection H as <- <-; auto|]. right. split; [|auto].
        intros ->. apply Hk. apply in_keys in H. exact H.
      + intros [[-> ->]|[Hx H]]; apply (Permutation_in _ (Permutation_sym H2)); [left; reflexivity|right]. apply Hr2; auto.
    - intros t k o Hw _ E. destruct (L_find L t k Hw) as [o' [E' H]]. rewrite E in E'. injection E' as <-. destruct o as [[k' v]|]; [|auto].
      destruct H as [H <-]. exact H.
    - intros t p Hw _ E. destruct (L_min L t Hw) as [p' [E' [H1 H2]]]. rewrite E in E'. injection E' as <-. split; [destruct p; exact H1|].
      intros k Hk. apply keys_in in Hk. destruct Hk as [v Hv]. exact (H2 (Hord t) _ Hv).
    - intros t ot p Hw E x w. destruct (L_remove_min L t Hw) as [ot' [p' [E' [_ Ht]]]]. rewrite E in E'. injection E' as <- <-.
      assert (Hn := L_nodup L t Hw (Hord t)). destruct ot as [t'|]; cbn in Ht.
      + destruct Ht as [_ [HP _]]. apply keys_perm in HP as HK. apply (NoDup_perm _ _ HK) in Hn. cbn in Hn. apply NoDup_cons_iff in Hn. split.
        * intros H. apply (Permutation_in _ HP) in H. destruct H as [H|H]; [right|left; exact H]. subst p. split; [apply Hn|reflexivity].
        * intros [H|[_ H]]; apply (Permutation_in _ (Permutation_sym HP)); [right; exact H|left; auto].
      + rewrite Ht. cbn. split; [intros [H|[]]; auto|auto].
  Defined.
End Leaf.

(** *** Trees *)
Section Trees.
  Context {B : Build} (fixed : bool) {K Hi Lo V : Type} {ko : KeyOps K Hi Lo} (KL : KeyLaws ko).
  Notation J := (k_join ko).
  Notation cmp := (k_cmp ko).
  Let OL : OrdLaws cmp := KL_k KL.
  Context {So : VebOps Hi unit} {Tr : VebOps Lo V} {C : CollOps Hi Lo V Tr}.
  Context (LS : VebLaws (hi_cmp ko) So) (LT : VebLaws (lo_cmp ko) Tr) (LC : CollLaws C) (AT : Aged LT).
  Notation TL := (Tree_laws fixed KL LS LT LC).
  Notation TO := (Tree_ops fixed ko So Tr C).
  Notation och_ents := (och_ents (ko := ko) (S := So) LT LC).
  Notation owch := (owch LS LT LC).
  Notation real := (real (ko := ko)).

  Definition mid (o : option (vt So * ct C)) (k : K) (v : V) : Prop :=
    match o with
    | None => False
    | Some (_, c) => exists h l t, k = J h l /\ real h l /\ In (h, t) (cents LC c) /\ newest AT t l v
    end.
  Definition mid_fresh (o : option (vt So * ct C)) : Prop :=
    match o with None => True | Some (_, c) => forall h t, In (h, t) (cents LC c) -> fresh AT t end.

  Lemma mid_in o k v : owch o -> mid o k v -> In (k, v) (och_ents o).
  Proof.
    destruct o as [[s c]|]; [|intros _ []]. cbn. intros Hw [h [l [t [-> [Hr [Ht Hn]]]]]]. apply (in_ch_J LS LT LC (s, c)); auto. exists t. split; [exact Ht|].
    apply (A_in AT); auto. apply (wch_win LS LT LC (s, c) h t Hw Ht).
  Qed.
  Lemma mid_key o k : owch o -> (In k (keys (och_ents o)) <-> exists v, mid o k v).
  Proof.
    intros Hw. split.
    - intros H. apply keys_in in H. destruct H as [v H]. destruct o as [[s c]|]; [|destruct H]. cbn in Hw, H |- *.
      destruct (split_J KL k) as [h [l [-> [Hr _]]]]. apply (in_ch_J LS LT LC (s, c)) in H; auto. destruct H as [t [Ht H]].
      destruct (A_some AT t l) as [w Hn]; [apply (wch_win LS LT LC (s, c) h t Hw Ht)|apply in_keys in H; exact H|]. exists w, h, l, t. auto.
    - intros [v H]. apply (mid_in o k v Hw) in H. apply in_keys in H. exact H.
  Qed.
  Lemma mid_at s c h l t v : wch LS LT LC (s, c) -> real h l -> In (h, t) (cents LC c) -> (mid (Some (s, c)) (J h l) v <-> newest AT t l v).
  Proof.
    intros Hw Hr Ht. split.
    - intros [h' [l' [t' [E [Hr' [Ht' Hn]]]]]]. apply J_inj in E; auto. destruct E as [<- <-].
      assert (t' = t) by (eapply (coll_inj LC); eauto; apply Hw). subst t'. exact Hn.
    - intros H. exists h, l, t. auto.
  Qed.
  Lemma mid_fun o k v w : owch o -> mid o k v -> mid o k w -> v = w.
  Proof.
    destruct o as [[s c]|]; [|intros _ []]. cbn [TreeUpd.owch]. intros Hw Hv H2. pose proof Hv as [h [l [t [-> [Hr [Ht H1]]]]]].
    apply (mid_at s c h l t w Hw Hr Ht) in H2. apply (A_fun AT t l v w); auto. apply (wch_win LS LT LC (s, c) h t Hw Ht).
  Qed.
  (** children with the trees in other places, or with one tree exchanged *)
  Lemma mid_split s c h t rest x w : Permutation (cents LC c) ((h, t) :: rest) ->
    mid (Some (s, c)) x w <-> (exists l, x = J h l /\ real h l /\ newest AT t l w) \/
      (exists h' l t', x = J h' l /\ real h' l /\ In (h', t') rest /\ newest AT t' l w).
  Proof.
    intros HP. cbn. split.
    - intros [h' [l [t' [E [Hr [Ht Hn]]]]]]. apply (Permutation_in _ HP) in Ht. destruct Ht as [Ht|Ht].
      + injection Ht as <- <-. left. eauto.
      + right. exists h', l, t'. auto.
    - intros [[l [E [Hr Hn]]]|[h' [l [t' [E [Hr [Ht Hn]]]]]]].
      + exists h, l, t. split; auto. split; auto. split; auto. apply (Permutation_in _ (Permutation_sym HP)). left. reflexivity.
      + exists h', l, t'. split; auto. split; auto. split; auto. apply (Permutation_in _ (Permutation_sym HP)). right. exact Ht.
  Qed.
  Lemma rest_not c h t rest h' t' : cinv LC c -> Permutation (cents LC c) ((h, t) :: rest) -> In (h', t') rest -> h' <> h.
  Proof.
    intros Hc HP Hin ->. assert (Hn := C_nodup LC c Hc). apply (Permutation_map fst) in HP. apply (Permutation_NoDup HP) in Hn. cbn in Hn.
    apply NoDup_cons_iff in Hn. apply (proj1 Hn). apply (in_map fst) in Hin. exact Hin.
  Qed.

  Lemma mid_push mn mx o k v t' r : owch o -> mid_fresh o -> (N.of_nat (length (och_ents o)) < usize_max)%N ->
    tr_push ko So Tr C mn mx o k v = Ret (t', r) ->
    exists o', t' = TR mn (Some (TD mx o')) /\ owch o' /\ mid_fresh o' /\
      forall x w, mid o' x w <-> (x = k /\ w = v) \/ (x <> k /\ mid o x w).
  Proof.
    intros Hw Hf Hl E. destruct (push_ok KL LS LT LC mn mx o k v Hw Hl) as [x' [r' [E' [Hw' _]]]]. rewrite E in E'. injection E' as -> <-.
    exists (Some x'). split; [reflexivity|]. split; [exact Hw'|]. destruct (split_J KL k) as [h [l [-> [Es _]]]]. unfold tr_push in E. unfold TreeChildren.real in Es.
    rewrite Es in E. destruct o as [[s c]|].
    - cbn [TreeUpd.owch TreeUpd.och_ents] in *. destruct (C_get LC c h) as [oc [_ Hg]]; [apply Hw|]. destruct oc as [t|].
      + assert (Hwt : winv LT t) by (apply Hw in Hg; exact Hg).
        assert (Hlt : room LT t) by (assert (H := length_child LT LC (S := So) (ko := ko) (s, c) h t Hg); lia).
        destruct (L_insert LT t l v Hwt Hlt) as [t1 [r1 [Ei _]]].
        destruct (C_insert_old LC c h (l, v) t t1 r1) as [c' [rest [Ec [Hc' [HP1 HP2]]]]]; auto; [apply Hw|]. rewrite Ec in E. cbn [bind] in E.
        assert (x' = (s, c')) by (destruct r1 as [[]|]; injection E; auto). subst x'. clear E.
        destruct (A_insert AT t l v t1 r1 Hwt Hlt) as [Hf1 Hn1]; auto; [exact (Hf h t Hg)|]. split.
        * intros h' t'' Hin. apply (Permutation_in _ HP2) in Hin. destruct Hin as [Hin|Hin]; [injection Hin as <- <-; exact Hf1|]. apply (Hf h').
          apply (Permutation_in _ (Permutation_sym HP1)). right. exact Hin.
        * intros x w. rewrite (mid_split s c' h t1 rest x w HP2), (mid_split s c h t rest x w HP1). split.
          -- intros [[l1 [-> [Hr1 H1]]]|[h1 [l1 [t2 [-> [Hr1 [Hin H1]]]]]]].
             ++ apply Hn1 in H1. destruct H1 as [[-> ->]|[Hne H1]]; [auto|]. right. split; [|left; eauto].
                intros Ej. apply J_inj in Ej; auto. destruct Ej. contradiction.
             ++ right. split; [|right; exists h1, l1, t2; auto]. intros Ej. apply J_inj in Ej; auto. destruct Ej as [Ej _].
                revert Ej. apply (rest_not c h t rest h1 t2); auto. apply Hw.
          -- intros [[-> ->]|[Hne [[l1 [-> [Hr1 H1]]]|H]]]; [| |right; exact H].
             ++ left. exists l. split; auto. split; auto. apply Hn1. auto.
             ++ left. exists l1. split; auto. split; auto. apply Hn1. right. split; auto. intros ->. apply Hne. reflexivity.
      + destruct (C_insert_new LC c h (l, v)) as [c' [Ec [Hc' HP]]]; auto; [apply Hw|]. rewrite Ec in E. cbn [bind fst snd] in E, HP.
        destruct (v_insert So s h tt) as [[s' rs]|]; [|discriminate E]. cbn [bind] in E. injection E as <- _.
        split.
        * intros h' t'' Hin. apply (Permutation_in _ HP) in Hin. destruct Hin as [Hin|Hin]; [injection Hin as <- <-; apply (A_single AT)|exact (Hf h' t'' Hin)].
        * intros x w. rewrite (mid_split s' c' h (v_from_monad Tr l v) (cents LC c) x w HP). cbn [mid].
          destruct (L_from_monad LT l v) as [M1 [M2 M3]]. split.
          -- intros [[l1 [-> [Hr1 H1]]]|[h1 [l1 [t2 [-> [Hr1 [Hin H1]]]]]]].
             ++ apply (A_in AT) in H1; auto. rewrite M3 in H1. destruct H1 as [H1|[]]. injection H1 as <- <-. auto.
             ++ right. split; [|exists h1, l1, t2; auto]. intros Ej. apply J_inj in Ej; auto. destruct Ej as [-> _]. apply Hg. apply (in_map fst) in Hin. exact Hin.
          -- intros [[-> ->]|[Hne H]]; [|right; exact H]. left. exists l. split; auto. split; auto.
             destruct (A_some AT (v_from_monad Tr l v) l M1) as [u Hu]; [rewrite M3; left; auto|].
             pose proof (A_in AT _ _ _ M1 Hu) as Hu'. rewrite M3 in Hu'. destruct Hu' as [Hu'|[]]. injection Hu' as <-. exact Hu.
    - destruct (C_create LC h (v_from_monad Tr l v)) as [c [Ec [Hc HP]]]. rewrite Ec in E. cbn [bind] in E. injection E as <- _. split.
      + intros h' t'' Hin. apply (Permutation_in _ HP) in Hin. destruct Hin as [Hin|[]]. injection Hin as <- <-. apply (A_single AT).
      + intros x w. rewrite (mid_split _ c h (v_from_monad Tr l v) [] x w HP). cbn [mid]. destruct (L_from_monad LT l v) as [M1 [M2 M3]]. split.
        * intros [[l1 [-> [Hr1 H1]]]|[h1 [l1 [t2 [_ [_ [[] _]]]]]]]. apply (A_in AT) in H1; auto. rewrite M3 in H1. destruct H1 as [H1|[]]. injection H1 as <- <-. auto.
        * intros [[-> ->]|[_ []]]. left. exists l. split; auto. split; auto.
          destruct (A_some AT (v_from_monad Tr l v) l M1) as [u Hu]; [rewrite M3; left; auto|].
          pose proof (A_in AT _ _ _ M1 Hu) as Hu'. rewrite M3 in Hu'. destruct Hu' as [Hu'|[]]. injection Hu' as <-. exact Hu.
  Qed.

  Lemma mid_remove_min s c h u r l v o : wch LS LT LC (s, c) -> v_min_val So s = Ret (h, u) -> c_remove_key C c h (v_remove_min Tr) = Ret (r, (l, v)) ->
    after_end So Tr C s r (v_remove_min So) = Ret o ->
    owch o /\ forall x w, mid (Some (s, c)) x w <-> mid o x w \/ (~ In x (keys (och_ents o)) /\ (x, w) = (J h l, v)).
  Proof.
    intros Hw Em Ec Ea. destruct (ends_ok KL LS LT LC false s c Hw) as [h0 [u0 [r0 [l0 [v0 [o0 [Em' [Ec' [Ea' [[Hwo [HP _]] _]]]]]]]]]].
    cbn [vext vrm] in Em', Ec', Ea'. rewrite Em in Em'. injection Em' as <- <-. rewrite Ec in Ec'. injection Ec' as <- <- <-. rewrite Ea in Ea'. injection Ea' as <-.
    split; [exact Hwo|].
    assert (Hs : exists t, In (h, t) (cents LC c)).
    { apply (ch_summary LS LT LC (s, c) h Hw). destruct (L_min LS s) as [p [E [H _]]]; [apply Hw|]. rewrite Em in E. injection E as <-. apply in_keys in H. exact H. }
    destruct Hs as [t Ht]. assert (Hwt : winv LT t) by (apply Hw in Ht; exact Ht).
    destruct (L_remove_min LT t Hwt) as [ot [p [Er [_ Htk]]]]. destruct (C_remove LC c h (v_remove_min Tr) t ot p) as [oc [Ec2 Hst]]; auto; [apply Hw|].
    rewrite Ec in Ec2. injection Ec2 as <- <-. assert (Hn := A_remove_min AT t ot (l, v) Hwt Er).
    assert (Hrl : real h l).
    { apply (wch_real LS LT LC (s, c) h t l v Hw Ht). apply taken_in in Htk. exact Htk. }
    assert (Hmk := fun x => mid_key o x Hwo).
    destruct ot as [t'|], r as [[c' [|]]|]; try contradiction Hst.
    - destruct Hst as [Hc' [rest [HP1 HP2]]]. cbn [after_end] in Ea. injection Ea as <-. intros x w. rewrite Hmk.
      setoid_rewrite (mid_split s c' h t' rest x _ HP2). rewrite (mid_split s c h t rest x w HP1). split.
      + intros [[l1 [-> [Hr1 H1]]]|H]; [|auto]. apply Hn in H1. destruct H1 as [H1|[H1 E1]]; [left; left; eauto|]. injection E1 as -> ->.
        right. split; [|reflexivity]. intros [w' [[l2 [E2 [Hr2 H2]]]|[h2 [l2 [t2 [E2 [Hr2 [Hin H2]]]]]]]].
        * apply J_inj in E2; auto. destruct E2 as [_ <-]. apply H1. apply (A_in AT) in H2; [apply in_keys in H2; exact H2|].
          cbn in Htk. apply Htk.
        * apply J_inj in E2; auto. destruct E2 as [E2 _]. symmetry in E2. revert E2. apply (rest_not c h t rest h2 t2); auto. apply Hw.
      + intros [[[l1 [-> [Hr1 H1]]]|H]|[Hno E1]]; [|right; exact H|].
        * left. exists l1. split; auto. split; auto. apply Hn. auto.
        * injection E1 as -> ->. left. exists l. split; auto. split; auto. apply Hn. right. split; [|reflexivity]. intros Hk.
          destruct (A_some AT t' l) as [w' Hw']; [cbn in Htk; apply Htk|exact Hk|]. apply Hno. exists w'. left. eauto.
    - destruct Hst as [Hc' HP1]. cbn [after_end] in Ea. destruct (v_remove_min So s) as [[os q]|]; [|discriminate Ea]. cbn [bind] in Ea.
      destruct os as [s'|]; [|discriminate Ea]. cbn [expect bind] in Ea. injection Ea as <-. intros x w. rewrite Hmk.
      rewrite (mid_split s c h t (cents LC c') x w HP1). cbn [mid]. split.
      + intros [[l1 [-> [Hr1 H1]]]|H]; [|auto]. apply Hn in H1. injection H1 as -> ->. right. split; [|reflexivity].
        intros [w' [h2 [l2 [t2 [E2 [Hr2 [Hin H2]]]]]]]. apply J_inj in E2; auto. destruct E2 as [E2 _]. symmetry in E2. revert E2.
        apply (rest_not c h t (cents LC c') h2 t2); auto. apply Hw.
      + intros [H|[Hno E1]]; [right; exact H|]. injection E1 as -> ->. left. exists l. split; auto. split; auto. apply Hn. reflexivity.
    - cbn in Hst. cbn [after_end] in Ea. injection Ea as <-. intros x w. rewrite (mid_split s c h t [] x w Hst). cbn. split.
      + intros [[l1 [-> [Hr1 H1]]]|[h2 [l2 [t2 [_ [_ [[] _]]]]]]]. apply Hn in H1. injection H1 as -> ->. auto.
      + intros [[]|[_ E1]]. injection E1 as -> ->. left. exists l. split; auto. split; auto. apply Hn. reflexivity.
  Qed.
End Trees.

Section Tree.
  Context {B : Build} (fixed : bool) {K Hi Lo V : Type} {ko : KeyOps K Hi Lo} (KL : KeyLaws ko).
  Notation J := (k_join ko).
  Notation cmp := (k_cmp ko).
  Let OL : OrdLaws cmp := KL_k KL.
  Context {So : VebOps Hi unit} {Tr : VebOps Lo V} {C : CollOps Hi Lo V Tr}.
  Context (LS : VebLaws (hi_cmp ko) So) (LT : VebLaws (lo_cmp ko) Tr) (LC : CollLaws C) (AT : Aged LT).
  Notation TL := (Tree_laws fixed KL LS LT LC).
  Notation och_ents := (och_ents (ko := ko) (S := So) LT LC).
  Notation owch := (owch LS LT LC).
  Notation mid := (mid (ko := ko) (So := So) LT LC AT).
  Notation mid_fresh := (mid_fresh (ko := ko) (So := So) LT LC AT).
  Notation T := (Tree So Tr C (K := K)).

  Definition tr_newest (t : T) (k : K) (v : V) : Prop :=
    match t_data t with
    | None => (k, v) = t_min t
    | Some (TD mx o) => (k, v) = mx \/ (k <> fst mx /\ mid o k v) \/ (k <> fst mx /\ ~ In k (keys (och_ents o)) /\ (k, v) = t_min t)
    end.
  Definition tr_fresh (t : T) : Prop :=
    match t_data t with
    | None => True
    | Some (TD mx o) => cmp (fst (t_min t)) (fst mx) = Lt /\ (forall k, In k (keys (och_ents o)) -> cmp (fst (t_min t)) k = Lt) /\ mid_fresh o
    end.

  Lemma lt_neq a b : cmp a b = Lt -> a <> b.
  Proof. intros H ->. rewrite (cmp_refl OL) in H. discriminate H. Qed.
  Lemma key_dec (a b : K) : {a = b} + {a <> b}.
  Proof. destruct (cmp a b) eqn:E; [left; apply (cmp_eq OL); exact E| |]; right; intros ->; rewrite (cmp_refl OL) in E; discriminate E. Qed.
  Lemma pair_at (p : K * V) k v : (k, v) = p <-> k = fst p /\ v = snd p.
  Proof. destruct p. cbn. split; [intros E; injection E; auto|intros [-> ->]; reflexivity]. Qed.

  (** a tree after a push *)
  Lemma aged_push (mn mx : K * V) o a u t' r mn' mx' : owch o -> mid_fresh o -> (N.of_nat (length (och_ents o)) < usize_max)%N ->
    tr_push ko So Tr C mn' mx' o a u = Ret (t', r) ->
    cmp (fst mn') (fst mx') = Lt -> cmp (fst mn') a = Lt -> (forall k, In k (keys (och_ents o)) -> cmp (fst mn) k = Lt) -> cmp (fst mn') (fst mn) <> Gt ->
    tr_fresh t' /\ forall x w, tr_newest t' x w <->
      (x, w) = mx' \/ (x <> fst mx' /\ ((x = a /\ w = u) \/ (x <> a /\ mid o x w))) \/
      (x <> fst mx' /\ x <> a /\ ~ In x (keys (och_ents o)) /\ (x, w) = mn').
  Proof.
    intros Hw Hf Hl E H1 H2 H3 H4. destruct (mid_push KL LS LT LC AT mn' mx' o a u t' r Hw Hf Hl E) as [o' [-> [Hw' [Hf' Hm]]]].
    assert (Hk : forall x, In x (keys (och_ents o')) <-> x = a \/ In x (keys (och_ents o))).
    { intros x. rewrite (mid_key KL LS LT LC AT o' x Hw'), (mid_key KL LS LT LC AT o x Hw). split.
      - intros [v Hv]. apply Hm in Hv. destruct Hv as [[-> _]|[_ Hv]]; eauto.
      - intros [->|[v Hv]]; [exists u; apply Hm; auto|]. destruct (cmp x a) eqn:Ec; [apply (cmp_eq OL) in Ec; subst x; exists u; apply Hm; auto| |];
          (exists v; apply Hm; right; split; [|exact Hv]; intros ->; rewrite (cmp_refl OL) in Ec; discriminate Ec). }
    split.
    - cbn. split; [exact H1|]. split; [|exact Hf']. intros k Hin. apply Hk in Hin. destruct Hin as [->|Hin]; [exact H2|].
      specialize (H3 k Hin). destruct (cmp (fst mn') (fst mn)) eqn:Ec; [apply (cmp_eq OL) in Ec; rewrite Ec; exact H3|eapply (cmp_trans OL); eauto|congruence].
    - intros x w. cbn. rewrite Hm, Hk. tauto.
  Qed.

  Local Ltac aged_cases x w Hmk a b c :=
    pose proof (Hmk x w); destruct (key_dec x a), (key_dec x b), (key_dec x c); try congruence; subst; cbn [fst snd] in *; intuition congruence.
  Definition Tree_aged : Aged TL.
  Proof.
    refine {| fresh := (tr_fresh : vt (Tree_ops fixed ko So Tr C) -> Prop); newest := (tr_newest : vt (Tree_ops fixed ko So Tr C) -> K -> V -> Prop) |}.
    - intros [mn [[mx o]|]] k v Hw; cbn; [|auto]. intros [->|[[_ H]|[_ [_ ->]]]]; auto. right. right. apply (mid_in LS LT LC AT); auto.
    - intros [mn [[mx o]|]] k Hw; cbn.
      + intros H. destruct (cmp k (fst mx)) eqn:Ec; [apply (cmp_eq OL) in Ec; subst k; exists (snd mx); left; destruct mx; reflexivity| |].
        all: assert (Hne : k <> fst mx) by (intros ->; rewrite (cmp_refl OL) in Ec; discriminate Ec).
        all: destruct (in_dec key_dec k (keys (och_ents o))) as [Hin|Hin].
        1, 3: apply (mid_key KL LS LT LC AT o k Hw) in Hin; destruct Hin as [v Hv]; exists v; auto.
        all: destruct H as [<-|[H|H]]; [|congruence|contradiction]; exists (snd mn); right; right; destruct mn; auto.
      + intros [<-|[]]. exists (snd mn). destruct mn; reflexivity.
    - intros [mn [[mx o]|]] k v w Hw; cbn.
      + rewrite !pair_at. intros H1 H2. assert (Hk := proj2 (mid_key KL LS LT LC AT o k Hw)).
        destruct H1 as [[-> ->]|[[Hx H1]|[Hx [Hn [-> ->]]]]], H2 as [[E ->]|[[Hx' H2]|[Hx' [Hn' [E ->]]]]]; try congruence.
        * eapply (mid_fun LS LT LC AT o); eauto.
        * exfalso. apply Hn'. apply Hk. eauto.
        * exfalso. apply Hn. apply Hk. eauto.
      + intros <- E. injection E as <-. reflexivity.
    - intros k v. exact I.
    - intros [mn [[mx o]|]] Hw Hf Hl; [|cbn in Hl; lia]. cbn in Hf |- *. exists (fst mn), (fst mx). split; [exact (lt_neq _ _ (proj1 Hf))|auto].
    - intros [mn od] k v t' r Hw Hr Hf E. cbn in E. unfold tr_insert in E. cbn [t_min t_data] in E. destruct od as [[mx o]|].
      + cbn in Hw, Hr, Hf. destruct Hf as [F1 [F2 F3]]. assert (Hl : (N.of_nat (length (och_ents o)) < usize_max)%N) by (cbn in Hr; lia).
        assert (Hno : ~ In (fst mn) (keys (och_ents o))) by (intros H; exact (lt_neq _ _ (F2 _ H) eq_refl)).
        assert (Hmk : forall y w, mid o y w -> In y (keys (och_ents o))) by (intros y w H; apply (mid_key KL LS LT LC AT o y Hw); eauto).
        assert (Hnx := lt_neq _ _ F1). cbn [d_max d_children] in E. destruct (cmp k (fst mn)) eqn:E1.
        * injection E as <- _. apply (cmp_eq OL) in E1. subst k. split; [cbn; auto|]. intros x w. cbn. rewrite !pair_at. cbn. aged_cases x w Hmk (fst mn) (fst mn) (fst mx).
        * destruct mn as [k1 v1]. cbn [fst snd] in *. rewrite (cmp_opp OL), F1 in E. cbn [CompOpp] in E. assert (Hk1 := lt_neq _ _ E1).
          assert (Hkx : cmp k (fst mx) = Lt) by (exact (cmp_trans OL _ _ _ E1 F1)). assert (Hkx' := lt_neq _ _ Hkx).
          assert (Hko : forall y, In y (keys (och_ents o)) -> cmp k y = Lt) by (intros y Hy; exact (cmp_trans OL _ _ _ E1 (F2 y Hy))).
          assert (Hko' : ~ In k (keys (och_ents o))) by (intros H; exact (lt_neq _ _ (Hko _ H) eq_refl)).
          destruct fixed.
          -- destruct (aged_push (k1, v1) mx o k1 v1 t' r (k, v) mx) as [Hf' Hn]; cbn; auto; [rewrite E1; discriminate|]. split; [exact Hf'|].
             intros x w. rewrite Hn. cbn. rewrite !pair_at. cbn. aged_cases x w Hmk k k1 (fst mx).
          -- destruct (aged_push (k1, v1) mx o (fst mx) (snd mx) t' r (k, v) (k1, v1)) as [Hf' Hn]; cbn; auto; [rewrite E1; discriminate|]. split; [exact Hf'|].
             intros x w. rewrite Hn. cbn. rewrite !pair_at. cbn. aged_cases x w Hmk k k1 (fst mx).
        * assert (F2' : cmp (fst mn) k = Lt) by (rewrite (cmp_opp OL), E1; reflexivity). assert (Hnk := lt_neq _ _ F2'). destruct (cmp k (fst mx)) eqn:E2.
          -- injection E as <- _. apply (cmp_eq OL) in E2. subst k. split; [cbn; auto|]. intros x w. cbn. rewrite !pair_at. cbn. tauto.
          -- assert (Hkx := lt_neq _ _ E2). destruct (aged_push mn mx o k v t' r mn mx) as [Hf' Hn]; auto; [rewrite (cmp_refl OL); discriminate|]. split; [exact Hf'|].
             intros x w. rewrite Hn. cbn. rewrite !pair_at. aged_cases x w Hmk k (fst mn) (fst mx).
          -- assert (E2' : cmp (fst mx) k = Lt) by (rewrite (cmp_opp OL), E2; reflexivity). assert (Hkx := lt_neq _ _ E2').
             destruct (aged_push mn mx o (fst mx) (snd mx) t' r mn (k, v)) as [Hf' Hn]; auto; [rewrite (cmp_refl OL); discriminate|]. split; [exact Hf'|].
             intros x w. rewrite Hn. cbn. rewrite !pair_at. cbn. aged_cases x w Hmk k (fst mn) (fst mx).
      + destruct (cmp k (fst mn)) eqn:E1; injection E as <- _.
        * apply (cmp_eq OL) in E1. subst k. split; [exact I|]. intros x w. cbn. rewrite !pair_at. cbn. split; [auto|]. intros [H|[H [E _]]]; [exact H|contradiction].
        * assert (Hk1 := lt_neq _ _ E1). split; [cbn; split; [exact E1|split; [intros ? []|exact I]]|]. intros x w. cbn. rewrite !pair_at. cbn. split.
          -- intros [[-> ->]|[[_ []]|[_ [_ H]]]]; auto.
          -- intros [[-> ->]|[_ H]]; [right; right; auto|auto].
        * assert (E1' : cmp (fst mn) k = Lt) by (rewrite (cmp_opp OL), E1; reflexivity). split; [cbn; split; [exact E1'|split; [intros ? []|exact I]]|].
          intros x w. cbn. rewrite !pair_at. cbn. split.
          -- intros [H|[[_ []]|[Hx [_ H]]]]; auto.
          -- intros [H|[Hx H]]; [auto|right; right; auto].
    - intros [mn od] k o Hw Hf E. cbn in E. unfold tr_find in E. cbn [t_min t_data] in E. destruct (cmp k (fst mn)) eqn:E1.
      + injection E as <-. apply (cmp_eq OL) in E1. subst k. destruct od as [[mx och]|]; cbn in Hf |- *; [|destruct mn; reflexivity].
        destruct Hf as [F1 [F2 _]]. right. right. split; [exact (lt_neq _ _ F1)|]. split; [|destruct mn; reflexivity].
        intros H. exact (lt_neq _ _ (F2 _ H) eq_refl).
      + injection E as <-. assert (Hk := lt_neq _ _ E1). destruct od as [[mx och]|]; cbn in Hf |- *; [|intros [H|[]]; congruence].
        destruct Hf as [F1 [F2 _]]. intros [H|[H|H]]; [congruence| |].
        * subst k. rewrite (cmp_opp OL), F1 in E1. discriminate E1.
        * specialize (F2 _ H). rewrite (cmp_opp OL), F2 in E1. discriminate E1.
      + assert (Hk : fst mn <> k) by (intros <-; rewrite (cmp_refl OL) in E1; discriminate E1).
        destruct od as [[mx och]|]; cbn [d_max d_children] in E; [|injection E as <-; cbn; intros [H|[]]; congruence].
        cbn in Hf, Hw. destruct Hf as [F1 [F2 F3]]. destruct (eqb cmp k (fst mx)) eqn:E2.
        * injection E as <-. apply (eqb_eq OL) in E2. subst k. cbn. left. destruct mx; reflexivity.
        * assert (Hkx : k <> fst mx) by (intros ->; rewrite (eqb_refl OL) in E2; discriminate E2).
          destruct och as [[s c]|]; [|injection E as <-; cbn; intros [H|[H|[]]]; congruence].
          destruct (split_J KL k) as [h [l [-> [Hr Hs]]]]. rewrite Hs in E. destruct (C_get LC c h) as [oc [Eg Hg]]; [apply Hw|].
          rewrite Eg in E. cbn [bind] in E. destruct oc as [t|].
          -- destruct (v_find Tr t l) as [fo|] eqn:Ef; [|discriminate E]. cbn [bind] in E.
             assert (Hwt : winv LT t) by (apply Hw in Hg; exact Hg). assert (Hc := A_find AT t l fo Hwt (F3 h t Hg) Ef). destruct fo as [[l' v]|]; injection E as <-.
             ++ cbn [snd]. right. left. split; [exact Hkx|]. exists h, l, t. auto.
             ++ cbn. intros [H|[H|H]]; [congruence|congruence|]. apply keys_in in H. destruct H as [w H]. apply (in_ch_J LS LT LC (s, c)) in H; auto.
                destruct H as [t' [Ht H]]. assert (t' = t) by (eapply (coll_inj LC); eauto; apply Hw). subst t'. apply Hc. apply in_keys in H. exact H.
          -- injection E as <-. cbn. intros [H|[H|H]]; [congruence|congruence|]. apply keys_in in H. destruct H as [w H]. apply (in_ch_J LS LT LC (s, c)) in H; auto.
             destruct H as [t' [Ht H]]. apply Hg. apply (in_map fst) in Ht. exact Ht.
    - intros [mn od] p Hw Hf E. cbn in E. injection E as <-. destruct od as [[mx o]|]; cbn in Hf |- *.
      + destruct Hf as [F1 [F2 _]]. split.
        * right. right. split; [exact (lt_neq _ _ F1)|]. split; [|destruct mn; reflexivity]. intros H. exact (lt_neq _ _ (F2 _ H) eq_refl).
        * intros k [<-|[<-|H]]; [rewrite (cmp_refl OL)|rewrite F1|rewrite (F2 _ H)]; discriminate.
      + split; [destruct mn; reflexivity|]. intros k [<-|[]]. rewrite (cmp_refl OL). discriminate.
    - intros [mn od] ot p Hw E x w. cbn in E. unfold tr_remove_min in E. cbn [t_min t_data] in E. destruct od as [[mx [[s c]|]]|]; cbn [d_children d_max] in E.
      + destruct (v_min_val So s) as [[h u]|] eqn:Em; [|discriminate E]. cbn [bind] in E.
        destruct (c_remove_key C c h (v_remove_min Tr)) as [[r [l v]]|] eqn:Ec; [|discriminate E]. cbn [bind] in E.
        destruct (after_end So Tr C s r (v_remove_min So)) as [o|] eqn:Ea; [|discriminate E]. cbn [bind] in E. injection E as <- <-.
        destruct (mid_remove_min KL LS LT LC AT s c h u r l v o Hw Em Ec Ea) as [Hwo Hm].
        assert (Hk : In x (keys (och_ents (Some (s, c)))) <-> x = J h l \/ In x (keys (och_ents o))).
        { rewrite (mid_key KL LS LT LC AT (Some (s, c)) x Hw), (mid_key KL LS LT LC AT o x Hwo). split.
          - intros [y Hy]. apply Hm in Hy. destruct Hy as [Hy|[_ Hy]]; [eauto|]. injection Hy as -> _. auto.
          - intros H. destruct (in_dec key_dec x (keys (och_ents o))) as [Hi1|Hno].
            { apply (mid_key KL LS LT LC AT o x Hwo) in Hi1. destruct Hi1 as [y Hy]. exists y. apply Hm. auto. }
            destruct H as [->|H]; [|elim Hno; apply (mid_key KL LS LT LC AT o _ Hwo); exact H]. exists v. apply Hm. right. split; [exact Hno|reflexivity]. }
        assert (Hk' : forall y, mid o x y -> In x (keys (och_ents o))) by (intros y Hy; apply (mid_key KL LS LT LC AT o x Hwo); eauto).
        specialize (Hm x w). change (tr_newest (TR mn (Some (TD mx (Some (s, c))))) x w) with
          ((x, w) = mx \/ (x <> fst mx /\ mid (Some (s, c)) x w) \/ (x <> fst mx /\ ~ In x (keys (och_ents (Some (s, c)))) /\ (x, w) = mn)).
        rewrite Hm, Hk. cbn. rewrite !pair_at. cbn. intuition congruence.
      + injection E as <- <-. cbn. rewrite !pair_at. intuition congruence.
      + injection E as <- <-. cbn. reflexivity.
  Defined.
End Tree.

Section Types.
  Context {B : Build}.
  Definition box_aged {K V cmp} {O : VebOps K V} {L : VebLaws cmp O} (A : Aged L) : Aged (Box_laws L).
  Proof.
    refine {| fresh := (fun t => fresh A (unbox t)) : vt (Box_ops O) -> Prop; newest := (fun t => newest A (unbox t)) : vt (Box_ops O) -> K -> V -> Prop |}.
    - exact (fun t => A_in A (unbox t)).
    - exact (fun t => A_some A (unbox t)).
    - exact (fun t => A_fun A (unbox t)).
    - exact (A_single A).
    - exact (fun t => A_two A (unbox t)).
    - intros t k v t' r Hw Hr Hf E. cbn in E. destruct (v_insert O (unbox t) k v) as [[t1 r1]|] eqn:E1; [|discriminate E]. cbn in E. injection E as <- _.
      exact (A_insert A (unbox t) k v t1 r1 Hw Hr Hf E1).
    - exact (fun t => A_find A (unbox t)).
    - exact (fun t => A_min A (unbox t)).
    - intros t ot p Hw E. cbn in E. destruct (v_remove_min O (unbox t)) as [[ot1 p1]|] eqn:E1; [|discriminate E]. cbn in E. injection E as <- <-.
      intros x w. rewrite (A_remove_min A (unbox t) ot1 p1 Hw E1 x w). destruct ot1; reflexivity.
  Defined.
  Definition sized_aged {K V cmp} {O : VebOps K V} {L : VebLaws cmp O} (A : Aged L) : Aged (Sized_laws L).
  Proof.
    refine {| fresh := (fun t => fresh A (sz_tree t)) : vt (Sized_ops O) -> Prop; newest := (fun t => newest A (sz_tree t)) : vt (Sized_ops O) -> K -> V -> Prop |}.
    - exact (fun t k v H => A_in A (sz_tree t) k v (proj1 H)).
    - exact (fun t k H => A_some A (sz_tree t) k (proj1 H)).
    - exact (fun t k v w H => A_fun A (sz_tree t) k v w (proj1 H)).
    - exact (A_single A).
    - exact (fun t H => A_two A (sz_tree t) (proj1 H)).
    - intros t k v t' r Hw Hr Hf E. apply sz_insert_tree in E. exact (A_insert A (sz_tree t) k v (sz_tree t') r (proj1 Hw) Hr Hf E).
    - exact (fun t k o H => A_find A (sz_tree t) k o (proj1 H)).
    - exact (fun t p H => A_min A (sz_tree t) p (proj1 H)).
    - intros t ot p Hw E x w. cbn in E. unfold sz_remove_end in E. destruct (checked_sub (sz_size t) 1) as [n|]; [|discriminate E]. cbn [bind] in E.
      destruct (v_remove_min O (sz_tree t)) as [[ot1 p1]|] eqn:E1; [|discriminate E]. cbn [bind] in E.
      rewrite (A_remove_min A (sz_tree t) ot1 p1 (proj1 Hw) E1 x w). destruct ot1 as [t1|].
      + destruct (expect (nonzero n)) as [n'|]; [|discriminate E]. cbn [bind] in E. injection E as <- <-. reflexivity.
      + injection E as <- <-. reflexivity.
  Defined.
  Fixpoint type_aged {fixed K V cmp O} (T : VebType fixed K V cmp O) : Aged (type_laws T) :=
    match T in VebType _ K V cmp O return Aged (type_laws T) with
    | VT_ByteSet _ => leaf_aged (u_cmp_laws 8) ByteSet_laws (fun _ => I)
    | VT_ByteMap _ _ => leaf_aged (u_cmp_laws 8) ByteMap_laws (fun _ => I)
    | VT_BTree _ K V cmp OL => leaf_aged OL (BTree_laws OL) (fun _ => I)
    | VT_Tree _ K Hi Lo V ko KL So Tr C TS TT CT => Tree_aged fixed KL (type_laws TS) (type_laws TT) (coll_laws CT) (type_aged TT)
    | VT_Box _ _ _ _ _ T' => box_aged (type_aged T')
    | VT_Sized _ _ _ _ _ T' => sized_aged (type_aged T')
    end.
End Types.

(** *** Maps with the same pairs *)
Section Collect.
  Context {K V : Type} {cmp : K -> K -> comparison} (OL : OrdLaws cmp).
  Implicit Types (l d : list (K * V)).
  Lemma same_pairs l l' : ascending cmp l -> ascending cmp l' -> (forall k v, In (k, v) l <-> In (k, v) l') -> l = l'.
  Proof.
    intros H H' He. apply (asc_perm_eq OL); auto. apply NoDup_Permutation.
    - apply (NoDup_map_inv fst). apply (asc_nodup OL); exact H.
    - apply (NoDup_map_inv fst). apply (asc_nodup OL); exact H'.
    - intros [k v]. apply He.
  Qed.
  Notation putall := (fold_left (fun l p => sp_insert cmp (fst p) (snd p) l)).
  Lemma putall_asc d : forall l, ascending cmp l -> ascending cmp (putall d l).
  Proof. induction d as [|p d IH]; intros l H; cbn; [exact H|]. apply IH. apply (sp_insert_asc OL). exact H. Qed.
  Lemma collect_asc d : ascending cmp (collect cmp d).
  Proof. apply putall_asc. apply asc_nil. Qed.
  Lemma key_in_dec k l : {In k (keys l)} + {~ In k (keys l)}.
  Proof.
    apply in_dec. intros a b. destruct (cmp a b) eqn:E; [left; apply (cmp_eq OL); exact E| |]; right; intros ->; rewrite (cmp_refl OL) in E; discriminate E.
  Qed.
  Lemma putall_in d : forall l k v, ascending cmp l -> (In (k, v) (putall d l) <-> In (k, v) (collect cmp d) \/ (~ In k (keys d) /\ In (k, v) l)).
  Proof.
    unfold collect. induction d as [|[a u] d IH]; intros l k v H; cbn [fold_left fst snd].
    - cbn. tauto.
    - rewrite (IH (sp_insert cmp a u l)), (IH (sp_insert cmp a u [])); [|apply (sp_insert_asc OL), asc_nil|apply (sp_insert_asc OL); exact H].
      rewrite (in_sp_insert OL a u l (k, v) H), (in_sp_insert OL a u [] (k, v) asc_nil). cbn [keys map fst In]. fold (@keys K V).
      destruct (key_in_dec k d) as [Hd|Hd]; [intuition|].
      assert (E : {a = k} + {a <> k}).
      { destruct (cmp a k) eqn:E; [left; apply (cmp_eq OL); exact E| |]; right; intros ->; rewrite (cmp_refl OL) in E; discriminate E. }
      assert (Hk : (k, v) = (a, u) -> a = k) by (intros E'; injection E'; auto). unfold keys in Hd. destruct E as [E|E]; intuition congruence.
  Qed.
  Lemma collect_cons p d k v : In (k, v) (collect cmp (p :: d)) <-> In (k, v) (collect cmp d) \/ (~ In k (keys d) /\ (k, v) = p).
  Proof.
    change (collect cmp (p :: d)) with (putall d (sp_insert cmp (fst p) (snd p) [])). rewrite putall_in by (apply (sp_insert_asc OL), asc_nil).
    rewrite (in_sp_insert OL _ _ [] (k, v) asc_nil). destruct p. cbn. intuition congruence.
  Qed.
  Lemma collect_length d : length (collect cmp d) <= length d.
  Proof.
    unfold collect. rewrite <- (Nat.add_0_r (length d)). change 0 with (length (@nil (K * V))). generalize (@asc_nil K V cmp). generalize (@nil (K * V)).
    induction d as [|p d IH]; intros l H; cbn [fold_left length Nat.add]; [lia|].
    assert (H1 := sp_insert_asc OL (fst p) (snd p) l H). specialize (IH _ H1). assert (Hl := insert_length OL (fst p) (snd p) l H).
    destruct (sp_find cmp (fst p) l); lia.
  Qed.
End Collect.

(** *** Trees built by insertions *)
Section History.
  Context {B : Build} {fixed : bool} {K V : Type} {cmp : K -> K -> comparison} {O : VebOps K V} (T : VebType fixed K V cmp O).
  Let OL : OrdLaws cmp := type_ord T.
  Notation L := (type_laws T).
  Notation A := (type_aged T).

  (** what draining such a tree collects *)
  Lemma drain_newest n : forall t, winv L t -> length (ents L t) <= n ->
    exists d, drain (v_remove_min O) n (Some t) = Ret (None, d) /\ Permutation d (ents L t) /\ forall k v, newest A t k v <-> In (k, v) (collect cmp d).
  Proof.
    induction n as [|n IH]; intros t Hw Hn.
    - assert (H := L_nonempty L t Hw). destruct (ents L t); [congruence|cbn in Hn; lia].
    - destruct (L_remove_min L t Hw) as [ot [p [E [_ Ht]]]]. assert (Hs := A_remove_min A t ot p Hw E). cbn [drain]. rewrite E. cbn [bind].
      destruct ot as [t'|]; cbn in Ht.
      + destruct Ht as [Hw' [HP _]]. destruct (IH t' Hw') as [d [E' [HP' Hc]]]; [apply Permutation_length in HP; cbn in HP; lia|].
        rewrite E'. cbn [bind]. exists (p :: d). split; [reflexivity|]. split; [rewrite HP; constructor; exact HP'|]. intros k v.
        rewrite Hs, (collect_cons OL), Hc. assert (Hk : In k (keys (ents L t')) <-> In k (keys d)).
        { apply keys_perm in HP'. split; intros H; [apply (Permutation_in _ (Permutation_sym HP')); exact H|apply (Permutation_in _ HP'); exact H]. }
        rewrite Hk. reflexivity.
      + exists [p]. split; [destruct n; reflexivity|]. split; [rewrite Ht; reflexivity|]. intros k v. rewrite Hs, (collect_cons OL). cbn. intuition.
  Qed.

  Definition kept (ot : option (vt O)) (l : list (K * V)) (n : nat) : Prop :=
    match ot with
    | None => l = []
    | Some t => winv L t /\ fresh A t /\ length (ents L t) <= n /\ ascending cmp l /\ forall k v, newest A t k v <-> In (k, v) l
    end.
  Lemma kept_keys t l n : kept (Some t) l n -> forall k, In k (keys (ents L t)) <-> In k (keys l).
  Proof.
    intros [Hw [_ [_ [_ He]]]] k. split.
    - intros H. destruct (A_some A t k Hw H) as [v Hv]. apply He in Hv. apply in_keys in Hv. exact Hv.
    - intros H. apply keys_in in H. destruct H as [v Hv]. apply He in Hv. apply (A_in A) in Hv; [|exact Hw]. apply in_keys in Hv. exact Hv.
  Qed.
  Lemma kept_find t l n k : kept (Some t) l n -> v_find O t k = Ret (sp_find cmp k l).
  Proof.
    intros H. assert (Hk := kept_keys t l n H k). destruct H as [Hw [Hf [_ [Ha He]]]]. destruct (L_find L t k Hw) as [o [E Ho]]. rewrite E. f_equal.
    assert (Hx := A_find A t k o Hw Hf E). destruct o as [[k' v]|].
    - destruct Ho as [_ Ho]. cbn in Ho, Hx. subst k'. apply He in Hx. symmetry. apply (sp_find_iff OL); auto.
    - symmetry. apply (sp_find_none OL). rewrite <- Hk. exact Hx.
  Qed.
  Lemma kept_min t l n : kept (Some t) l n -> exists p, v_min_val O t = Ret p /\ sp_min l = Some p.
  Proof.
    intros H. assert (Hk := kept_keys t l n H). destruct H as [Hw [Hf [_ [Ha He]]]]. destruct (L_min L t Hw) as [p [E _]]. exists p. split; [exact E|].
    destruct (A_min A t p Hw Hf E) as [Hn Hl]. rewrite He in Hn. replace (fst p, snd p) with p in Hn by (destruct p; reflexivity).
    destruct l as [|q l]; [destruct Hn|]. cbn. f_equal. destruct Hn as [Hn|Hn]; [exact Hn|]. exfalso. apply asc_cons in Ha. destruct Ha as [_ Ha].
    specialize (Ha p Hn). apply (Hl (fst q)); [apply Hk; left; reflexivity|]. rewrite (cmp_opp OL), Ha. reflexivity.
  Qed.
  Lemma kept_monad t l n : kept (Some t) l n -> v_is_monad O t = Ret (length l =? 1).
  Proof.
    intros H. assert (Hk := kept_keys t l n H). destruct H as [Hw [Hf [_ [Ha He]]]]. rewrite (L_is_monad L t Hw). f_equal.
    assert (Hn := asc_nodup OL l Ha). destruct (length (ents L t) =? 1) eqn:E1; destruct (length l =? 1) eqn:E2; auto; exfalso.
    - apply Nat.eqb_eq in E1. apply Nat.eqb_neq in E2. destruct (ents L t) as [|p [|q e]]; cbn in E1; try lia. destruct l as [|a [|b l]]; cbn in E2; try lia.
      + assert (H := proj1 (Hk (fst p))). cbn in H. tauto.
      + assert (H1 := proj2 (Hk (fst a))). assert (H2 := proj2 (Hk (fst b))). cbn in H1, H2, Hn. apply NoDup_cons_iff in Hn. apply (proj1 Hn). left.
        destruct H1 as [H1|[]]; [auto|]. destruct H2 as [H2|[]]; [auto|]. congruence.
    - apply Nat.eqb_neq in E1. apply Nat.eqb_eq in E2. destruct (A_two A t Hw Hf E1) as [k [k' [Hne [H1 H2]]]]. apply Hk in H1, H2.
      destruct l as [|a [|b l]]; cbn in E2; try lia. cbn in H1, H2. destruct H1 as [H1|[]], H2 as [H2|[]]. congruence.
  Qed.
  Lemma kept_mono ot l n m : n <= m -> kept ot l n -> kept ot l m.
  Proof. intros Hn. destruct ot as [t|]; cbn; [|auto]. intros [H1 [H2 [H3 H4]]]. repeat split; try tauto; [lia|apply H4|apply H4]. Qed.

  Lemma kept_step c ot l n : adds_or_asks c = true -> kept ot l n -> (N.of_nat n < usize_max)%N ->
    exists ot' o, step O c ot = Ret (ot', o) /\ kept ot' (fst (sp_step cmp c l)) (Datatypes.S n) /\ (sure c = true -> o = snd (sp_step cmp c l)).
  Proof.
    intros Hc Hk Hn. destruct ot as [t|].
    - assert (Hk' : kept (Some t) l (Datatypes.S n)) by (apply (kept_mono _ _ n); [lia|exact Hk]). pose proof Hk as [Hw [Hf [Hl [Ha He]]]].
      destruct c; try discriminate Hc; cbn [step].
      + assert (Hr : room L t) by lia. destruct (L_insert L t k v Hw Hr) as [t' [r [E [Hw' [HP _]]]]]. rewrite E. cbn [bind]. eexists _, _. split; [reflexivity|].
        split; [|discriminate]. destruct (A_insert A t k v t' r Hw Hr Hf E) as [Hf' He']. cbn. split; [exact Hw'|]. split; [exact Hf'|]. split.
        { destruct r as [q|]; [|apply Permutation_length in HP; rewrite HP; cbn; lia]. destruct HP as [rest [H1 H2]].
          apply Permutation_length in H1, H2. rewrite H2. cbn in H1 |- *. lia. }
        split; [apply (sp_insert_asc OL); exact Ha|]. intros x w. rewrite He', (in_sp_insert OL k v l (x, w) Ha), He. cbn. split.
        * intros [[-> ->]|[H1 H2]]; auto.
        * intros [H|[H1 H2]]; [injection H as -> ->|]; auto.
      + rewrite (kept_monad t l n Hk). cbn [bind]. eexists _, _. split; [reflexivity|]. cbn [sp_step fst snd]. auto.
      + destruct (kept_min t l n Hk) as [p [E Em]]. unfold query1. rewrite E. cbn [bind]. eexists _, _. split; [reflexivity|]. cbn [sp_step fst snd]. rewrite Em. auto.
      + destruct (L_max L t Hw) as [p [E _]]. unfold query1. rewrite E. cbn [bind]. eexists _, _. split; [reflexivity|]. cbn [sp_step fst snd]. split; [auto|discriminate].
      + unfold query. rewrite (kept_find t l n k Hk). cbn [bind]. eexists _, _. split; [reflexivity|]. cbn [sp_step fst snd]. auto.
      + destruct (L_pred L t k Hw) as [p [E _]]. unfold query. rewrite E. cbn [bind]. eexists _, _. split; [reflexivity|]. cbn [sp_step fst snd]. split; [auto|discriminate].
      + destruct (L_succ L t k Hw) as [p [E _]]. unfold query. rewrite E. cbn [bind]. eexists _, _. split; [reflexivity|]. cbn [sp_step fst snd]. split; [auto|discriminate].
    - cbn in Hk. subst l. destruct c; try discriminate Hc; cbn [step]; (eexists _, _; split; [reflexivity|]).
      all: try solve [cbn; split; [reflexivity|intros; first [reflexivity|discriminate]]].
      split; [|discriminate]. destruct (L_from_monad L k v) as [M1 [M2 M3]]. cbn [kept]. split; [exact M1|]. split; [apply (A_single A)|]. split; [rewrite M3; cbn; lia|].
      cbn [sp_step fst]. split; [apply (sp_insert_asc OL), asc_nil|]. intros x w. rewrite (in_sp_insert OL k v [] (x, w) asc_nil). cbn. split.
      + intros H. apply (A_in A) in H; [|exact M1]. rewrite M3 in H. destruct H as [H|[]]. auto.
      + intros [H|[[] _]]. injection H as -> ->. destruct (A_some A (v_from_monad O k v) k M1) as [u Hu]; [rewrite M3; left; reflexivity|].
        pose proof (A_in A _ _ _ M1 Hu) as Hu'. rewrite M3 in Hu'. destruct Hu' as [Hu'|[]]. injection Hu' as <-. exact Hu.
  Qed.
  Lemma kept_run cs : forall ot l n, forallb adds_or_asks cs = true -> kept ot l n -> (N.of_nat (n + length cs) <= usize_max)%N ->
    exists ot' os, run O cs ot = Ret (ot', os) /\ kept ot' (fst (sp_run cmp cs l)) (n + length cs) /\
      forall i c, nth_error cs i = Some c -> sure c = true -> nth_error os i = nth_error (snd (sp_run cmp cs l)) i.
  Proof.
    induction cs as [|c cs IH]; intros ot l n Hc Hk Hn; cbn [run sp_run length].
    - exists ot, []. split; [reflexivity|]. split; [rewrite Nat.add_0_r; exact Hk|]. intros i c H. destruct i; discriminate H.
    - cbn in Hc. apply andb_prop in Hc. destruct Hc as [H1 H2]. cbn [length] in Hn. destruct (kept_step c ot l n H1 Hk) as [ot1 [o [E1 [Hk1 Hs]]]]; [lia|].
      rewrite E1. cbn [bind]. destruct (IH ot1 _ (Datatypes.S n) H2 Hk1) as [ot2 [os [E2 [Hk2 Hs2]]]]; [lia|]. rewrite E2. cbn [bind].
      exists ot2, (o :: os). split; [reflexivity|]. rewrite (surjective_pairing (sp_step cmp c l)), (surjective_pairing (sp_run cmp cs (fst (sp_step cmp c l)))).
      cbn [fst snd]. split; [replace (n + Datatypes.S (length cs)) with (Datatypes.S n + length cs) by lia; exact Hk2|].
      intros [|i] c' Hc Hs'; cbn [nth_error] in *; [injection Hc as ->; rewrite (Hs Hs'); reflexivity|]. eapply Hs2; eauto.
  Qed.
  Lemma kept_drain ot l n m : kept ot l n -> n <= m -> exists d, drain (v_remove_min O) m ot = Ret (None, d) /\ collect cmp d = l /\ length d <= n.
  Proof.
    intros Hk Hm. destruct ot as [t|]; cbn [kept] in Hk.
    - destruct Hk as [Hw [_ [Hl [Ha He]]]]. destruct (drain_newest m t Hw) as [d [E [HP Hc]]]; [lia|]. exists d. split; [exact E|].
      split; [|apply Permutation_length in HP; lia]. apply (same_pairs OL); [apply (collect_asc OL)|exact Ha|]. intros k v. rewrite <- Hc. apply He.
    - subst l. exists []. split; [destruct m; reflexivity|]. split; [reflexivity|cbn; lia].
  Qed.

  Lemma asked cs : forallb adds_or_asks cs = true -> (N.of_nat (length cs) <= usize_max)%N ->
    exists ot os, run O cs None = Ret (ot, os) /\
      forall i c, nth_error cs i = Some c -> sure c = true -> nth_error os i = nth_error (snd (sp_run cmp cs [])) i.
  Proof. intros H Hn. destruct (kept_run cs None [] 0 H eq_refl Hn) as [ot [os [E [_ Hs]]]]. eauto. Qed.
  Lemma emptied cs n : forallb adds_or_asks cs = true -> (N.of_nat (length cs) <= usize_max)%N -> length cs <= n ->
    exists ot os d, run O cs None = Ret (ot, os) /\ drain (v_remove_min O) n ot = Ret (None, d) /\ collect cmp d = fst (sp_run cmp cs []).
  Proof.
    intros H Hn Hm. destruct (kept_run cs None [] 0 H eq_refl Hn) as [ot [os [E [Hk _]]]]. destruct (kept_drain ot _ _ n Hk Hm) as [d [Ed [Hc _]]].
    exists ot, os, d. auto.
  Qed.
  Lemma salvaged cs n adm cs2 : forallb adds_or_asks cs = true -> (N.of_nat (length cs) <= usize_max)%N -> length cs <= n ->
    allowed T adm -> admissible cmp adm cs2 (fst (sp_run cmp cs [])) ->
    exists ot os ot' ot2, run O cs None = Ret (ot, os) /\ salvage cmp O n ot = Ret ot' /\
      run O cs2 ot' = Ret (ot2, snd (sp_run cmp cs2 (fst (sp_run cmp cs [])))).
  Proof.
    intros H Hn Hm Hal Hadm. destruct (kept_run cs None [] 0 H eq_refl Hn) as [ot [os [E [Hk _]]]]. destruct (kept_drain ot _ _ n Hk Hm) as [d [Ed [Hc Hl]]].
    assert (Hcl := collect_length OL d). rewrite <- Hc in Hadm |- *.
    destruct (ascending_insertions OL (collect cmp d) []) as [A1 A2]; [apply (collect_asc OL)|cbn [app] in *; lia|]. cbn [app] in A2.
    destruct (run_refines OL L _ _ (allowed_covered T _ (AL_ascending T)) None [] eq_refl A1) as [ot' [E' Hr']]. rewrite A2 in Hr'.
    destruct (run_refines OL L adm cs2 (allowed_covered T adm Hal) ot' _ Hr' Hadm) as [ot2 [E2 _]].
    exists ot, os, ot', ot2. split; [exact E|]. split; [|exact E2]. unfold salvage. rewrite Ed. cbn [bind].
    change (map (fun p => Insert (fst p) (snd p)) (collect cmp d)) with (insertions_of (collect cmp d)). rewrite E'. reflexivity.
  Qed.
End History.
