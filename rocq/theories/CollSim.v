(** Collections of trees that simulate trees simulate: all collections are finite maps. *)
From Verif Require Import Base Ops Boxed Lists Laws CollSpec CollCor Sim.

Section Prel.
  Context {Hi T T' : Type} (R : T -> T' -> Prop).
  Notation pr := (rprod (@eq Hi) R).
  (** same keys, related trees, in whatever order *)
  Definition prel (l : list (Hi * T)) (l' : list (Hi * T')) : Prop := exists m, Permutation l' m /\ Forall2 pr l m.
  Lemma prel_perm l m l' m' : Permutation l m -> Permutation l' m' -> prel l l' -> prel m m'.
  Proof.
    intros H H' [x [H1 H2]]. destruct (Permutation_Forall2 H H2) as [y [H3 H4]]. exists y. split; auto.
    rewrite <- H', H1. auto.
  Qed.
  Lemma prel_cons h t t' l l' : R t t' -> prel l l' -> prel ((h, t) :: l) ((h, t') :: l').
  Proof. intros H [x [H1 H2]]. exists ((h, t') :: x). split; auto. constructor; auto. split; auto. Qed.
  Lemma prel_nil : prel [] [].
  Proof. exists []. split; constructor. Qed.
  Lemma prel_keys l l' : prel l l' -> Permutation (map fst l) (map fst l').
  Proof.
    intros [x [H1 H2]]. rewrite (Permutation_map fst H1). clear H1. replace (map fst x) with (map fst l); auto.
    induction H2; cbn; auto. destruct H. congruence.
  Qed.
  Lemma prel_in l l' h t : prel l l' -> In (h, t) l -> exists t', In (h, t') l' /\ R t t'.
  Proof.
    intros [x [H1 H2]] Hin. assert (H : exists t', In (h, t') x /\ R t t').
    { clear H1. induction H2 as [|a [h' t'] l x Ha Hx IH]; [destruct Hin|]. destruct Hin as [->|Hin].
      - destruct Ha as [E Ha]. cbn in E, Ha. subst h'. exists t'. split; [left|]; auto.
      - destruct (IH Hin) as [t1 [H3 H4]]. exists t1. split; [right|]; auto. }
    destruct H as [t' [H3 H4]]. exists t'. split; auto. eapply Permutation_in; [symmetry; exact H1|]. auto.
  Qed.
  Lemma prel_rest l l' h t t' r r' : NoDup (map fst l') -> prel l l' -> Permutation l ((h, t) :: r) -> Permutation l' ((h, t') :: r') ->
    R t t' /\ prel r r'.
  Proof.
    intros Hn H H1 H2. destruct (prel_perm _ _ _ _ H1 H2 H) as [x [H3 H4]].
    inversion H4 as [|? [h1 t1] ? y H5 H6]; subst. destruct H5 as [E H5]. cbn in E, H5. subst h1.
    assert (Hn2 : NoDup (map fst ((h, t') :: r'))) by (eapply Permutation_NoDup; [apply Permutation_map; exact H2|auto]).
    assert (E : t1 = t').
    { apply (nodup_fst_fun ((h, t') :: r') h); auto; [|left; auto]. eapply Permutation_in; [symmetry; exact H3|left; auto]. }
    subst t1. split; auto. exists y. split; auto. apply Permutation_cons_inv in H3. auto.
  Qed.
End Prel.

Section CollSim.
  Context {Hi Lo V V' : Type} {RV : V -> V' -> Prop} {Tr : VebOps Lo V} {Tr' : VebOps Lo V'} {RT : vt Tr -> vt Tr' -> Prop}.
  Context {C : CollOps Hi Lo V Tr} {C' : CollOps Hi Lo V' Tr'} (L : CollLaws C) (HP : absent_panics L) (L' : CollLaws C').
  Context (XT : Sim RV Tr Tr' RT).
  Context (dec : forall a b : Hi, {a = b} + {a <> b}).
  Definition coll_rel (c : ct C) (c' : ct C') : Prop := cinv L c /\ cinv L' c' /\ prel RT (cents L c) (cents L' c').

  Lemma there c c' h t : coll_rel c c' -> In (h, t) (cents L c) -> exists t', In (h, t') (cents L' c') /\ RT t t'.
  Proof. intros [_ [_ H]] Hin. eapply prel_in; eauto. Qed.
  Lemma here (c : ct C) h : In h (map fst (cents L c)) -> exists t, In (h, t) (cents L c).
  Proof. intros H. apply in_map_iff in H. destruct H as [[h' t] [<- H]]. eauto. Qed.
  Lemma absent c c' h : coll_rel c c' -> ~ In h (map fst (cents L c)) -> ~ In h (map fst (cents L' c')).
  Proof. intros [_ [_ H]] Hn Hin. apply Hn. eapply Permutation_in; [symmetry; exact (prel_keys _ _ _ H)|auto]. Qed.
  Lemma replaced c c' c1 c1' h t t' t1 t1' r r' : coll_rel c c' -> cinv L c1 -> cinv L' c1' ->
    Permutation (cents L c) ((h, t) :: r) -> Permutation (cents L' c') ((h, t') :: r') ->
    Permutation (cents L c1) ((h, t1) :: r) -> Permutation (cents L' c1') ((h, t1') :: r') -> RT t1 t1' -> coll_rel c1 c1'.
  Proof.
    intros [H1 [H2 H3]] H4 H5 H6 H7 H8 H9 H10. split; auto. split; auto.
    destruct (prel_rest RT _ _ _ _ _ _ _ (C_nodup L' _ H2) H3 H6 H7) as [_ Hr].
    eapply prel_perm; [symmetry; exact H8|symmetry; exact H9|]. apply prel_cons; auto.
  Qed.
  Lemma stored_sim c c' h t t' ot ot' oc oc' : coll_rel c c' -> stored (cinv L) (cents L) c h t ot oc ->
    stored (cinv L') (cents L') c' h t' ot' oc' -> ropt RT ot ot' -> ropt (rprod coll_rel eq) oc oc'.
  Proof.
    intros Hr Hs Hs' Ho. destruct ot as [t1|], ot' as [t1'|]; cbn in Ho; try contradiction; cbn in Hs, Hs'.
    - destruct oc as [[c1 []]|]; try contradiction. destruct oc' as [[c1' []]|]; try contradiction.
      destruct Hs as [H1 [r [H2 H3]]], Hs' as [H1' [r' [H2' H3']]]. split; [|reflexivity]. eapply replaced; [exact Hr|..]; eauto.
    - destruct oc as [[c1 []]|]; try contradiction; destruct oc' as [[c1' []]|]; try contradiction.
      + split; [|reflexivity]. destruct Hs as [H1 H2], Hs' as [H1' H2'], Hr as [H3 [H4 H5]].
        split; [exact H1|]. split; [exact H1'|]. apply (prel_rest RT _ _ _ _ _ _ _ (C_nodup L' _ H4) H5 H2 H2').
      + exfalso. destruct Hs as [H1 H2], Hr as [H3 [H4 H5]]. destruct (prel_rest RT _ _ _ _ _ _ _ (C_nodup L' _ H4) H5 H2 Hs') as [_ [x [Hx Hf]]].
        apply Permutation_nil in Hx. subst x. inversion Hf as [E|]. exact (C_nonempty L c1 H1 (eq_sym E)).
      + exfalso. destruct Hs' as [H1 H2], Hr as [H3 [H4 H5]]. destruct (prel_rest RT _ _ _ _ _ _ _ (C_nodup L' _ H4) H5 Hs H2) as [_ [x [Hx Hf]]].
        inversion Hf; subst. apply Permutation_sym, Permutation_nil in Hx. exact (C_nonempty L' c1' H1 Hx).
      + exact I.
  Qed.
  Lemma cases c h : In h (map fst (cents L c)) \/ ~ In h (map fst (cents L c)).
  Proof. destruct (in_dec dec h (map fst (cents L c))); auto. Qed.

  Lemma coll_sim : CSim RV RT C C' coll_rel.
  Proof.
    constructor.
    - intros h t t' Ht a E. destruct (C_create L h t) as [c [Ec [H1 H2]]]. destruct (C_create L' h t') as [c' [Ec' [H1' H2']]].
      assert (a = c) by congruence. subst a. exists c'. split; auto. split; auto. split; auto.
      eapply prel_perm; [symmetry; exact H2|symmetry; exact H2'|]. apply prel_cons; auto. apply prel_nil.
    - intros c c' h Hc a E. assert (Hc0 := Hc). destruct Hc as [H1 [H2 H3]]. destruct (C_get L c h H1) as [o [Eo Ho]]. destruct (C_get L' c' h H2) as [o' [Eo' Ho']].
      assert (a = o) by congruence. subst a. exists o'. split; auto. destruct o as [t|].
      + destruct (there _ _ _ _ Hc0 Ho) as [t' [H4 H5]]. destruct o' as [t1|].
        * assert (t' = t1) by (eapply nodup_fst_fun; [apply (C_nodup L' c' H2)| |]; eauto). subst. exact H5.
        * elim Ho'. apply (in_map fst) in H4. exact H4.
      + destruct o' as [t1|]; [|exact I]. elim (absent _ _ _ Hc0 Ho). apply (in_map fst) in Ho'. exact Ho'.
    - intros c c' h Hc a E. assert (Hc0 := Hc). destruct Hc as [H1 [H2 H3]].
      destruct (C_get_mut L c h H1) as [o [Eo [Eg Ho]]]. destruct (C_get_mut L' c' h H2) as [o' [Eo' [Eg' Ho']]].
      destruct (C_get L c h H1) as [g [Eg1 Hg]]. destruct (C_get L' c' h H2) as [g' [Eg1' Hg']].
      assert (a = o) by congruence. subst a. exists o'. split; auto. assert (g = omap fst o) by congruence. assert (g' = omap fst o') by congruence.
      subst g g'. destruct o as [[t put]|]; cbn in Hg.
      + destruct (there _ _ _ _ Hc0 Hg) as [t' [H4 H5]]. destruct o' as [[t1 put']|]; cbn in Hg'.
        * assert (t' = t1) by (eapply nodup_fst_fun; [apply (C_nodup L' c' H2)| |]; eauto). subst t1.
          destruct (Ho _ _ eq_refl) as [r [Hr Hp]], (Ho' _ _ eq_refl) as [r' [Hr' Hp']]. split; [exact H5|].
          intros w w' Hw. destruct (Hp w), (Hp' w'). eapply replaced; [exact Hc0|..]; eauto.
        * elim Hg'. apply (in_map fst) in H4. exact H4.
      + destruct o' as [[t1 put']|]; [|exact I]. elim (absent _ _ _ Hc0 Hg). apply (in_map fst) in Hg'. exact Hg'.
    - intros c c' h lv lv' Hc Hlv a E. assert (Hc0 := Hc). destruct Hc as [H1 [H2 H3]]. destruct lv as [k v], lv' as [k' v'], Hlv as [Ek Hv].
      cbn in Ek, Hv. subst k'. destruct (cases c h) as [Hin|Hout].
      + destruct (here c h Hin) as [t Ht]. destruct (there _ _ _ _ Hc0 Ht) as [t' [Ht' Hr]].
        destruct (v_insert Tr t k v) as [[t1 r]|] eqn:Ei; [|rewrite (C_insert_panic L c h (k, v) t H1 Ht Ei) in E; discriminate E].
        destruct (s_insert XT _ _ k _ _ Hr Hv _ Ei) as [[t1' r'] [Ei' [Hr1 Hr2]]]. cbn in Hr1, Hr2.
        destruct (C_insert_old L c h (k, v) t t1 r H1 Ht Ei) as [c1 [x [Ec [H4 [H5 H6]]]]].
        destruct (C_insert_old L' c' h (k, v') t' t1' r' H2 Ht' Ei') as [c1' [x' [Ec' [H4' [H5' H6']]]]].
        rewrite Ec in E. injection E as <-. eexists. split; [exact Ec'|]. split; [|split; [reflexivity|exact Hr2]].
        cbn. eapply replaced; [exact Hc0|..]; eauto.
      + destruct (C_insert_new L c h (k, v) H1 Hout) as [c1 [Ec [H4 H5]]].
        destruct (C_insert_new L' c' h (k, v') H2 (absent _ _ _ Hc0 Hout)) as [c1' [Ec' [H4' H5']]].
        rewrite Ec in E. injection E as <-. eexists. split; [exact Ec'|]. split; [|reflexivity]. split; auto. split; auto.
        eapply prel_perm; [symmetry; exact H5|symmetry; exact H5'|]. apply prel_cons; auto. apply (s_from XT); auto.
    - intros c c' h f f' Hc Hf a E. assert (Hc0 := Hc). destruct Hc as [H1 [H2 H3]].
      destruct (cases c h) as [Hin|Hout]; [|rewrite (HP c h f H1 Hout) in E; discriminate E].
      destruct (here c h Hin) as [t Ht]. destruct (there _ _ _ _ Hc0 Ht) as [t' [Ht' Hr]].
      destruct (f t) as [[ot p]|] eqn:Ef; [|rewrite (C_remove_panic L c h f t H1 Ht Ef) in E; discriminate E].
      destruct (Hf _ _ Hr _ Ef) as [[ot' p'] [Ef' [Ho Hp]]]. cbn in Ho, Hp.
      destruct (C_remove L c h f t ot p H1 Ht Ef) as [oc [Ec Hs]]. destruct (C_remove L' c' h f' t' ot' p' H2 Ht' Ef') as [oc' [Ec' Hs']].
      rewrite Ec in E. injection E as <-. eexists. split; [exact Ec'|]. split; [|exact Hp]. eapply stored_sim; eauto.
    - intros c c' h f f' Hc Hf a E. assert (Hc0 := Hc). destruct Hc as [H1 [H2 H3]]. destruct (cases c h) as [Hin|Hout].
      + destruct (here c h Hin) as [t Ht]. destruct (there _ _ _ _ Hc0 Ht) as [t' [Ht' Hr]].
        destruct (f t) as [[[ot p]|t1]|] eqn:Ef; [| |rewrite (C_maybe_panic L c h f t H1 Ht Ef) in E; discriminate E];
          destruct (Hf _ _ Hr _ Ef) as [[[ot' p']|t1'] [Ef' Ho]]; cbn in Ho; try contradiction.
        * destruct Ho as [Ho Hp]. cbn in Ho, Hp. destruct (C_maybe_ok L c h f t ot p H1 Ht Ef) as [oc [Ec Hs]].
          destruct (C_maybe_ok L' c' h f' t' ot' p' H2 Ht' Ef') as [oc' [Ec' Hs']].
          rewrite Ec in E. injection E as <-. eexists. split; [exact Ec'|]. split; [|exact Hp]. eapply stored_sim; eauto.
        * destruct (C_maybe_err L c h f t t1 H1 Ht Ef) as [c1 [r [Ec [H4 [H5 [H6 _]]]]]].
          destruct (C_maybe_err L' c' h f' t' t1' H2 Ht' Ef') as [c1' [r' [Ec' [H4' [H5' [H6' _]]]]]].
          rewrite Ec in E. injection E as <-. eexists. split; [exact Ec'|]. cbn. eapply replaced; [exact Hc0|..]; eauto.
      + rewrite (C_maybe_absent L c h f H1 Hout) in E. injection E as <-.
        eexists. split; [apply (C_maybe_absent L' c' h f' H2), (absent _ _ _ Hc0 Hout)|]. exact Hc0.
  Qed.
End CollSim.
