(** [Box<T>] and [SizedVebTree<T>] satisfy the laws when [T] does. *)
From Verif Require Import Base Spec Ops Boxed Lists Laws SizedT.

Section BoxLaws.
  Context {B : Build} {K V : Type} {cmp : K -> K -> comparison} {O : VebOps K V} (L : VebLaws cmp O).
  Notation BO := (Box_ops O).
  Notation bw := (fun t : vt BO => winv L (unbox t)).
  Notation bo := (fun t : vt BO => ord L (unbox t)).
  Notation be := (fun t : vt BO => ents L (unbox t)).

  Lemma box_mut1 t m i : mut1_ok (winv L) (ord L) (ents L) (unbox t) m i ->
    mut1_ok (O := BO) bw bo be t (rmap (box_lens O) m) i.
  Proof. intros [p [put [-> [-> H]]]]. eexists _, _. split; [reflexivity|]. split; [reflexivity|]. exact H. Qed.
  Lemma box_mut t m i : mut_ok (winv L) (ord L) (ents L) (unbox t) m i ->
    mut_ok (O := BO) bw bo be t (rmap (omap (box_lens O)) m) i.
  Proof.
    intros [o [-> [-> H]]]. eexists. split; [reflexivity|]. destruct o as [[p put]|]; cbn; split; auto.
    - intros p' put' E. injection E as <- <-. apply (H p put eq_refl).
    - discriminate.
  Qed.
  Lemma box_taken t p ot : taken (winv L) (ord L) (ents L) (unbox t) p ot ->
    taken (O := BO) bw bo be t p (omap mkbox ot).
  Proof. destruct ot; auto. Qed.

  Definition Box_laws : VebLaws cmp BO.
  Proof.
    refine {| winv := bw; ents := be; ord := bo; safe := fun t k => safe L (unbox t) k |}.
    - exact (fun t => L_nonempty L (unbox t)).
    - exact (fun t => L_nodup L (unbox t)).
    - exact (fun t => L_safe_in L (unbox t)).
    - exact (fun t => L_safe_gt L (unbox t)).
    - intros k v. apply L_from_monad.
    - exact (fun t => L_is_monad L (unbox t)).
    - exact (fun t => L_len_hint L (unbox t)).
    - intros [t] H. cbn in *. destruct (L_into_monad L t H) as [[p [E H']]|[E H']]; rewrite E; cbn; [left|right]; eauto.
    - exact (fun t => L_min L (unbox t)).
    - exact (fun t => L_max L (unbox t)).
    - exact (fun t => L_find L (unbox t)).
    - exact (fun t => L_pred L (unbox t)).
    - exact (fun t => L_succ L (unbox t)).
    - exact (fun t H => box_mut1 t _ _ (L_min_mut L (unbox t) H)).
    - exact (fun t H => box_mut1 t _ _ (L_max_mut L (unbox t) H)).
    - exact (fun t k H => box_mut t _ _ (L_find_mut L (unbox t) k H)).
    - exact (fun t k H => box_mut t _ _ (L_pred_mut L (unbox t) k H)).
    - exact (fun t k H => box_mut t _ _ (L_succ_mut L (unbox t) k H)).
    - intros t k v H Hl. destruct (L_insert L (unbox t) k v H Hl) as [t' [r [E H']]].
      exists (mkbox t'), r. cbn. rewrite E. split; auto.
    - intros [t] k H. cbn in H. destruct (L_remove L t k H) as [[ot [p [E [H1 H2]]]]|[E H1]]; cbn; rewrite E; cbn.
      + left. eexists _, _. split; [reflexivity|]. split; auto. apply box_taken. exact H2.
      + right. auto.
    - intros t H. destruct (L_remove_min L (unbox t) H) as [ot [p [E [H1 H2]]]]. cbn. rewrite E. cbn.
      eexists _, _. split; [reflexivity|]. split; auto. apply box_taken. exact H2.
    - intros t H. destruct (L_remove_max L (unbox t) H) as [ot [p [E [H1 H2]]]]. cbn. rewrite E. cbn.
      eexists _, _. split; [reflexivity|]. split; auto. apply box_taken. exact H2.
  Defined.
End BoxLaws.

Section SizedLaws.
  Context {B : Build} {K V : Type} {cmp : K -> K -> comparison} {O : VebOps K V} (L : VebLaws cmp O).
  Notation SO := (Sized_ops O).
  Notation sw := (fun t : vt SO => winv L (sz_tree t) /\ sz_size t = N.of_nat (length (ents L (sz_tree t)))).
  Notation so := (fun t : vt SO => ord L (sz_tree t)).
  Notation se := (fun t : vt SO => ents L (sz_tree t)).

  Lemma sz_lens_ok (t : vt SO) p put : sw t -> lens_ok (winv L) (ord L) (ents L) (sz_tree t) p put ->
    lens_ok (O := SO) sw so se t p (fun v => SZ (put v) (sz_size t)).
  Proof.
    intros [Hw Hs] [rest [H1 H2]]. exists rest. split; auto. intros w. destruct (H2 w) as [H3 [H4 H5]]. cbn.
    split; [split; auto|auto]. rewrite Hs, (Permutation_length H1), (Permutation_length H4). auto.
  Qed.
  Lemma sz_mut1 t m i : sw t -> mut1_ok (winv L) (ord L) (ents L) (sz_tree t) m i ->
    mut1_ok (O := SO) sw so se t (rmap (sz_lens O t) m) i.
  Proof.
    intros Hw [p [put [-> [-> H]]]]. eexists _, _. split; [reflexivity|]. split; [reflexivity|]. apply sz_lens_ok; auto.
  Qed.
  Lemma sz_mut t m i : sw t -> mut_ok (winv L) (ord L) (ents L) (sz_tree t) m i ->
    mut_ok (O := SO) sw so se t (rmap (omap (sz_lens O t)) m) i.
  Proof.
    intros Hw [o [-> [-> H]]]. eexists. split; [reflexivity|].
    destruct o as [[p put]|]; cbn [rmap bind omap]; (split; [reflexivity|]); [|discriminate].
    intros p' put' E. injection E as <- <-. apply sz_lens_ok; auto.
  Qed.
  Lemma sz_pos t : sw t -> (1 <= sz_size t)%N.
  Proof.
    intros [Hw ->]. assert (H := L_nonempty L _ Hw). destruct (ents L (sz_tree t)); [congruence|]. cbn [length]. lia.
  Qed.
  Lemma sz_less (t : vt SO) p t' : sw t -> taken (winv L) (ord L) (ents L) (sz_tree t) p (Some t') ->
    checked_sub (sz_size t) 1 = Ret (sz_size t - 1)%N /\ nonzero (sz_size t - 1) = Some (sz_size t - 1)%N /\
    taken (O := SO) sw so se t p (Some (SZ t' (sz_size t - 1))).
  Proof.
    intros H [H1 [H2 H3]]. assert (Hp := sz_pos t H). destruct H as [Hw Hs].
    assert (Hl := Permutation_length H2). cbn [length] in Hl. assert (Hn := L_nonempty L _ H1).
    unfold checked_sub, nonzero. replace (1 <=? sz_size t)%N with true by (symmetry; apply N.leb_le; auto).
    split; auto. replace (sz_size t - 1 =? 0)%N with false.
    - split; auto. cbn. split; [split; auto; lia|auto].
    - symmetry. apply N.eqb_neq. destruct (ents L t'); [congruence|]. cbn [length] in Hl. lia.
  Qed.
  Lemma sz_remove_end_ok rm (t : vt SO) ot p : sw t -> rm (sz_tree t) = Ret (ot, p) ->
    taken (winv L) (ord L) (ents L) (sz_tree t) p ot ->
    exists ot', sz_remove_end O rm t = Ret (ot', p) /\ taken (O := SO) sw so se t p ot'.
  Proof.
    intros Hw E H. unfold sz_remove_end. assert (Hp := sz_pos t Hw). destruct ot as [t'|].
    - destruct (sz_less t p t' Hw H) as [E1 [E2 H']]. rewrite E1. cbn [bind]. rewrite E. cbn [bind]. rewrite E2. cbn [expect bind].
      eauto.
    - unfold checked_sub. replace (1 <=? sz_size t)%N with true by (symmetry; apply N.leb_le; auto). cbn [bind].
      rewrite E. cbn [bind]. exists None. auto.
  Qed.

  Definition Sized_laws : VebLaws cmp SO.
  Proof.
    refine {| winv := sw; ents := se; ord := so; safe := fun t k => safe L (sz_tree t) k |}.
    - intros t H. apply L_nonempty. apply H.
    - intros t H. apply L_nodup. apply H.
    - intros t k H. apply L_safe_in. apply H.
    - intros t k H. apply L_safe_gt. apply H.
    - intros k v. destruct (L_from_monad L k v) as [H1 [H2 H3]]. cbn. rewrite H3. auto.
    - intros t [H Hs]. cbn. rewrite (L_is_monad L _ H). cbn. destruct (length (ents L (sz_tree t)) =? 1) eqn:E; auto.
      apply Nat.eqb_eq in E. rewrite Hs, E. auto.
    - intros t [H Hs]. eexists _, _. split; [reflexivity|]. split; [rewrite Hs; apply N.le_refl|].
      intros h E. injection E as <-. rewrite Hs. apply N.le_refl.
    - intros [t n] [H Hs]. cbn in *. destruct (L_into_monad L t H) as [[p [E H']]|[E H']]; rewrite E; cbn; [left|right]; eauto.
    - exact (fun t H => L_min L (sz_tree t) (proj1 H)).
    - exact (fun t H => L_max L (sz_tree t) (proj1 H)).
    - exact (fun t k H => L_find L (sz_tree t) k (proj1 H)).
    - exact (fun t k H => L_pred L (sz_tree t) k (proj1 H)).
    - exact (fun t k H => L_succ L (sz_tree t) k (proj1 H)).
    - exact (fun t H => sz_mut1 t _ _ H (L_min_mut L (sz_tree t) (proj1 H))).
    - exact (fun t H => sz_mut1 t _ _ H (L_max_mut L (sz_tree t) (proj1 H))).
    - exact (fun t k H => sz_mut t _ _ H (L_find_mut L (sz_tree t) k (proj1 H))).
    - exact (fun t k H => sz_mut t _ _ H (L_pred_mut L (sz_tree t) k (proj1 H))).
    - exact (fun t k H => sz_mut t _ _ H (L_succ_mut L (sz_tree t) k (proj1 H))).
    - intros t k v [H Hs] Hl. destruct (L_insert L (sz_tree t) k v H Hl) as [t' [r [E [H1 [H2 [H3 H4]]]]]].
      cbn [v_insert Sized_ops]. unfold sz_insert. rewrite E. cbn [bind]. destruct r as [q|].
      + eexists _, _. split; [reflexivity|]. cbn [sz_tree sz_size]. split; [split; auto|auto].
        destruct H2 as [rest [H5 H6]]. rewrite Hs, (Permutation_length H5), (Permutation_length H6). auto.
      + unfold checked_add. replace (sz_size t + 1 <=? usize_max)%N with true by (symmetry; apply N.leb_le; lia). cbn [bind].
        eexists _, _. split; [reflexivity|]. cbn [sz_tree sz_size]. split; [split; auto|auto].
        rewrite Hs, (Permutation_length H2). cbn [length]. lia.
    - intros [t n] k Hw. assert (H := proj1 Hw). cbn in H. cbn [v_remove Sized_ops]. unfold sz_remove. cbn [sz_tree sz_size].
      destruct (L_remove L t k H) as [[ot [p [E [H1 H2]]]]|[E H1]]; rewrite E; cbn [bind].
      + left. destruct ot as [t'|].
        * destruct (sz_less (SZ t n) p t' Hw H2) as [E1 [E2 H']]. cbn [sz_size] in *. rewrite E1. cbn [bind]. rewrite E2. cbn [expect bind].
          eexists _, _. split; [reflexivity|]. auto.
        * eexists _, _. split; [reflexivity|]. auto.
      + right. auto.
    - intros t Hw. destruct (L_remove_min L (sz_tree t) (proj1 Hw)) as [ot [p [E [H1 H2]]]].
      destruct (sz_remove_end_ok (v_remove_min O) t ot p Hw E H2) as [ot' [E' H']]. exists ot', p. auto.
    - intros t Hw. destruct (L_remove_max L (sz_tree t) (proj1 Hw)) as [ot [p [E [H1 H2]]]].
      destruct (sz_remove_end_ok (v_remove_max O) t ot p Hw E H2) as [ot' [E' H']]. exists ot', p. auto.
  Defined.
End SizedLaws.
