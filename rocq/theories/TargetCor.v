From Verif Require Import Base Ints Ops Spec Key KeySpec Coll Laws CollProofs KeyProofs Target.

Lemma offered_pos p w : offered p w -> exists h, w = (h + 1)%N /\ (h + 1 <= p)%N.
Proof. intros [_ [H1 H2]]. exists (w - 1)%N. cbn in H1. lia. Qed.
Lemma index_u_at_val p w (x : u w) : (w <= p)%N -> index_u_at p x = uval x.
Proof.
  intros H. unfold index_u_at. apply wrap_small. assert (Hx := uval_lt x). assert (2 ^ w <= 2 ^ p)%N by (apply N.pow_le_mono_r; lia). lia.
Qed.
Lemma card_half h : (Z.of_N (Cardinality_at (h + 1)) = 2 * ihalf h)%Z.
Proof. unfold Cardinality_at. rewrite N2Z.inj_pow. apply pow_half. Qed.

Lemma target_unsigned p w : offered p w -> numbering (@index_u_at p w) (Cardinality_at w).
Proof.
  intros [_ [_ H]]. split; [|split].
  - intros x. rewrite index_u_at_val by auto. apply uval_lt.
  - intros x y. rewrite !index_u_at_val by auto. apply u_eq.
  - intros m Hm. exists (pack w m). rewrite index_u_at_val by auto. apply pack_val. exact Hm.
Qed.
Lemma target_signed p h : offered p (h + 1) ->
  (numbering (@index_i_at p h) (Cardinality_at (h + 1)) <-> p = (h + 1)%N) /\
  (p <> (h + 1)%N -> forall x : i h, (index_i_at p x < Cardinality_at (h + 1))%N <-> (ival x < 0)%Z).
Proof.
  intros [_ [_ Hp]].
  assert (Hb : p <> (h + 1)%N -> forall x : i h, (index_i_at p x < Cardinality_at (h + 1))%N <-> (ival x < 0)%Z).
  { intros Hn x. assert (Hl : (h + 1 < p)%N) by lia. assert (H4 := half_le h p Hl). assert (Hx := ival_range x). assert (Hq := ihalf_pos h).
    rewrite N2Z.inj_lt, card_half. destruct (Z.lt_ge_cases (ival x) 0) as [H|H].
    - rewrite (index_i_at_neg p h x Hl H). lia.
    - rewrite (index_i_at_pos p h x Hl H). lia. }
  split; [|exact Hb]. split.
  - intros [H _]. destruct (N.eq_dec p (h + 1)) as [E|E]; [exact E|]. exfalso.
    assert (H0 := proj1 (Hb E (packi h 0)) (H (packi h 0))). rewrite packi_val in H0; [lia|]. assert (Hq := ihalf_pos h). lia.
  - intros ->. split; [|split].
    + intros x. rewrite N2Z.inj_lt, card_half, index_i_at_same. assert (Hx := ival_range x). lia.
    + intros x y E. apply (f_equal Z.of_N) in E. rewrite !index_i_at_same in E. apply i_eq. lia.
    + intros m Hm. rewrite N2Z.inj_lt, card_half in Hm. exists (packi h (Z.of_N m - ihalf h)%Z). apply N2Z.inj. rewrite index_i_at_same, packi_val by lia. lia.
Qed.
Lemma target_build (B : Build) : (forall w (x : u w), (w <= usize_bits)%N -> index_u_at usize_bits x = uval x) /\
  (forall h (x : i h), index_i_at usize_bits x = index_i x).
Proof. split; [intros; apply index_u_at_val; auto|reflexivity]. Qed.
Lemma target_const p w : offered p w -> CARDINALITY_u_at p w = (Cardinality_at w - 1)%N /\
  (CARDINALITY_i_at p w = (Cardinality_at w - 1)%N <-> (w = p \/ (w <> 16 /\ w <> 32))%N).
Proof.
  intros [H1 [H2 H3]]. assert (Hw : uval (wrap p (2 ^ w - 1)) = (2 ^ w - 1)%N).
  { apply wrap_small. assert (2 ^ w <= 2 ^ p)%N by (apply N.pow_le_mono_r; lia). assert (0 < 2 ^ w)%N by (apply N.neq_0_lt_0, N.pow_nonzero; lia). lia. }
  split; [exact Hw|]. unfold CARDINALITY_i_at. rewrite Hw. unfold Cardinality_at. clear Hw.
  destruct (N.eqb_spec w 16) as [E|E]; [|destruct (N.eqb_spec w 32) as [E2|E2]]; cbn [orb].
  - subst w. cbn in H1. split; [intros H; left; destruct H1 as [<-|[<-|[<-|[<-|[]]]]]; auto; vm_compute in H; discriminate H|intros [<-|[H _]]; [reflexivity|congruence]].
  - subst w. cbn in H1. split; [intros H; left; destruct H1 as [<-|[<-|[<-|[<-|[]]]]]; auto; vm_compute in H; discriminate H|intros [<-|[_ H]]; [reflexivity|congruence]].
  - split; auto.
Qed.

(** *** U4 and U2 *)
Lemma lor_lt a b w : (a < 2 ^ w)%N -> (b < 2 ^ w)%N -> (N.lor a b < 2 ^ w)%N.
Proof.
  intros Ha Hb. destruct (N.eq_dec (N.lor a b) 0) as [->|H0]; [apply N.neq_0_lt_0, N.pow_nonzero; lia|].
  apply N.log2_lt_pow2; [lia|]. rewrite N.log2_lor. destruct (N.eq_dec a 0) as [->|Hz]; destruct (N.eq_dec b 0) as [->|Hz'].
  - cbn in H0. congruence.
  - change (N.log2 0) with 0%N. rewrite N.max_0_l. apply N.log2_lt_pow2; lia.
  - change (N.log2 0) with 0%N. rewrite N.max_0_r. apply N.log2_lt_pow2; lia.
  - apply N.max_lub_lt; apply N.log2_lt_pow2; lia.
Qed.
Lemma from4_val' v : uval (U4_from_u8 v) = (uval v mod 16)%N.
Proof. apply U4_from_val. Qed.
Lemma from2_val' v : uval (U2_from_u8 v) = (uval v mod 4)%N.
Proof. apply U2_from_val. Qed.
Lemma shl_mod n m k : (k <= 8)%N -> ((n * 2 ^ m) mod 2 ^ 8 mod 2 ^ k = (n * 2 ^ m) mod 2 ^ k)%N.
Proof.
  intros H. replace (2 ^ 8)%N with (2 ^ k * 2 ^ (8 - k))%N by (rewrite <- N.pow_add_r; f_equal; lia).
  rewrite N.mod_mul_r by (apply N.pow_nonzero; lia). rewrite N.mul_comm with (n := (2 ^ k)%N), N.mod_add by (apply N.pow_nonzero; lia).
  apply N.mod_mod. apply N.pow_nonzero. lia.
Qed.
(** the amount shifted by in a build that does not check it *)
Lemma shift8_ok {B : Build} n : shift8 n = if (n <? 8)%N then Ret n else if dbg then Panic else Ret (n mod 8)%N.
Proof. unfold shift8. destruct (n <? 8)%N; auto. destruct dbg; auto. f_equal. change 7%N with (N.ones 3). apply (N.land_ones n 3). Qed.
Lemma U4_arith : (forall v, uval (U4_from_u8 v) = (uval v mod 16)%N) /\ (forall x, U4_made x -> U4_from_u8 (U4_into_u8 x) = x) /\
  (forall a b, U4_made a -> U4_made b -> uval (U4_bitor a b) = N.lor (uval a) (uval b)) /\
  (forall (B : Build) a n, U4_made a ->
    U4_shl a n = (m <- shift8 n ;; Ret (pack 8 ((uval a * 2 ^ m) mod 16))) /\
    U4_shr a n = (m <- shift8 n ;; Ret (pack 8 (uval a / 2 ^ m)))).
Proof.
  split; [exact from4_val'|]. split; [|split].
  - intros x H. apply u_eq. unfold U4_into_u8. rewrite from4_val'. apply N.mod_small. apply (made4_lt x H).
  - intros a b Ha Hb. apply made4_lt in Ha, Hb. unfold U4_bitor. assert (H := lor_lt (uval a) (uval b) 4 Ha Hb).
    rewrite from4_val', wrap_small by (change (2 ^ 8)%N with 256%N; change (2 ^ 4)%N with 16%N in H; lia). apply N.mod_small. exact H.
  - intros B a n Ha. apply made4_lt in Ha. unfold U4_shl, U4_shr. destruct (shift8 n) as [m|]; [|split; reflexivity]. cbn [bind]. split; f_equal; apply u_eq.
    + rewrite from4_val', wrap_val, N.shiftl_mul_pow2, pack_val.
      * apply (shl_mod (uval a) m 4). lia.
      * assert (H := N.mod_lt (uval a * 2 ^ m) 16 ltac:(lia)). change (2 ^ 8)%N with 256%N. lia.
    + assert (H : (uval a / 2 ^ m <= uval a)%N) by (apply N.div_le_upper_bound; [apply N.pow_nonzero; lia|]; assert (1 <= 2 ^ m)%N by (assert (0 < 2 ^ m)%N by (apply N.neq_0_lt_0, N.pow_nonzero; lia); lia); nia).
      rewrite from4_val', N.shiftr_div_pow2, wrap_small, pack_val by (change (2 ^ 8)%N with 256%N; lia). apply N.mod_small. lia.
Qed.
Lemma U2_arith : (forall v, uval (U2_from_u8 v) = (uval v mod 4)%N) /\
  (forall a b, U2_made a -> U2_made b -> uval (U2_bitor a b) = N.lor (uval a) (uval b)) /\
  (forall (B : Build) a n, U2_made a ->
    U2_shl a n = (m <- shift8 n ;; Ret (pack 8 ((uval a * 2 ^ m) mod 4))) /\
    U2_shr a n = (m <- shift8 n ;; Ret (pack 8 (uval a / 2 ^ m)))) /\
  (forall a, U4_made a -> uval (U2_from_U4 a) = (uval a mod 4)%N) /\ (forall a, U2_made a -> uval (U4_from_U2 a) = uval a) /\
  (forall a, U2_made a -> bool_from_U2 a = N.odd (uval a)).
Proof.
  split; [exact from2_val'|]. split; [|split; [|split; [|split]]].
  - intros a b Ha Hb. apply made2_lt in Ha, Hb. unfold U2_bitor. assert (H := lor_lt (uval a) (uval b) 2 Ha Hb).
    rewrite from2_val', wrap_small by (change (2 ^ 8)%N with 256%N; change (2 ^ 2)%N with 4%N in H; lia). apply N.mod_small. exact H.
  - intros B a n Ha. apply made2_lt in Ha. unfold U2_shl, U2_shr. destruct (shift8 n) as [m|]; [|split; reflexivity]. cbn [bind]. split; f_equal; apply u_eq.
    + rewrite from2_val', wrap_val, N.shiftl_mul_pow2, pack_val.
      * apply (shl_mod (uval a) m 2). lia.
      * assert (H := N.mod_lt (uval a * 2 ^ m) 4 ltac:(lia)). change (2 ^ 8)%N with 256%N. lia.
    + assert (H : (uval a / 2 ^ m <= uval a)%N) by (apply N.div_le_upper_bound; [apply N.pow_nonzero; lia|]; assert (1 <= 2 ^ m)%N by (assert (0 < 2 ^ m)%N by (apply N.neq_0_lt_0, N.pow_nonzero; lia); lia); nia).
      rewrite from2_val', N.shiftr_div_pow2, wrap_small, pack_val by (change (2 ^ 8)%N with 256%N; lia). apply N.mod_small. lia.
  - intros a _. apply from2_val'.
  - reflexivity.
  - intros a _. unfold bool_from_U2. change 1%N with (N.ones 1) at 1. rewrite N.land_ones. change (2 ^ 1)%N with 2%N.
    rewrite <- N.bit0_odd, <- N.bit0_mod. destruct (N.testbit (uval a) 0); reflexivity.
Qed.

Lemma target_offered (B : Build) w : offered usize_bits w <->
  (w = 8 \/ w = 16 \/ (w = 32 /\ 32 <= usize_bits) \/ (w = 64 /\ 64 <= usize_bits) \/ (w = 128 /\ 128 <= usize_bits))%N.
Proof.
  unfold offered, usize_bits. destruct ptr; cbn [In]; split.
  all: try (intros [_ [H1 H2]]; lia). all: intros H; split; [tauto|]; lia.
Qed.
