(** The provided key types satisfy the key laws; facts about U4, U2 and [index]. *)
From Verif Require Import Base Ints Ops Key KeySpec Target Coll Lists Laws CollProofs.
(** where no build is named, of a 64-bit target *)
Local Existing Instance debug_build.

(** *** Unsigned *)
Lemma pow2_nz w : (2 ^ w <> 0)%N.
Proof. apply N.pow_nonzero. discriminate. Qed.

Lemma join_bits w h l : (l < 2 ^ w)%N -> N.lor (N.shiftl h w) l = (h * 2 ^ w + l)%N.
Proof.
  intros H. rewrite <- N.shiftl_mul_pow2. rewrite N.add_nocarry_lxor; [symmetry; apply N.lxor_lor|];
    apply N.bits_inj; intros n; rewrite N.land_spec, N.bits_0;
    (destruct (N.lt_ge_cases n w) as [Hn|Hn];
     [rewrite N.shiftl_spec_low by auto; reflexivity|]);
    rewrite <- (N.mod_small l (2 ^ w)) by auto; rewrite N.mod_pow2_bits_high by auto; apply andb_false_r.
Qed.

Definition arith_ops {W w : N} (split : u W -> u w * u w) (join : u w -> u w -> u W) : KeyOps (u W) (u w) (u w) :=
  {| k_cmp := u_cmp; hi_cmp := u_cmp; lo_cmp := u_cmp; k_split_val := split; k_join := join;
     k_split_ref := blanket_split_ref split |}.

Section Arith.
  Context {W w : N}.
  Context (split : u W -> u w * u w) (join : u w -> u w -> u W).
  Context (Hhi : forall x, uval (fst (split x)) = (uval x / 2 ^ w)%N)
          (Hlo : forall x, uval (snd (split x)) = (uval x mod 2 ^ w)%N)
          (Hj : forall h l, uval (join h l) = (uval h * 2 ^ w + uval l)%N).

  Lemma arith_key : KeyIso (arith_ops split join).
  Proof.
    assert (Hz := pow2_nz w). split; cbn; try apply u_cmp_laws.
    - intros k. apply u_eq. rewrite Hj, Hhi, Hlo. rewrite N.mul_comm. symmetry. apply N.div_mod. auto.
    - intros h l. assert (Hl := uval_lt l). rewrite (surjective_pairing (split (join h l))). f_equal; apply u_eq.
      + rewrite Hhi, Hj. rewrite N.div_add_l, N.div_small by auto. apply N.add_0_r.
      + rewrite Hlo, Hj. rewrite N.add_comm, N.mod_add by auto. apply N.mod_small. auto.
    - reflexivity.
    - intros a b. unfold u_cmp. rewrite !Hhi, !Hlo.
      assert (Ea := N.div_mod (uval a) (2 ^ w) Hz). assert (Eb := N.div_mod (uval b) (2 ^ w) Hz).
      assert (La := N.mod_lt (uval a) (2 ^ w) Hz). assert (Lb := N.mod_lt (uval b) (2 ^ w) Hz).
      remember (uval a / 2 ^ w)%N as qa. remember (uval b / 2 ^ w)%N as qb.
      remember (uval a mod 2 ^ w)%N as ra. remember (uval b mod 2 ^ w)%N as rb. remember (2 ^ w)%N as d.
      rewrite Ea, Eb. clear - La Lb. destruct (N.compare_spec qa qb) as [->|H|H].
      + destruct (N.compare_spec ra rb) as [->|H|H]; [apply N.compare_refl|apply N.compare_lt_iff; lia|apply N.compare_gt_iff; lia].
      + apply N.compare_lt_iff. nia.
      + apply N.compare_gt_iff. nia.
  Qed.
End Arith.

Lemma split_join_u_key w : KeyIso (arith_ops (split_u (w + w) w) (join_u (w + w) w w)).
Proof.
  assert (EW : (2 ^ (w + w) = 2 ^ w * 2 ^ w)%N) by apply N.pow_add_r. assert (Hz := pow2_nz w).
  apply arith_key; auto.
  - intros x. cbn. rewrite wrap_val, N.shiftr_div_pow2. apply N.mod_small. apply N.div_lt_upper_bound; auto.
    rewrite <- EW. apply uval_lt.
  - intros x. cbn. apply wrap_val.
  - intros h l. unfold join_u. assert (Hh := uval_lt h). assert (Hl := uval_lt l).
    assert (Hb : (uval h * 2 ^ w + uval l < 2 ^ (w + w))%N) by (rewrite EW; nia).
    rewrite (wrap_small (w + w) (N.shiftl (uval h) w)) by (rewrite N.shiftl_mul_pow2; lia).
    rewrite join_bits by auto. apply wrap_small. auto.
Qed.
Definition u128_iso : KeyIso u128_key := split_join_u_key 64.
Definition u64_iso : KeyIso u64_key := split_join_u_key 32.
Definition u32_iso : KeyIso u32_key := split_join_u_key 16.
Definition u16_iso : KeyIso u16_key := split_join_u_key 8.

(** *** u8, U4 *)
Lemma land_max n : N.land n U4_MAX = (n mod 2 ^ 4)%N.
Proof. apply (N.land_ones n 4). Qed.
Lemma land_max2 n : N.land n U2_MAX = (n mod 2 ^ 2)%N.
Proof. apply (N.land_ones n 2). Qed.
Lemma of4_val r : (uval r < 2 ^ 4)%N -> uval (of4 r) = uval r.
Proof. apply pack_val. Qed.
Lemma of2_val r : (uval r < 2 ^ 2)%N -> uval (of2 r) = uval r.
Proof. apply pack_val. Qed.
Lemma raw4_val x : uval (raw4 x) = uval x.
Proof. apply pack_val. assert (H := uval_lt x). change (2 ^ 4)%N with 16%N in H. change (2 ^ 8)%N with 256%N. lia. Qed.
Lemma raw2_val x : uval (raw2 x) = uval x.
Proof. apply pack_val. assert (H := uval_lt x). change (2 ^ 2)%N with 4%N in H. change (2 ^ 8)%N with 256%N. lia. Qed.
Lemma U4_from_val r : uval (U4_from_u8 r) = (uval r mod 2 ^ 4)%N.
Proof.
  unfold U4_from_u8. rewrite land_max. apply wrap_small. assert (H := N.mod_lt (uval r) (2 ^ 4) (pow2_nz 4)).
  change (2 ^ 4)%N with 16%N in *. change (2 ^ 8)%N with 256%N. lia.
Qed.
Lemma U2_from_val r : uval (U2_from_u8 r) = (uval r mod 2 ^ 2)%N.
Proof.
  unfold U2_from_u8. rewrite land_max2. apply wrap_small. assert (H := N.mod_lt (uval r) (2 ^ 2) (pow2_nz 2)).
  change (2 ^ 2)%N with 4%N in *. change (2 ^ 8)%N with 256%N. lia.
Qed.
Lemma shift8_val (r : u 8) s : uval (wrap 8 (N.shiftr (uval r) s)) = (uval r / 2 ^ s)%N.
Proof.
  rewrite N.shiftr_div_pow2. apply wrap_small. apply N.le_lt_trans with (uval r); [|apply uval_lt].
  apply N.div_le_upper_bound; [apply pow2_nz|]. assert (H := pow2_nz s). nia.
Qed.
Lemma u8_hi_val x : uval (fst (u8_split_raw x)) = (uval x / 2 ^ 4)%N.
Proof. unfold u8_split_raw, U4_new, U4_BITS. cbn [fst]. apply shift8_val. Qed.
Lemma u8_hi_lt x : (uval (fst (u8_split_raw x)) < 2 ^ 4)%N.
Proof. rewrite u8_hi_val. apply N.div_lt_upper_bound; [apply pow2_nz|]. apply (uval_lt x). Qed.
Lemma U4_hi_val r : uval (fst (U4_split_raw r)) = (uval r / 2 ^ 2)%N.
Proof. unfold U4_split_raw, U2_new, U2_BITS. cbn [fst]. apply shift8_val. Qed.
Lemma u8_join_raw_val h l : (uval h < 2 ^ 4)%N -> (uval l < 2 ^ 4)%N -> uval (u8_join_raw h l) = (uval h * 2 ^ 4 + uval l)%N.
Proof.
  intros Hh Hl. unfold u8_join_raw. rewrite (wrap_small 8 (N.shiftl (uval h) 4)).
  - rewrite join_bits by auto. apply wrap_small. change (2 ^ 8)%N with 256%N. change (2 ^ 4)%N with 16%N in *. lia.
  - rewrite N.shiftl_mul_pow2. change (2 ^ 8)%N with 256%N. change (2 ^ 4)%N with 16%N in *. lia.
Qed.
Lemma U4_join_raw_val h l : (uval h < 2 ^ 2)%N -> (uval l < 2 ^ 2)%N -> uval (U4_join_raw h l) = (uval h * 2 ^ 2 + uval l)%N.
Proof.
  intros Hh Hl. unfold U4_join_raw. rewrite (wrap_small 8 (N.shiftl (uval h) 2)).
  - rewrite join_bits by auto. apply wrap_small. change (2 ^ 8)%N with 256%N. change (2 ^ 2)%N with 4%N in *. lia.
  - rewrite N.shiftl_mul_pow2. change (2 ^ 8)%N with 256%N. change (2 ^ 2)%N with 4%N in *. lia.
Qed.
Lemma u8_iso : KeyIso u8_key.
Proof.
  change u8_key with (arith_ops u8_split u8_join). apply arith_key.
  - intros x. unfold u8_split. rewrite (surjective_pairing (u8_split_raw x)). cbn [fst]. rewrite of4_val by apply u8_hi_lt.
    apply u8_hi_val.
  - intros x. unfold u8_split. rewrite (surjective_pairing (u8_split_raw x)). cbn [snd u8_split_raw].
    rewrite of4_val; rewrite U4_from_val; auto. apply N.mod_lt. apply pow2_nz.
  - intros h l. unfold u8_join. rewrite u8_join_raw_val; rewrite ?raw4_val; auto; apply uval_lt.
Qed.
Lemma U4_iso : KeyIso U4_key.
Proof.
  change U4_key with (arith_ops U4_split U4_join). apply arith_key.
  - intros x. unfold U4_split. rewrite (surjective_pairing (U4_split_raw (raw4 x))). cbn [fst].
    rewrite of2_val; rewrite U4_hi_val, raw4_val; auto.
    apply N.div_lt_upper_bound; [apply pow2_nz|]. apply (uval_lt x).
  - intros x. unfold U4_split. rewrite (surjective_pairing (U4_split_raw (raw4 x))). cbn [snd U4_split_raw].
    unfold U2_from_U4. rewrite of2_val; rewrite U2_from_val, raw4_val; auto. apply N.mod_lt. apply pow2_nz.
  - intros h l. unfold U4_join. assert (Hh := uval_lt h). assert (Hl := uval_lt l).
    assert (E : uval (U4_join_raw (raw2 h) (raw2 l)) = (uval h * 2 ^ 2 + uval l)%N).
    { rewrite U4_join_raw_val; rewrite ?raw2_val; auto. }
    rewrite of4_val; rewrite E; auto. change (2 ^ 4)%N with 16%N. change (2 ^ 2)%N with 4%N in *. lia.
Qed.

(** *** U2: four values *)
Lemma u2_cases (x : u 2) : x = pack 2 0 \/ x = pack 2 1 \/ x = pack 2 2 \/ x = pack 2 3.
Proof.
  assert (H := uval_lt x). change (2 ^ 2)%N with 4%N in H. rewrite <- (pack_uval x).
  assert (E : (uval x = 0 \/ uval x = 1 \/ uval x = 2 \/ uval x = 3)%N) by lia.
  destruct E as [E|[E|[E|E]]]; rewrite E; auto.
Qed.
Lemma bool_cmp_laws : OrdLaws bool_cmp.
Proof.
  split.
  - intros [] []; split; (reflexivity || discriminate).
  - intros [] []; reflexivity.
  - intros [] [] []; (reflexivity || discriminate).
Qed.
Lemma U2_iso : KeyIso U2_key.
Proof.
  split; try apply u_cmp_laws; try apply bool_cmp_laws.
  - intros k. destruct (u2_cases k) as [E|[E|[E|E]]]; rewrite E; vm_compute; reflexivity.
  - intros [] []; vm_compute; reflexivity.
  - reflexivity.
  - intros a b. destruct (u2_cases a) as [E|[E|[E|E]]]; rewrite E; destruct (u2_cases b) as [E'|[E'|[E'|E']]]; rewrite E';
      vm_compute; reflexivity.
Qed.

(** *** () *)
Lemma unit_cmp_laws : OrdLaws unit_cmp.
Proof. split; intros [] []; cbn; try tauto; try discriminate. Qed.
Lemma unit_iso : KeyIso unit_key.
Proof. split; try apply unit_cmp_laws; intros []; try intros []; reflexivity. Qed.

(** *** Signed *)
Section Signed.
  Context {h : N} {H : Type} {hc : H -> H -> comparison} (split : u (h + 1) -> H * H) (join : H -> H -> u (h + 1)).
  Definition unsigned_ops : KeyOps (u (h + 1)) H H :=
    {| k_cmp := u_cmp; hi_cmp := hc; lo_cmp := hc; k_split_val := split; k_join := join;
       k_split_ref := blanket_split_ref split |}.
  Definition signed_ops : KeyOps (i h) H H :=
    {| k_cmp := i_cmp; hi_cmp := hc; lo_cmp := hc; k_split_val := split_i split; k_join := join_i join;
       k_split_ref := blanket_split_ref (split_i split) |}.

  Lemma half_pow : (Z.of_N (2 ^ (h + 1)) = 2 * ihalf h)%Z.
  Proof. unfold ihalf. rewrite N.add_1_r, N2Z.inj_pow, N2Z.inj_succ, Z.pow_succ_r by lia. reflexivity. Qed.
  Lemma phi_val (x : i h) : (Z.of_N (uval (i_abs_diff x (i_min h))) = ival x + ihalf h)%Z.
  Proof.
    unfold i_abs_diff. assert (Hx := ival_range x). cbn [i_min ival]. assert (Hp := half_pow).
    rewrite wrap_small; rewrite ?N2Z.inj_abs_N; lia.
  Qed.
  Lemma psi_val (y : u (h + 1)) : (ival (i_wrapping_add (u_as_i y) (i_min h)) = Z.of_N (uval y) - ihalf h)%Z.
  Proof.
    unfold i_wrapping_add, u_as_i. rewrite !wrapi_val. cbn [i_min ival]. assert (Hy := uval_lt y).
    assert (Hp := half_pow). assert (Hh := ihalf_pos h).
    replace ((Z.of_N (uval y) + ihalf h) mod (2 * ihalf h) - ihalf h + - ihalf h + ihalf h)%Z
      with ((Z.of_N (uval y) + ihalf h) mod (2 * ihalf h) - ihalf h)%Z by lia.
    rewrite Zminus_mod_idemp_l. replace (Z.of_N (uval y) + ihalf h - ihalf h)%Z with (Z.of_N (uval y)) by lia.
    rewrite Z.mod_small; lia.
  Qed.
  Lemma phi_psi y : i_abs_diff (i_wrapping_add (u_as_i y) (i_min h)) (i_min h) = y.
  Proof. apply u_eq. apply N2Z.inj. rewrite phi_val, psi_val. lia. Qed.
  Lemma psi_phi x : i_wrapping_add (u_as_i (i_abs_diff x (i_min h))) (i_min h) = x.
  Proof. apply i_eq. rewrite psi_val, phi_val. lia. Qed.

  Lemma signed_key : KeyIso unsigned_ops -> KeyIso signed_ops.
  Proof.
    intros L. split; cbn.
    - apply i_cmp_laws.
    - apply (KI_hi L).
    - apply (KI_lo L).
    - intros k. unfold join_i, split_i. assert (E := KI_join_split L (i_abs_diff k (i_min h))). cbn in E. rewrite E.
      apply psi_phi.
    - intros a b. unfold join_i, split_i. rewrite phi_psi. apply (KI_split_join L).
    - reflexivity.
    - intros a b. unfold split_i. etransitivity; [|apply (KI_cmp L)]. cbn. unfold i_cmp, u_cmp.
      rewrite <- N2Z.inj_compare, !phi_val. destruct (Z.compare_spec (ival a) (ival b)) as [E|E|E]; symmetry.
      + apply Z.compare_eq_iff. lia.
      + apply Z.compare_lt_iff. lia.
      + apply Z.compare_gt_iff. lia.
  Qed.
End Signed.
Definition i128_iso : KeyIso i128_key := @signed_key 127 _ _ (split_u 128 64) (join_u 128 64 64) u128_iso.
Definition i64_iso : KeyIso i64_key := @signed_key 63 _ _ (split_u 64 32) (join_u 64 32 32) u64_iso.
Definition i32_iso : KeyIso i32_key := @signed_key 31 _ _ (split_u 32 16) (join_u 32 16 16) u32_iso.
Definition i16_iso : KeyIso i16_key := @signed_key 15 _ _ (split_u 16 8) (join_u 16 8 8) u16_iso.
Definition i8_iso : KeyIso i8_key := @signed_key 7 _ _ u8_split u8_join u8_iso.

(** *** Arrays *)
Section Lex.
  Context {T : Type} {cmp : T -> T -> comparison} (OL : OrdLaws cmp).

  Lemma lex_laws : OrdLaws (lex cmp).
  Proof.
    split.
    - induction a as [|x a IH]; intros [|y b]; cbn; try (split; congruence).
      destruct (cmp x y) eqn:E.
      + apply (cmp_eq OL) in E. subst. rewrite IH. split; [intros ->|]; congruence.
      + split; [discriminate|]. intros E'. injection E' as -> _. rewrite (cmp_refl OL) in E. discriminate.
      + split; [discriminate|]. intros E'. injection E' as -> _. rewrite (cmp_refl OL) in E. discriminate.
    - induction a as [|x a IH]; intros [|y b]; cbn; auto. rewrite (cmp_opp OL x y). destruct (cmp x y); cbn; auto.
    - induction a as [|x a IH]; intros [|y b] [|z c]; cbn; auto; try discriminate.
      destruct (cmp x y) eqn:E1, (cmp y z) eqn:E2; intros H1 H2; try discriminate.
      + apply (cmp_eq OL) in E1. apply (cmp_eq OL) in E2. subst. rewrite (cmp_refl OL). eauto.
      + apply (cmp_eq OL) in E1. subst. rewrite E2. auto.
      + apply (cmp_eq OL) in E2. subst. rewrite E1. auto.
      + rewrite (cmp_trans OL x y z); auto.
  Qed.
  Lemma lex_app (a b c d : list T) : length a = length b ->
    lex cmp (a ++ c) (b ++ d) = match lex cmp a b with Eq => lex cmp c d | r => r end.
  Proof.
    revert b. induction a as [|x a IH]; intros [|y b] E; try discriminate; cbn; auto.
    destruct (cmp x y); auto.
  Qed.
  Lemma lex1 x y : lex cmp [x] [y] = cmp x y.
  Proof. cbn. destruct (cmp x y); auto. Qed.
  Lemma inj_laws {A} (f : A -> list T) : (forall a b, f a = f b -> a = b) -> OrdLaws (fun a b => lex cmp (f a) (f b)).
  Proof.
    intros Hi. assert (L := lex_laws). split.
    - intros a b. rewrite (cmp_eq L). split; [apply Hi|intros ->; auto].
    - intros a b. apply (cmp_opp L).
    - intros a b c. apply (cmp_trans L).
  Qed.

  Ltac inj := intros; repeat match goal with x : arr2 _ |- _ => destruct x | x : arr3 _ |- _ => destruct x
    | x : arr4 _ |- _ => destruct x | x : arr5 _ |- _ => destruct x | x : arr6 _ |- _ => destruct x
    | x : arr7 _ |- _ => destruct x | x : arr8 _ |- _ => destruct x | x : arr16 _ |- _ => destruct x end.
  Lemma cmp2_laws : OrdLaws (cmp2 cmp).
  Proof. apply (inj_laws l2). inj. cbn in *. congruence. Qed.
  Lemma cmp3_laws : OrdLaws (cmp3 cmp).
  Proof. apply (inj_laws l3). inj. cbn in *. congruence. Qed.
  Lemma cmp4_laws : OrdLaws (cmp4 cmp).
  Proof. apply (inj_laws l4). inj. cbn in *. congruence. Qed.
  Lemma cmp5_laws : OrdLaws (cmp5 cmp).
  Proof. apply (inj_laws l5). inj. cbn in *. congruence. Qed.
  Lemma cmp6_laws : OrdLaws (cmp6 cmp).
  Proof. apply (inj_laws l6). inj. cbn in *. congruence. Qed.
  Lemma cmp7_laws : OrdLaws (cmp7 cmp).
  Proof. apply (inj_laws l7). inj. cbn in *. congruence. Qed.
  Lemma cmp8_laws : OrdLaws (cmp8 cmp).
  Proof. apply (inj_laws l8). inj. cbn in *. congruence. Qed.
  Lemma cmp16_laws : OrdLaws (cmp16 cmp).
  Proof. apply (inj_laws l16). intros a b E. inj. cbn in E. injection E. intros. subst. reflexivity. Qed.

  Lemma arr2_iso : KeyIso (arr2_key cmp).
  Proof.
    split; auto using cmp2_laws; try (inj; reflexivity). inj. cbn [k_cmp hi_cmp lo_cmp k_split_val arr2_key fst snd].
    unfold cmp2. cbn [l2]. etransitivity; [apply (lex_app [_] [_] [_] [_]); reflexivity|]. rewrite !lex1. auto.
  Qed.
  Lemma arr3_iso : KeyIso (arr3_key cmp).
  Proof.
    split; auto using cmp2_laws, cmp3_laws; try (inj; reflexivity).
    all: inj; cbn [k_cmp hi_cmp lo_cmp k_split_val arr3_key fst snd];
      unfold cmp2, cmp3; cbn [l2 l3]; etransitivity; [apply (lex_app [_] [_] [_; _] [_; _]); reflexivity|]; rewrite !lex1; auto.
  Qed.
  Lemma arr4_iso : KeyIso (arr4_key cmp).
  Proof.
    split; auto using cmp2_laws, cmp4_laws; try (inj; reflexivity).
    all: inj; cbn [k_cmp hi_cmp lo_cmp k_split_val arr4_key fst snd];
      unfold cmp2, cmp4; cbn [l2 l4]; apply (lex_app [_; _] [_; _]); auto.
  Qed.
  Lemma arr5_iso : KeyIso (arr5_key cmp).
  Proof.
    split; auto using cmp2_laws, cmp3_laws, cmp5_laws; try (inj; reflexivity).
    all: inj; cbn [k_cmp hi_cmp lo_cmp k_split_val arr5_key fst snd];
      unfold cmp2, cmp3, cmp5; cbn [l2 l3 l5]; apply (lex_app [_; _] [_; _]); auto.
  Qed.
  Lemma arr6_iso : KeyIso (arr6_key cmp).
  Proof.
    split; auto using cmp3_laws, cmp6_laws; try (inj; reflexivity).
    all: inj; cbn [k_cmp hi_cmp lo_cmp k_split_val arr6_key fst snd];
      unfold cmp3, cmp6; cbn [l3 l6]; apply (lex_app [_; _; _] [_; _; _]); auto.
  Qed.
  Lemma arr7_iso : KeyIso (arr7_key cmp).
  Proof.
    split; auto using cmp3_laws, cmp4_laws, cmp7_laws; try (inj; reflexivity).
    all: inj; cbn [k_cmp hi_cmp lo_cmp k_split_val arr7_key fst snd];
      unfold cmp3, cmp4, cmp7; cbn [l3 l4 l7]; apply (lex_app [_; _; _] [_; _; _]); auto.
  Qed.
  Lemma arr8_iso : KeyIso (arr8_key cmp).
  Proof.
    split; auto using cmp4_laws, cmp8_laws; try (inj; reflexivity).
    all: inj; cbn [k_cmp hi_cmp lo_cmp k_split_val arr8_key fst snd];
      unfold cmp4, cmp8; cbn [l4 l8]; apply (lex_app [_; _; _; _] [_; _; _; _]); auto.
  Qed.
  Lemma arr16_iso : KeyIso (arr16_key cmp).
  Proof.
    split; auto using cmp8_laws, cmp16_laws; try (inj; reflexivity).
    all: inj; cbn [k_cmp hi_cmp lo_cmp k_split_val arr16_key fst snd];
      unfold cmp8, cmp16; cbn [l8 l16]; apply (lex_app [_; _; _; _; _; _; _; _] [_; _; _; _; _; _; _; _]); auto.
  Qed.
End Lex.

(** *** index *)
Definition u_idx_laws {B : Build} {w} (ix : IdxOps (u w)) : i_card ix = (2 ^ w)%N -> (forall x, i_index ix x = uval x) ->
  (2 ^ w <= usize_max)%N -> IdxLaws ix.
Proof.
  intros Ec Ei Hm. refine {| idx_inv := pack w |}.
  - intros h. rewrite Ei. apply pack_uval.
  - intros h. rewrite Ei, Ec. apply uval_lt.
  - rewrite Ec. auto.
Defined.
Lemma usize_bytes {B : Build} : (65535 <= usize_max)%N.
Proof. unfold usize_max, usize_bits. destruct ptr; vm_compute; discriminate. Qed.
Definition u8_idx_laws {B : Build} : IdxLaws u8_idx.
Proof. apply u_idx_laws; auto. apply N.le_trans with 65535%N; [vm_compute; discriminate|apply usize_bytes]. Defined.
Definition u16_idx_laws {B : Build} {W : Wide (2 ^ 16)} : IdxLaws u16_idx.
Proof. apply u_idx_laws; auto. Defined.
Definition u32_idx_laws {B : Build} {W : Wide (2 ^ 32)} : IdxLaws u32_idx.
Proof. apply u_idx_laws; auto. Defined.
Definition U4_idx_laws {B : Build} : IdxLaws U4_idx.
Proof. apply u_idx_laws; auto. exact raw4_val. apply N.le_trans with 65535%N; [vm_compute; discriminate|apply usize_bytes]. Defined.
Definition U2_idx_laws {B : Build} : IdxLaws U2_idx.
Proof. apply u_idx_laws; auto. exact raw2_val. apply N.le_trans with 65535%N; [vm_compute; discriminate|apply usize_bytes]. Defined.
Definition unit_idx_laws {B : Build} : IdxLaws unit_idx.
Proof.
  refine {| idx_inv := fun _ => tt |}; try (intros []; reflexivity). apply N.le_trans with 65535%N; [vm_compute; discriminate|apply usize_bytes].
Defined.

(** [index] of a signed key as wide as a pointer is its offset from MIN; of a narrower one negative values come out right, the others are
    sign-extended *)
Lemma pow_half h : (2 ^ Z.of_N (h + 1) = 2 * ihalf h)%Z.
Proof. unfold ihalf. rewrite N2Z.inj_add, Z.pow_add_r by lia. lia. Qed.
Lemma index_i_at_same h (x : i h) : (Z.of_N (index_i_at (h + 1) x) = ival x + ihalf h)%Z.
Proof.
  unfold index_i_at, i_wrapping_sub. rewrite wrapi_val. cbn [i_min ival]. assert (Hx := ival_range x). assert (Hq := ihalf_pos h).
  rewrite pow_half, Z2N.id by (apply Z.mod_pos_bound; lia).
  replace (ival x - - ihalf h + ihalf h)%Z with (ival x + 1 * (2 * ihalf h))%Z by lia. rewrite Z.mod_add by lia.
  rewrite Zminus_mod_idemp_l.
  replace (ival x - ihalf h)%Z with (ival x + ihalf h + (-1) * (2 * ihalf h))%Z by lia. rewrite Z.mod_add by lia.
  apply Z.mod_small. lia.
Qed.
Lemma half_le h p : (h + 1 < p)%N -> (4 * ihalf h <= 2 ^ Z.of_N p)%Z.
Proof.
  intros H. replace (4 * ihalf h)%Z with (2 ^ (Z.of_N h + 2))%Z by (unfold ihalf; rewrite Z.pow_add_r by lia; lia).
  apply Z.pow_le_mono_r; lia.
Qed.
Lemma index_i_at_neg p h (x : i h) : (h + 1 < p)%N -> (ival x < 0)%Z -> (Z.of_N (index_i_at p x) = ival x + ihalf h)%Z.
Proof.
  intros Hp Hn. apply half_le in Hp. unfold index_i_at, i_wrapping_sub. rewrite wrapi_val. cbn [i_min ival].
  assert (Hx := ival_range x). assert (Hq := ihalf_pos h).
  replace (ival x - - ihalf h + ihalf h)%Z with (ival x + 2 * ihalf h)%Z by lia. rewrite (Z.mod_small (ival x + 2 * ihalf h)) by lia.
  rewrite Z2N.id by (apply Z.mod_pos_bound; lia). rewrite Z.mod_small; lia.
Qed.
Lemma index_i_at_pos p h (x : i h) : (h + 1 < p)%N -> (0 <= ival x)%Z ->
  (Z.of_N (index_i_at p x) = 2 ^ Z.of_N p + ival x - ihalf h)%Z.
Proof.
  intros Hp Hn. apply half_le in Hp. unfold index_i_at, i_wrapping_sub. rewrite wrapi_val. cbn [i_min ival].
  assert (Hx := ival_range x). assert (Hq := ihalf_pos h).
  replace (ival x - - ihalf h + ihalf h)%Z with (ival x + 1 * (2 * ihalf h))%Z by lia.
  rewrite Z.mod_add, (Z.mod_small (ival x)) by lia. rewrite Z2N.id by (apply Z.mod_pos_bound; lia).
  replace (ival x - ihalf h)%Z with (2 ^ Z.of_N p + ival x - ihalf h + (-1) * 2 ^ Z.of_N p)%Z by lia.
  rewrite Z.mod_add by lia. rewrite Z.mod_small; lia.
Qed.
Lemma index_i_same {B : Build} {h} (x : i h) : usize_bits = (h + 1)%N -> (Z.of_N (index_i x) = ival x + ihalf h)%Z.
Proof. intros E. change (index_i x) with (index_i_at usize_bits x). rewrite E. apply index_i_at_same. Qed.
Lemma index_i_neg {B : Build} {h} (x : i h) : (h + 1 < usize_bits)%N -> (ival x < 0)%Z -> (Z.of_N (index_i x) = ival x + ihalf h)%Z.
Proof. exact (index_i_at_neg usize_bits h x). Qed.
(** so every non-negative key of the narrower types is out of bounds *)
Lemma index_i_out {B : Build} {h} (x : i h) : (h + 1 < usize_bits)%N -> (0 <= ival x)%Z -> (2 ^ (h + 1) <= index_i x)%N.
Proof.
  intros Hh Hn. apply N2Z.inj_le. change (index_i x) with (index_i_at usize_bits x). rewrite index_i_at_pos by auto. rewrite half_pow.
  apply half_le in Hh. lia.
Qed.

(** *** U4 and U2 values that the public functions can make *)
Scheme made4_ind := Induction for U4_made Sort Prop
  with made2_ind := Induction for U2_made Sort Prop.

Lemma from4_lt v : (uval (U4_from_u8 v) < 16)%N.
Proof. rewrite U4_from_val. apply N.mod_lt. discriminate. Qed.
Lemma from2_lt v : (uval (U2_from_u8 v) < 4)%N.
Proof. rewrite U2_from_val. apply N.mod_lt. discriminate. Qed.
Lemma made4_lt x : U4_made x -> (uval x < 16)%N.
Proof.
  intros H. induction H using made4_ind with (P0 := fun r _ => (uval r < 4)%N).
  - apply from4_lt.
  - apply from4_lt.
  - unfold U4_shl in e. destruct (shift8 n); [|discriminate]. injection e as <-. apply from4_lt.
  - unfold U4_shr in e. destruct (shift8 n); [|discriminate]. injection e as <-. apply from4_lt.
  - apply u8_hi_lt.
  - apply from4_lt.
  - unfold U4_from_U2. lia.
  - rewrite U4_join_raw_val by auto. change (2 ^ 2)%N with 4%N. lia.
  - apply from2_lt.
  - apply from2_lt.
  - unfold U2_shl in e. destruct (shift8 n); [|discriminate]. injection e as <-. apply from2_lt.
  - unfold U2_shr in e. destruct (shift8 n); [|discriminate]. injection e as <-. apply from2_lt.
  - apply from2_lt.
  - rewrite U4_hi_val. apply N.div_lt_upper_bound; [discriminate|]. exact IHU4_made.
  - apply from2_lt.
  - destruct a, b; vm_compute; reflexivity.
Qed.
Lemma made2_lt x : U2_made x -> (uval x < 4)%N.
Proof.
  intros H. destruct H.
  - apply from2_lt.
  - apply from2_lt.
  - unfold U2_shl in H0. destruct (shift8 n); [|discriminate]. injection H0 as <-. apply from2_lt.
  - unfold U2_shr in H0. destruct (shift8 n); [|discriminate]. injection H0 as <-. apply from2_lt.
  - apply from2_lt.
  - rewrite U4_hi_val. apply N.div_lt_upper_bound; [discriminate|]. apply made4_lt. auto.
  - apply from2_lt.
  - destruct a, b; vm_compute; reflexivity.
Qed.

(** *** All provided keys *)
Lemma provided_iso {K Hi Lo} (ko : KeyOps K Hi Lo) : provided ko -> KeyIso ko.
Proof.
  intros []; eauto using unit_iso, u128_iso, u64_iso, u32_iso, u16_iso, u8_iso, U4_iso, U2_iso, i128_iso, i64_iso,
    i32_iso, i16_iso, i8_iso, arr2_iso, arr3_iso, arr4_iso, arr5_iso, arr6_iso, arr7_iso, arr8_iso, arr16_iso.
Qed.
Lemma provided_laws {K Hi Lo} (ko : KeyOps K Hi Lo) : provided ko -> KeyLaws ko.
Proof. intros H. apply iso_laws. apply provided_iso. exact H. Qed.
Definition u64_laws : KeyLaws u64_key := iso_laws u64_iso.
Definition u32_laws : KeyLaws u32_key := iso_laws u32_iso.
Definition u16_laws : KeyLaws u16_key := iso_laws u16_iso.
Definition arr2_laws {T} {cmp : T -> T -> comparison} (OL : OrdLaws cmp) : KeyLaws (arr2_key cmp) := iso_laws (arr2_iso OL).
Definition arr4_laws {T} {cmp : T -> T -> comparison} (OL : OrdLaws cmp) : KeyLaws (arr4_key cmp) := iso_laws (arr4_iso OL).
(** the integers: quotient and remainder *)
Lemma split_u_val w (x : u (w + w)) : uval (fst (split_u (w + w) w x)) = (uval x / 2 ^ w)%N /\ uval (snd (split_u (w + w) w x)) = (uval x mod 2 ^ w)%N.
Proof.
  split; cbn; [|apply wrap_val]. rewrite wrap_val, N.shiftr_div_pow2. apply N.mod_small. apply N.div_lt_upper_bound; [apply pow2_nz|].
  rewrite <- N.pow_add_r. apply uval_lt.
Qed.
Lemma u8_split_val x : uval (fst (u8_split x)) = (uval x / 2 ^ 4)%N /\ uval (snd (u8_split x)) = (uval x mod 2 ^ 4)%N.
Proof.
  unfold u8_split. rewrite (surjective_pairing (u8_split_raw x)). cbn [fst snd]. rewrite of4_val by apply u8_hi_lt.
  split; [apply u8_hi_val|]. cbn [u8_split_raw snd].
  rewrite of4_val; rewrite U4_from_val; auto. apply N.mod_lt. apply pow2_nz.
Qed.
Lemma U4_split_val x : uval (fst (U4_split x)) = (uval x / 2 ^ 2)%N /\ uval (snd (U4_split x)) = (uval x mod 2 ^ 2)%N.
Proof.
  unfold U4_split. rewrite (surjective_pairing (U4_split_raw (raw4 x))). cbn [fst snd U4_split_raw]. split.
  - change (U2_new _) with (fst (U4_split_raw (raw4 x))). rewrite of2_val; rewrite U4_hi_val, raw4_val; auto.
    apply N.div_lt_upper_bound; [apply pow2_nz|]. apply (uval_lt x).
  - unfold U2_from_U4. rewrite of2_val; rewrite U2_from_val, raw4_val; auto. apply N.mod_lt. apply pow2_nz.
Qed.

(** *** Sizes *)
Lemma size_le {H} (f g : H -> N) n m : numbering f n -> numbering g m -> (n <= m)%N.
Proof.
  intros [F1 [F2 F3]] [G1 [G2 G3]].
  assert (Hl : forall k, (N.of_nat k <= n)%N -> exists l : list H, NoDup l /\ length l = k /\ forall x, In x l -> (f x < N.of_nat k)%N).
  { induction k as [|k IH]; intros Hk.
    - exists []. split; [constructor|]. split; [reflexivity|]. intros x [].
    - destruct IH as [l [N1 [N2 N3]]]; [lia|]. destruct (F3 (N.of_nat k)) as [x Ex]; [lia|]. exists (x :: l). split; [|split].
      + constructor; auto. intros Hx. apply N3 in Hx. lia.
      + cbn. congruence.
      + intros y [<-|Hy]; [lia|]. apply N3 in Hy. lia. }
  destruct (Hl (N.to_nat n)) as [l [N1 [N2 _]]]; [lia|].
  assert (Hm : length (map g l) <= length (seq 0 (N.to_nat m))) .
  { rewrite <- (map_length N.to_nat (map g l)). apply NoDup_incl_length.
    - rewrite map_map. apply FinFun.Injective_map_NoDup; auto. intros x y E. apply G2. lia.
    - intros y Hy. apply in_map_iff in Hy. destruct Hy as [z [<- Hz]]. apply in_map_iff in Hz. destruct Hz as [x [<- _]].
      apply in_seq. specialize (G1 x). lia. }
  rewrite map_length, seq_length in Hm. lia.
Qed.
Lemma has_size_fun H n m : has_size H n -> has_size H m -> n = m.
Proof. intros [f Hf] [g Hg]. apply N.le_antisymm; eapply size_le; eauto. Qed.
Lemma numbering_u w : numbering (@uval w) (2 ^ w).
Proof. split; [apply uval_lt|]. split; [intros x y; apply u_eq|]. intros m Hm. exists (pack w m). apply pack_val. auto. Qed.
Lemma numbering_eq {H} (f g : H -> N) n : (forall x, g x = f x) -> numbering f n -> numbering g n.
Proof.
  intros E [F1 [F2 F3]]. split; [|split].
  - intros x. rewrite E. auto.
  - intros x y. rewrite !E. auto.
  - intros m Hm. destruct (F3 m Hm) as [x Hx]. exists x. rewrite E. auto.
Qed.
Lemma numbering_i h : numbering (fun x : i h => Z.to_N (ival x + ihalf h)) (2 ^ (h + 1)).
Proof.
  assert (Hp := @half_pow h). split; [|split].
  - intros x. assert (Hx := ival_range x). lia.
  - intros x y E. assert (Hx := ival_range x). assert (Hy := ival_range y). apply i_eq. lia.
  - intros m Hm. exists (packi h (Z.of_N m - ihalf h)). rewrite packi_val; lia.
Qed.
Lemma same_numbering {B : Build} h : usize_bits = (h + 1)%N -> numbering (@index_i B h) (2 ^ (h + 1)).
Proof.
  intros E. eapply numbering_eq; [|apply (numbering_i h)]. intros x. cbn. apply N2Z.inj. rewrite (index_i_same x E). assert (Hx := ival_range x). lia.
Qed.
Lemma right_numbering {B : Build} {H} (ix : IdxOps H) : sized_right ix -> numbering (i_index ix) (i_card ix).
Proof.
  intros [| | E | | E | | E | | E | | |]; try apply numbering_u; try first [exact (same_numbering 127 E)|exact (same_numbering 63 E)|exact (same_numbering 31 E)|exact (same_numbering 15 E)].
  - split; [|split]; cbn; try lia; intros; [destruct x, y|exists tt]; auto; lia.
  - eapply numbering_eq; [|apply (numbering_u 4)]. apply raw4_val.
  - eapply numbering_eq; [|apply (numbering_u 2)]. apply raw2_val.
Qed.
Lemma usize_8 {B : Build} : (8 < usize_bits)%N.
Proof. unfold usize_bits. destruct ptr; reflexivity. Qed.
Lemma signed_bad {B : Build} {h} (ix : IdxOps (i h)) : sized_signed ix -> forall x, (0 <= ival x)%Z -> (i_card ix <= i_index ix x)%N.
Proof.
  intros []; intros x Hx; [apply (@index_i_out _ 63)|apply (@index_i_out _ 31)|apply (@index_i_out _ 15)|apply (@index_i_out _ 7)]; auto. apply usize_8.
Qed.
Lemma signed_good {B : Build} {h} (ix : IdxOps (i h)) : sized_signed ix -> forall x, (ival x < 0)%Z -> Z.of_N (i_index ix x) = (ival x + ihalf h)%Z.
Proof.
  intros []; intros x Hx; [apply (@index_i_neg _ 63)|apply (@index_i_neg _ 31)|apply (@index_i_neg _ 15)|apply (@index_i_neg _ 7)]; auto. apply usize_8.
Qed.
Lemma signed_size {B : Build} {h} (ix : IdxOps (i h)) : sized_signed ix -> has_size (i h) (i_card ix).
Proof. intros []; eexists; [apply (numbering_i 63)|apply (numbering_i 31)|apply (numbering_i 15)|apply (numbering_i 7)]. Qed.

(** an array collection panics on a key whose index is out of bounds *)
Lemma oa_out {B : Build} {T} (card n : N) (o : option T) : (card_usize card <= n)%N -> oa_set (oa_create card) n o = Panic.
Proof.
  intros H. unfold oa_set, oa_get, oa_create. assert (E : nth_error (repeat (@None T) (N.to_nat (card_usize card))) (N.to_nat n) = None).
  { apply nth_error_None. rewrite repeat_length. lia. }
  rewrite E. reflexivity.
Qed.
Lemma right_size {B : Build} {H} (ix : IdxOps H) : sized_right ix -> has_size H (i_card ix).
Proof. intros Hr. exists (i_index ix). apply right_numbering. auto. Qed.
