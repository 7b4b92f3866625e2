(** Machine integers: a number with a proof of its range. *)
From Coq Require Import Eqdep_dec Sumbool.
From Verif Require Import Base.

(** *** Unsigned [w]-bit integers: Rust's u8, u16, u32, u64, u128 *)
Record u (w : N) : Type := mku { uval : N; uok : (uval <? 2 ^ w)%N = true }.
Arguments mku {w}.
Arguments uval {w}.
Arguments uok {w}.

Lemma pow2_pos w : (0 <? 2 ^ w)%N = true.
Proof. apply N.ltb_lt. apply N.neq_0_lt_0, N.pow_nonzero. discriminate. Qed.

(** Checked construction that computes (the proof reduces to [eq_refl]); an out-of-range number,
    which no caller passes, gives 0. *)
Definition pack (w n : N) : u w :=
  match sumbool_of_bool (n <? 2 ^ w)%N with
  | left H => mku n H
  | right _ => mku 0 (pow2_pos w)
  end.

(** Truncation to [w] bits: Rust's [as uN] cast, and the dropping of high bits by [<<]. *)
Definition wrap (w n : N) : u w := pack w (n mod 2 ^ w).

Definition u_cmp {w} (a b : u w) : comparison := N.compare (uval a) (uval b).

(** *** Signed integers: [i h] is Rust's signed type of [h + 1] bits (i8 is [i 7], ...). *)
Definition ihalf (h : N) : Z := 2 ^ Z.of_N h.
Definition irange (h : N) (z : Z) : bool := ((- ihalf h <=? z) && (z <? ihalf h))%Z.

Record i (h : N) : Type := mki { ival : Z; iok : irange h ival = true }.
Arguments mki {h}.
Arguments ival {h}.
Arguments iok {h}.

Lemma ihalf_pos h : (0 < ihalf h)%Z.
Proof. unfold ihalf. apply Z.pow_pos_nonneg; lia. Qed.

Lemma irange_min h : irange h (- ihalf h) = true.
Proof.
  unfold irange. rewrite Z.leb_refl. simpl. apply Z.ltb_lt.
  pose proof (ihalf_pos h). lia.
Qed.

(** Rust's [iN::MIN] *)
Definition i_min (h : N) : i h := mki (- ihalf h)%Z (irange_min h).

Definition packi (h : N) (z : Z) : i h :=
  match sumbool_of_bool (irange h z) with
  | left H => mki z H
  | right _ => i_min h
  end.

(** Two's complement wrap-around. *)
Definition wrapi (h : N) (z : Z) : i h :=
  packi h ((z + ihalf h) mod (2 * ihalf h) - ihalf h)%Z.

Definition i_cmp {h} (a b : i h) : comparison := Z.compare (ival a) (ival b).

(** Rust's [iN::abs_diff], result of type [uN]. *)
Definition i_abs_diff {h} (a b : i h) : u (h + 1) := wrap (h + 1) (Z.abs_N (ival a - ival b)).
(** Rust's [iN::wrapping_add], [iN::wrapping_sub]. *)
Definition i_wrapping_add {h} (a b : i h) : i h := wrapi h (ival a + ival b).
Definition i_wrapping_sub {h} (a b : i h) : i h := wrapi h (ival a - ival b).
(** Rust's [uN as iN] (same width). *)
Definition u_as_i {h} (a : u (h + 1)) : i h := wrapi h (Z.of_N (uval a)).
(** Rust's [iN as usize]: sign extension, then truncation to the bits of [usize]. *)
Definition i_as_usize {B : Build} {h} (a : i h) : N := Z.to_N (ival a mod 2 ^ Z.of_N usize_bits).

(** *** Facts *)
Lemma u_eq {w} (a b : u w) : uval a = uval b -> a = b.
Proof.
  destruct a as [a Ha], b as [b Hb]. simpl. intros ->.
  f_equal. apply UIP_dec. apply bool_dec.
Qed.

Lemma i_eq {h} (a b : i h) : ival a = ival b -> a = b.
Proof.
  destruct a as [a Ha], b as [b Hb]. simpl. intros ->.
  f_equal. apply UIP_dec. apply bool_dec.
Qed.

Lemma uval_lt {w} (a : u w) : (uval a < 2 ^ w)%N.
Proof. apply N.ltb_lt. exact (uok a). Qed.

Lemma ival_range {h} (a : i h) : (- ihalf h <= ival a < ihalf h)%Z.
Proof.
  pose proof (iok a) as H. unfold irange in H.
  apply andb_prop in H. destruct H as [H1 H2].
  apply Z.leb_le in H1. apply Z.ltb_lt in H2. lia.
Qed.

Lemma pack_val w n : (n < 2 ^ w)%N -> uval (pack w n) = n.
Proof.
  intros H. unfold pack. destruct (sumbool_of_bool (n <? 2 ^ w)%N) as [E|E].
  - reflexivity.
  - apply N.ltb_ge in E. lia.
Qed.

Lemma wrap_val w n : uval (wrap w n) = (n mod 2 ^ w)%N.
Proof. unfold wrap. apply pack_val. apply N.mod_lt. apply N.pow_nonzero. discriminate. Qed.

Lemma wrap_small w n : (n < 2 ^ w)%N -> uval (wrap w n) = n.
Proof. intros H. rewrite wrap_val. apply N.mod_small. exact H. Qed.

Lemma pack_uval {w} (a : u w) : pack w (uval a) = a.
Proof. apply u_eq. apply pack_val. apply uval_lt. Qed.

Lemma packi_val h z : (- ihalf h <= z < ihalf h)%Z -> ival (packi h z) = z.
Proof.
  intros H. unfold packi. destruct (sumbool_of_bool (irange h z)) as [E|E].
  - reflexivity.
  - exfalso. unfold irange in E. apply andb_false_iff in E. destruct E as [E|E].
    + apply Z.leb_gt in E. lia.
    + apply Z.ltb_ge in E. lia.
Qed.

Lemma wrapi_val h z :
  ival (wrapi h z) = ((z + ihalf h) mod (2 * ihalf h) - ihalf h)%Z.
Proof.
  unfold wrapi. apply packi_val. pose proof (ihalf_pos h).
  pose proof (Z.mod_pos_bound (z + ihalf h) (2 * ihalf h) ltac:(lia)). lia.
Qed.

Lemma u_cmp_laws w : OrdLaws (@u_cmp w).
Proof.
  split; unfold u_cmp.
  - intros a b. rewrite N.compare_eq_iff. split; [apply u_eq|intros ->; reflexivity].
  - intros a b. apply N.compare_antisym.
  - intros a b c. rewrite !N.compare_lt_iff. lia.
Qed.

Lemma i_cmp_laws h : OrdLaws (@i_cmp h).
Proof.
  split; unfold i_cmp.
  - intros a b. rewrite Z.compare_eq_iff. split; [apply i_eq|intros ->; reflexivity].
  - intros a b. apply Z.compare_antisym.
  - intros a b c. rewrite !Z.compare_lt_iff. lia.
Qed.
