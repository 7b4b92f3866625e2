(** [SizedVebKey] of the integers on targets other than 64-bit ones: [p] is the number of bits of a pointer, so of [usize].
    The impls for w bits exist where the [cfg]s of src/key.rs 160, 183, 207, 230, 254-258, 281-285, 309-314, 337-342 say so. *)
From Verif Require Import Base Ints Ops Key.

Definition offered (p w : N) : Prop := In p [16; 32; 64; 128]%N /\ In w [8; 16; 32; 64; 128]%N /\ (w <= p)%N.

(** [*self as usize] (src/key.rs 166, 213, 264, 320, 371) *)
Definition index_u_at (p : N) {w : N} (x : u w) : N := uval (wrap p (uval x)).
(** [self.wrapping_sub(Self::MIN) as usize] (src/key.rs 189, 236, 291, 348, 393): sign extension or truncation to [p] bits *)
Definition index_i_at (p : N) {h : N} (x : i h) : N := Z.to_N (ival (i_wrapping_sub x (i_min h)) mod 2 ^ Z.of_N p).
(** [type Cardinality] (src/key.rs 163, 186, 210, 233, 261, 288, 317, 345, 368, 390) *)
Definition Cardinality_at (w : N) : N := 2 ^ w.
(** [const CARDINALITY]: [uN::MAX as usize] (src/key.rs 162, 185, 209, 232, 260, 316, 367, 389), but for i16 and i32
    [usize::MAX] (287, 344) *)
Definition CARDINALITY_u_at (p w : N) : N := uval (wrap p (2 ^ w - 1)).
Definition CARDINALITY_i_at (p w : N) : N :=
  if ((w =? 16) || (w =? 32))%N then (2 ^ p - 1)%N else uval (wrap p (2 ^ w - 1)).
