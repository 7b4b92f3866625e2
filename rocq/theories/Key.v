(** Model of src/key.rs *)
From Verif Require Import Base Ints Ops.

(** *** MaybeBorrowed (src/key.rs 27-87).  A reference is represented by the value referred to. *)
Inductive MaybeBorrowed (B : Type) : Type :=
| Borrowed (b : B)
| Owned (b : B).
Arguments Borrowed {B}.
Arguments Owned {B}.

(** [Deref::deref] and [Borrow::borrow] for MaybeBorrowed (src/key.rs 72-87) *)
Definition mb_deref {B} (m : MaybeBorrowed B) : B :=
  match m with
  | Borrowed b => b
  | Owned b => b
  end.

(** [PartialEq] (src/key.rs 33-41), for an equality test of the contents *)
Definition mb_eq {L R} (eq : L -> R -> bool) (a : MaybeBorrowed L) (b : MaybeBorrowed R) : bool :=
  eq (mb_deref a) (mb_deref b).

(** [From<B>], [From<&B>] (src/key.rs 43-54) *)
Definition mb_from_owned {B} (b : B) : MaybeBorrowed B := Owned b.
Definition mb_from_ref {B} (b : B) : MaybeBorrowed B := Borrowed b.

(** [into_or_clone] (src/key.rs 56-64), for a given [Clone] of the contents *)
Definition mb_into_or_clone {B} (clone : B -> B) (m : MaybeBorrowed B) : B :=
  match m with
  | Borrowed b => clone b
  | Owned b => b
  end.

(** the inherent [borrow] (src/key.rs 65-70) *)
Definition mb_borrow {B} (m : MaybeBorrowed B) : MaybeBorrowed B := Borrowed (mb_deref m).

(** derived [Clone] (src/key.rs 27): a reference is copied, an owned value cloned *)
Definition mb_clone {B} (clone : B -> B) (m : MaybeBorrowed B) : MaybeBorrowed B :=
  match m with
  | Borrowed b => Borrowed b
  | Owned b => Owned (clone b)
  end.

(** *** The unit key (src/key.rs 127-144) *)
Definition unit_cmp (_ _ : unit) : comparison := Eq.
Definition unit_key : KeyOps unit unit unit :=
  {| k_cmp := unit_cmp; hi_cmp := unit_cmp; lo_cmp := unit_cmp;
     k_split_val := fun _ => (tt, tt);
     k_join := fun _ _ => tt;
     k_split_ref := fun _ => (tt, tt) |}.
(** src/key.rs 138-144 *)
Definition unit_idx : IdxOps unit :=
  {| i_card := 1; i_CARDINALITY := 1; i_index := fun _ => 0%N |}.

(** *** Unsigned integers *)

(** The body shared by the [split_val] of u128, u64, u32, u16 (src/key.rs 150-152, 197-199, 244-246,
    299-301): [((self >> Lo::BITS) as Hi, self as Lo)]. *)
Definition split_u (W w : N) (x : u W) : u w * u w :=
  (wrap w (N.shiftr (uval x) w), wrap w (uval x)).

(** The body shared by their [join] (src/key.rs 154-157, 201-204, 248-251, 303-306):
    [hi as Self << sh | lo as Self]. *)
Definition join_u (W w sh : N) (hi lo : u w) : u W :=
  wrap W (N.lor (uval (wrap W (N.shiftl (uval hi) sh))) (uval lo)).

(** The blanket [split_ref] (src/key.rs 110-119) clones the key and splits it by value; [Clone] of the
    integer types is a copy. *)
Definition blanket_split_ref {K H L} (split : K -> H * L) (k : K) : H * L := split k.

(** src/key.rs 146-159 *)
Definition u128_key : KeyOps (u 128) (u 64) (u 64) :=
  {| k_cmp := u_cmp; hi_cmp := u_cmp; lo_cmp := u_cmp;
     k_split_val := split_u 128 64; k_join := join_u 128 64 64;
     k_split_ref := blanket_split_ref (split_u 128 64) |}.
(** src/key.rs 193-206 *)
Definition u64_key : KeyOps (u 64) (u 32) (u 32) :=
  {| k_cmp := u_cmp; hi_cmp := u_cmp; lo_cmp := u_cmp;
     k_split_val := split_u 64 32; k_join := join_u 64 32 32;
     k_split_ref := blanket_split_ref (split_u 64 32) |}.
(** src/key.rs 240-253 *)
Definition u32_key : KeyOps (u 32) (u 16) (u 16) :=
  {| k_cmp := u_cmp; hi_cmp := u_cmp; lo_cmp := u_cmp;
     k_split_val := split_u 32 16; k_join := join_u 32 16 16;
     k_split_ref := blanket_split_ref (split_u 32 16) |}.
(** src/key.rs 295-308 *)
Definition u16_key : KeyOps (u 16) (u 8) (u 8) :=
  {| k_cmp := u_cmp; hi_cmp := u_cmp; lo_cmp := u_cmp;
     k_split_val := split_u 16 8; k_join := join_u 16 8 8;
     k_split_ref := blanket_split_ref (split_u 16 8) |}.

(** *** U4 and U2, as they are stored: a [u8] (src/key.rs 397-539).  Values of these types are
    represented by [u 4] and [u 2]; C29 shows that nothing outside that range can be made.  *)
Definition U4_BITS : N := 4.                                          (* key.rs 401 *)
Definition U4_MAX : N := N.shiftr 255 (8 - U4_BITS).                  (* key.rs 402 *)
Definition U4_new (v : u 8) : u 8 := v.                               (* key.rs 403-405 *)
Definition U4_from_u8 (v : u 8) : u 8 := wrap 8 (N.land (uval v) U4_MAX).   (* key.rs 408-412 *)
Definition U4_into_u8 (v : u 8) : u 8 := v.                           (* key.rs 413-417 *)
(** The amount a [u8] is shifted by: 8 or more panics if overflow is checked and loses the high bits of the amount
    otherwise (core's [Shl<usize> for u8] inherits the checks of the crate that calls it) *)
Definition shift8 {B : Build} (n : N) : res N := if (n <? 8)%N then Ret n else if dbg then Panic else Ret (N.land n 7).
(** [BitOr], [Shl], [Shr] (src/key.rs 419-438) *)
Definition U4_bitor (a b : u 8) : u 8 := U4_from_u8 (wrap 8 (N.lor (uval a) (uval b))).
Definition U4_shl {B : Build} (a : u 8) (n : N) : res (u 8) :=
  m <- shift8 n ;; Ret (U4_from_u8 (wrap 8 (N.shiftl (uval a) m))).
Definition U4_shr {B : Build} (a : u 8) (n : N) : res (u 8) :=
  m <- shift8 n ;; Ret (U4_from_u8 (wrap 8 (N.shiftr (uval a) m))).

Definition U2_BITS : N := 2.                                          (* key.rs 470 *)
Definition U2_MAX : N := N.shiftr 255 (8 - U2_BITS).                  (* key.rs 471 *)
Definition U2_new (v : u 8) : u 8 := v.                               (* key.rs 472-474 *)
Definition U2_from_u8 (v : u 8) : u 8 := wrap 8 (N.land (uval v) U2_MAX).   (* key.rs 476-480 *)
Definition U2_from_U4 (v : u 8) : u 8 := U2_from_u8 v.                (* key.rs 481-485 *)
Definition U4_from_U2 (v : u 8) : u 8 := v.                           (* key.rs 486-490 *)
Definition bool_from_U2 (v : u 8) : bool := (N.land (uval v) 1 =? 1)%N.     (* key.rs 491-495 *)
(** src/key.rs 497-516 *)
Definition U2_bitor (a b : u 8) : u 8 := U2_from_u8 (wrap 8 (N.lor (uval a) (uval b))).
Definition U2_shl {B : Build} (a : u 8) (n : N) : res (u 8) :=
  m <- shift8 n ;; Ret (U2_from_u8 (wrap 8 (N.shiftl (uval a) m))).
Definition U2_shr {B : Build} (a : u 8) (n : N) : res (u 8) :=
  m <- shift8 n ;; Ret (U2_from_u8 (wrap 8 (N.shiftr (uval a) m))).

(** [u8::split_val], [u8::join] on stored values (src/key.rs 355-363) *)
Definition u8_split_raw (x : u 8) : u 8 * u 8 :=
  (U4_new (wrap 8 (N.shiftr (uval x) U4_BITS)), U4_from_u8 x).
Definition u8_join_raw (hi lo : u 8) : u 8 :=
  wrap 8 (N.lor (uval (wrap 8 (N.shiftl (uval hi) 4))) (uval lo)).
(** [U4::split_val], [U4::join] on stored values (src/key.rs 443-454) *)
Definition U4_split_raw (x : u 8) : u 8 * u 8 :=
  (U2_new (wrap 8 (N.shiftr (uval x) U2_BITS)), U2_from_U4 x).
Definition U4_join_raw (hi lo : u 8) : u 8 :=
  wrap 8 (N.lor (uval (wrap 8 (N.shiftl (uval hi) 2))) (uval lo)).
(** [U2::split_val], [U2::join] on stored values (src/key.rs 521-529) *)
Definition U2_split_raw (x : u 8) : bool * bool :=
  (negb (N.shiftr (uval x) 1 =? 0)%N, bool_from_U2 x).
Definition U2_join_raw (hi lo : bool) : u 8 :=
  wrap 8 (N.lor (uval (wrap 8 (N.shiftl (N.b2n hi) 1))) (N.b2n lo)).

Definition raw4 (x : u 4) : u 8 := pack 8 (uval x).
Definition of4 (r : u 8) : u 4 := pack 4 (uval r).
Definition raw2 (x : u 2) : u 8 := pack 8 (uval x).
Definition of2 (r : u 8) : u 2 := pack 2 (uval r).

Definition bool_cmp (a b : bool) : comparison := N.compare (N.b2n a) (N.b2n b).

Definition u8_split (x : u 8) : u 4 * u 4 :=
  let (h, l) := u8_split_raw x in (of4 h, of4 l).
Definition u8_join (hi lo : u 4) : u 8 := u8_join_raw (raw4 hi) (raw4 lo).
Definition U4_split (x : u 4) : u 2 * u 2 :=
  let (h, l) := U4_split_raw (raw4 x) in (of2 h, of2 l).
Definition U4_join (hi lo : u 2) : u 4 := of4 (U4_join_raw (raw2 hi) (raw2 lo)).
Definition U2_split (x : u 2) : bool * bool := U2_split_raw (raw2 x).
Definition U2_join (hi lo : bool) : u 2 := of2 (U2_join_raw hi lo).

(** src/key.rs 352-365 *)
Definition u8_key : KeyOps (u 8) (u 4) (u 4) :=
  {| k_cmp := u_cmp; hi_cmp := u_cmp; lo_cmp := u_cmp;
     k_split_val := u8_split; k_join := u8_join; k_split_ref := blanket_split_ref u8_split |}.
(** src/key.rs 440-456 *)
Definition U4_key : KeyOps (u 4) (u 2) (u 2) :=
  {| k_cmp := u_cmp; hi_cmp := u_cmp; lo_cmp := u_cmp;
     k_split_val := U4_split; k_join := U4_join; k_split_ref := blanket_split_ref U4_split |}.
(** src/key.rs 518-531 *)
Definition U2_key : KeyOps (u 2) bool bool :=
  {| k_cmp := u_cmp; hi_cmp := bool_cmp; lo_cmp := bool_cmp;
     k_split_val := U2_split; k_join := U2_join; k_split_ref := blanket_split_ref U2_split |}.

(** *** Signed integers: through the unsigned type of the same width.
    [split_val] is [self.abs_diff(MIN).split_val()], [join] is
    [(uN::join(hi, lo) as Self).wrapping_add(MIN)]. *)
Definition split_i {h : N} {H} (split : u (h + 1) -> H * H) (x : i h) : H * H :=
  split (i_abs_diff x (i_min h)).
Definition join_i {h : N} {H} (join : H -> H -> u (h + 1)) (hi lo : H) : i h :=
  i_wrapping_add (u_as_i (join hi lo)) (i_min h).

(** src/key.rs 170-182 *)
Definition i128_key : KeyOps (i 127) (u 64) (u 64) :=
  {| k_cmp := i_cmp; hi_cmp := u_cmp; lo_cmp := u_cmp;
     k_split_val := split_i (h := 127) (split_u 128 64);
     k_join := join_i (h := 127) (join_u 128 64 64);
     k_split_ref := blanket_split_ref (split_i (h := 127) (split_u 128 64)) |}.
(** src/key.rs 217-229 *)
Definition i64_key : KeyOps (i 63) (u 32) (u 32) :=
  {| k_cmp := i_cmp; hi_cmp := u_cmp; lo_cmp := u_cmp;
     k_split_val := split_i (h := 63) (split_u 64 32);
     k_join := join_i (h := 63) (join_u 64 32 32);
     k_split_ref := blanket_split_ref (split_i (h := 63) (split_u 64 32)) |}.
(** src/key.rs 268-280 *)
Definition i32_key : KeyOps (i 31) (u 16) (u 16) :=
  {| k_cmp := i_cmp; hi_cmp := u_cmp; lo_cmp := u_cmp;
     k_split_val := split_i (h := 31) (split_u 32 16);
     k_join := join_i (h := 31) (join_u 32 16 16);
     k_split_ref := blanket_split_ref (split_i (h := 31) (split_u 32 16)) |}.
(** src/key.rs 324-336 *)
Definition i16_key : KeyOps (i 15) (u 8) (u 8) :=
  {| k_cmp := i_cmp; hi_cmp := u_cmp; lo_cmp := u_cmp;
     k_split_val := split_i (h := 15) (split_u 16 8);
     k_join := join_i (h := 15) (join_u 16 8 8);
     k_split_ref := blanket_split_ref (split_i (h := 15) (split_u 16 8)) |}.
(** src/key.rs 375-387 *)
Definition i8_key : KeyOps (i 7) (u 4) (u 4) :=
  {| k_cmp := i_cmp; hi_cmp := u_cmp; lo_cmp := u_cmp;
     k_split_val := split_i (h := 7) u8_split;
     k_join := join_i (h := 7) u8_join;
     k_split_ref := blanket_split_ref (split_i (h := 7) u8_split) |}.

(** *** SizedVebKey: [index], [Cardinality] and [CARDINALITY] on the targets that have the impl (Target.v).
    [u64::Cardinality] is 2^64, which no [usize] can hold. *)
(** src/key.rs 161-168, 128-bit targets only *)
Definition u128_idx : IdxOps (u 128) :=
  {| i_card := 2 ^ 128; i_CARDINALITY := 2 ^ 128 - 1; i_index := uval |}.
(** src/key.rs 208-215 *)
Definition u64_idx : IdxOps (u 64) :=
  {| i_card := 2 ^ 64; i_CARDINALITY := 2 ^ 64 - 1; i_index := uval |}.
(** src/key.rs 259-266 *)
Definition u32_idx : IdxOps (u 32) :=
  {| i_card := 2 ^ 32; i_CARDINALITY := 2 ^ 32 - 1; i_index := uval |}.
(** src/key.rs 315-322 *)
Definition u16_idx : IdxOps (u 16) :=
  {| i_card := 2 ^ 16; i_CARDINALITY := 2 ^ 16 - 1; i_index := uval |}.
(** src/key.rs 366-373 *)
Definition u8_idx : IdxOps (u 8) :=
  {| i_card := 2 ^ 8; i_CARDINALITY := 2 ^ 8 - 1; i_index := uval |}.
(** src/key.rs 457-464 *)
Definition U4_idx : IdxOps (u 4) :=
  {| i_card := 2 ^ 4; i_CARDINALITY := U4_MAX; i_index := fun x => uval (raw4 x) |}.
(** src/key.rs 532-539 *)
Definition U2_idx : IdxOps (u 2) :=
  {| i_card := 2 ^ 2; i_CARDINALITY := U2_MAX; i_index := fun x => uval (raw2 x) |}.

(** [self.wrapping_sub(Self::MIN) as usize] *)
Definition index_i {B : Build} {h} (x : i h) : N := i_as_usize (i_wrapping_sub x (i_min h)).
(** src/key.rs 184-191, 128-bit targets only *)
Definition i128_idx {B : Build} : IdxOps (i 127) :=
  {| i_card := 2 ^ 128; i_CARDINALITY := 2 ^ 128 - 1; i_index := index_i |}.
(** src/key.rs 231-238 *)
Definition i64_idx {B : Build} : IdxOps (i 63) :=
  {| i_card := 2 ^ 64; i_CARDINALITY := 2 ^ 64 - 1; i_index := index_i |}.
(** src/key.rs 286-293 *)
Definition i32_idx {B : Build} : IdxOps (i 31) :=
  {| i_card := 2 ^ 32; i_CARDINALITY := usize_max; i_index := index_i |}.
(** src/key.rs 343-350 *)
Definition i16_idx {B : Build} : IdxOps (i 15) :=
  {| i_card := 2 ^ 16; i_CARDINALITY := usize_max; i_index := index_i |}.
(** src/key.rs 388-395 *)
Definition i8_idx {B : Build} : IdxOps (i 7) :=
  {| i_card := 2 ^ 8; i_CARDINALITY := 2 ^ 8 - 1; i_index := index_i |}.

(** *** Arrays (src/key.rs 541-740) *)
Section Arrays.
  Context {T : Type}.
  Inductive arr2 := A2 (a b : T).
  Inductive arr3 := A3 (a b c : T).
  Inductive arr4 := A4 (a b c d : T).
  Inductive arr5 := A5 (a b c d e : T).
  Inductive arr6 := A6 (a b c d e f : T).
  Inductive arr7 := A7 (a b c d e f g : T).
  Inductive arr8 := A8 (a b c d e f g h : T).
  Inductive arr16 := A16 (a b c d e f g h i j k l m n o p : T).

  Definition l2 (x : arr2) := let '(A2 a b) := x in [a; b].
  Definition l3 (x : arr3) := let '(A3 a b c) := x in [a; b; c].
  Definition l4 (x : arr4) := let '(A4 a b c d) := x in [a; b; c; d].
  Definition l5 (x : arr5) := let '(A5 a b c d e) := x in [a; b; c; d; e].
  Definition l6 (x : arr6) := let '(A6 a b c d e f) := x in [a; b; c; d; e; f].
  Definition l7 (x : arr7) := let '(A7 a b c d e f g) := x in [a; b; c; d; e; f; g].
  Definition l8 (x : arr8) := let '(A8 a b c d e f g h) := x in [a; b; c; d; e; f; g; h].
  Definition l16 (x : arr16) :=
    let '(A16 a b c d e f g h i j k l m n o p) := x in
    [a; b; c; d; e; f; g; h; i; j; k; l; m; n; o; p].
End Arrays.
Arguments arr2 : clear implicits.
Arguments arr3 : clear implicits.
Arguments arr4 : clear implicits.
Arguments arr5 : clear implicits.
Arguments arr6 : clear implicits.
Arguments arr7 : clear implicits.
Arguments arr8 : clear implicits.
Arguments arr16 : clear implicits.

(** [Ord] of slices and arrays: lexicographic. *)
Fixpoint lex {T} (cmp : T -> T -> comparison) (a b : list T) : comparison :=
  match a, b with
  | [], [] => Eq
  | [], _ :: _ => Lt
  | _ :: _, [] => Gt
  | x :: a', y :: b' =>
      match cmp x y with
      | Eq => lex cmp a' b'
      | c => c
      end
  end.

Section ArrayKeys.
  Context {T : Type} (cmp : T -> T -> comparison).
  Definition cmp2 (x y : arr2 T) := lex cmp (l2 x) (l2 y).
  Definition cmp3 (x y : arr3 T) := lex cmp (l3 x) (l3 y).
  Definition cmp4 (x y : arr4 T) := lex cmp (l4 x) (l4 y).
  Definition cmp5 (x y : arr5 T) := lex cmp (l5 x) (l5 y).
  Definition cmp6 (x y : arr6 T) := lex cmp (l6 x) (l6 y).
  Definition cmp7 (x y : arr7 T) := lex cmp (l7 x) (l7 y).
  Definition cmp8 (x y : arr8 T) := lex cmp (l8 x) (l8 y).
  Definition cmp16 (x y : arr16 T) := lex cmp (l16 x) (l16 y).

  (** src/key.rs 541-562.  [Clone] of an element ([into_or_clone]) is taken to be the identity. *)
  Definition arr2_key : KeyOps (arr2 T) T T :=
    {| k_cmp := cmp2; hi_cmp := cmp; lo_cmp := cmp;
       k_split_val := fun '(A2 hi lo) => (hi, lo);
       k_join := fun hi lo => A2 hi lo;
       k_split_ref := fun '(A2 x0 x1) => (x0, x1) |}.
  (** src/key.rs 564-587 *)
  Definition arr3_key : KeyOps (arr3 T) T (arr2 T) :=
    {| k_cmp := cmp3; hi_cmp := cmp; lo_cmp := cmp2;
       k_split_val := fun '(A3 hi a b) => (hi, A2 a b);
       k_join := fun hi '(A2 lo0 lo1) => A3 hi lo0 lo1;
       k_split_ref := fun '(A3 hi a b) => (hi, A2 a b) |}.
  (** src/key.rs 588-612 *)
  Definition arr4_key : KeyOps (arr4 T) (arr2 T) (arr2 T) :=
    {| k_cmp := cmp4; hi_cmp := cmp2; lo_cmp := cmp2;
       k_split_val := fun '(A4 h0 h1 a b) => (A2 h0 h1, A2 a b);
       k_join := fun '(A2 hi0 hi1) '(A2 lo0 lo1) => A4 hi0 hi1 lo0 lo1;
       k_split_ref := fun '(A4 a b c d) => (A2 a b, A2 c d) |}.
  (** src/key.rs 613-637 *)
  Definition arr5_key : KeyOps (arr5 T) (arr2 T) (arr3 T) :=
    {| k_cmp := cmp5; hi_cmp := cmp2; lo_cmp := cmp3;
       k_split_val := fun '(A5 h0 h1 a b c) => (A2 h0 h1, A3 a b c);
       k_join := fun '(A2 hi0 hi1) '(A3 lo0 lo1 lo2) => A5 hi0 hi1 lo0 lo1 lo2;
       k_split_ref := fun '(A5 a b c d e) => (A2 a b, A3 c d e) |}.
  (** src/key.rs 638-662 *)
  Definition arr6_key : KeyOps (arr6 T) (arr3 T) (arr3 T) :=
    {| k_cmp := cmp6; hi_cmp := cmp3; lo_cmp := cmp3;
       k_split_val := fun '(A6 h0 h1 h2 a b c) => (A3 h0 h1 h2, A3 a b c);
       k_join := fun '(A3 hi0 hi1 hi2) '(A3 lo0 lo1 lo2) => A6 hi0 hi1 hi2 lo0 lo1 lo2;
       k_split_ref := fun '(A6 a b c d e f) => (A3 a b c, A3 d e f) |}.
  (** src/key.rs 663-687 *)
  Definition arr7_key : KeyOps (arr7 T) (arr3 T) (arr4 T) :=
    {| k_cmp := cmp7; hi_cmp := cmp3; lo_cmp := cmp4;
       k_split_val := fun '(A7 h0 h1 h2 a b c d) => (A3 h0 h1 h2, A4 a b c d);
       k_join := fun '(A3 hi0 hi1 hi2) '(A4 lo0 lo1 lo2 lo3) => A7 hi0 hi1 hi2 lo0 lo1 lo2 lo3;
       k_split_ref := fun '(A7 a b c d e f g) => (A3 a b c, A4 d e f g) |}.
  (** src/key.rs 688-712 *)
  Definition arr8_key : KeyOps (arr8 T) (arr4 T) (arr4 T) :=
    {| k_cmp := cmp8; hi_cmp := cmp4; lo_cmp := cmp4;
       k_split_val := fun '(A8 h0 h1 h2 h3 a b c d) => (A4 h0 h1 h2 h3, A4 a b c d);
       k_join := fun '(A4 hi0 hi1 hi2 hi3) '(A4 lo0 lo1 lo2 lo3) =>
                   A8 hi0 hi1 hi2 hi3 lo0 lo1 lo2 lo3;
       k_split_ref := fun '(A8 a b c d e f g h) => (A4 a b c d, A4 e f g h) |}.
  (** src/key.rs 713-740 *)
  Definition arr16_key : KeyOps (arr16 T) (arr8 T) (arr8 T) :=
    {| k_cmp := cmp16; hi_cmp := cmp8; lo_cmp := cmp8;
       k_split_val := fun '(A16 h0 h1 h2 h3 h4 h5 h6 h7 a b c d e f g h) =>
                        (A8 h0 h1 h2 h3 h4 h5 h6 h7, A8 a b c d e f g h);
       k_join := fun '(A8 hi0 hi1 hi2 hi3 hi4 hi5 hi6 hi7) '(A8 lo0 lo1 lo2 lo3 lo4 lo5 lo6 lo7) =>
                   A16 hi0 hi1 hi2 hi3 hi4 hi5 hi6 hi7 lo0 lo1 lo2 lo3 lo4 lo5 lo6 lo7;
       k_split_ref := fun '(A16 a b c d e f g h i j k l m n o p) =>
                        (A8 a b c d e f g h, A8 i j k l m n o p) |}.
End ArrayKeys.
