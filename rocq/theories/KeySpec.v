(** What the key theorems range over: the key types the crate provides (src/key.rs), and what it means to count them. *)
From Verif Require Import Base Ints Ops Key.

(** The impls of [VebKey] with [VebKeyRef]: src/key.rs 127 (), 146 u128, 170 i128, 193 u64, 217 i64, 240 u32, 268 i32, 295 u16,
    324 i16, 352 u8, 375 i8, 440 U4, 518 U2, 541 [T; 2], 564 [T; 3], 588 [T; 4], 613 [T; 5], 638 [T; 6], 663 [T; 7], 688 [T; 8],
    713 [T; 16], the arrays for any ordered element type. *)
Inductive provided : forall {K Hi Lo : Type}, KeyOps K Hi Lo -> Prop :=
| P_unit : provided unit_key
| P_u128 : provided u128_key | P_u64 : provided u64_key | P_u32 : provided u32_key | P_u16 : provided u16_key
| P_u8 : provided u8_key | P_U4 : provided U4_key | P_U2 : provided U2_key
| P_i128 : provided i128_key | P_i64 : provided i64_key | P_i32 : provided i32_key | P_i16 : provided i16_key
| P_i8 : provided i8_key
| P_arr2 T cmp : @OrdLaws T cmp -> provided (arr2_key cmp)
| P_arr3 T cmp : @OrdLaws T cmp -> provided (arr3_key cmp)
| P_arr4 T cmp : @OrdLaws T cmp -> provided (arr4_key cmp)
| P_arr5 T cmp : @OrdLaws T cmp -> provided (arr5_key cmp)
| P_arr6 T cmp : @OrdLaws T cmp -> provided (arr6_key cmp)
| P_arr7 T cmp : @OrdLaws T cmp -> provided (arr7_key cmp)
| P_arr8 T cmp : @OrdLaws T cmp -> provided (arr8_key cmp)
| P_arr16 T cmp : @OrdLaws T cmp -> provided (arr16_key cmp).

(** [f] numbers the values of [H] from 0 up to [n] (exclusive), each number used exactly once. *)
Definition numbering {H : Type} (f : H -> N) (n : N) : Prop :=
  (forall x, (f x < n)%N) /\ (forall x y, f x = f y -> x = y) /\ (forall m, (m < n)%N -> exists x, f x = m).
(** [H] has [n] values. *)
Definition has_size (H : Type) (n : N) : Prop := exists f : H -> N, numbering f n.

(** The sized keys whose index is right (src/key.rs 138, 161, 184, 208, 231, 259, 286, 315, 343, 366, 457, 532), and those whose index is
    not (231, 286, 343, 388): the signed ones are right only where they are as wide as a pointer.  The impls for a width are there on
    the targets with pointers at least as wide. *)
Inductive sized_right {B : Build} : forall {H : Type}, IdxOps H -> Prop :=
| R_unit : sized_right unit_idx
| R_u128 : usize_bits = 128%N -> sized_right u128_idx | R_i128 : usize_bits = 128%N -> sized_right i128_idx
| R_u64 : (64 <= usize_bits)%N -> sized_right u64_idx | R_i64 : usize_bits = 64%N -> sized_right i64_idx
| R_u32 : (32 <= usize_bits)%N -> sized_right u32_idx | R_i32 : usize_bits = 32%N -> sized_right i32_idx
| R_u16 : sized_right u16_idx | R_i16 : usize_bits = 16%N -> sized_right i16_idx
| R_u8 : sized_right u8_idx | R_U4 : sized_right U4_idx | R_U2 : sized_right U2_idx.
Inductive sized_signed {B : Build} : forall {h : N}, IdxOps (i h) -> Prop :=
| S_i64 : (64 < usize_bits)%N -> sized_signed i64_idx | S_i32 : (32 < usize_bits)%N -> sized_signed i32_idx
| S_i16 : (16 < usize_bits)%N -> sized_signed i16_idx | S_i8 : sized_signed i8_idx.

(** The U4 and U2 values that code outside of the module can make; the field is private, [new] too.  The operations are those of
    src/key.rs 408-438, 476-516 and the public [split_val], [join] of u8, U4 and U2 (also reached through i8), in any build. *)
Inductive U4_made : u 8 -> Prop :=
| made4_from (v : u 8) : U4_made (U4_from_u8 v)
| made4_or a b : U4_made a -> U4_made b -> U4_made (U4_bitor a b)
| made4_shl (B : Build) a n r : U4_made a -> U4_shl (B := B) a n = Ret r -> U4_made r
| made4_shr (B : Build) a n r : U4_made a -> U4_shr (B := B) a n = Ret r -> U4_made r
| made4_split_hi (v : u 8) : U4_made (fst (u8_split_raw v))
| made4_split_lo (v : u 8) : U4_made (snd (u8_split_raw v))
| made4_from_U2 a : U2_made a -> U4_made (U4_from_U2 a)
| made4_join a b : U2_made a -> U2_made b -> U4_made (U4_join_raw a b)
with U2_made : u 8 -> Prop :=
| made2_from (v : u 8) : U2_made (U2_from_u8 v)
| made2_or a b : U2_made a -> U2_made b -> U2_made (U2_bitor a b)
| made2_shl (B : Build) a n r : U2_made a -> U2_shl (B := B) a n = Ret r -> U2_made r
| made2_shr (B : Build) a n r : U2_made a -> U2_shr (B := B) a n = Ret r -> U2_made r
| made2_from_U4 a : U4_made a -> U2_made (U2_from_U4 a)
| made2_split_hi a : U4_made a -> U2_made (fst (U4_split_raw a))
| made2_split_lo a : U4_made a -> U2_made (snd (U4_split_raw a))
| made2_join a b : U2_made (U2_join_raw a b).
