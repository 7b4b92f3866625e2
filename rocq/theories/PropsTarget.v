(** C52, C53: the arithmetic of U4 and U2, and the numbering of the keys on every pointer width.

    Reading guide.  [U4_made], [U2_made] (KeySpec.v): the values that code outside of the module can make.  [shift8 n] (Key.v): the amount a
    byte is shifted by.  [offered p w]: the crate has a [SizedVebKey] for integers of [w] bits where pointers have [p] bits; [index_u_at p],
    [index_i_at p]: its [index] there (Target.v).  [i h]: signed integers of [h + 1] bits.  [numbering f c]: [f] is one to one onto the
    numbers below [c] (KeySpec.v). *)
From Verif Require Import Base Ints Ops Key KeySpec Laws KeyProofs Boxed Target TargetCor.

(** ** C52 Arithmetic of U4 and U2 *)
Theorem C52_U4 : (forall v, uval (U4_from_u8 v) = (uval v mod 16)%N) /\ (forall x, U4_made x -> U4_from_u8 (U4_into_u8 x) = x) /\
  (forall a b, U4_made a -> U4_made b -> uval (U4_bitor a b) = N.lor (uval a) (uval b)) /\
  (forall (B : Build) a n, U4_made a ->
    U4_shl a n = (m <- shift8 n ;; Ret (pack 8 ((uval a * 2 ^ m) mod 16))) /\
    U4_shr a n = (m <- shift8 n ;; Ret (pack 8 (uval a / 2 ^ m)))).
Proof. exact U4_arith. Qed.
Print Assumptions C52_U4.
Theorem C52_U2 : (forall v, uval (U2_from_u8 v) = (uval v mod 4)%N) /\
  (forall a b, U2_made a -> U2_made b -> uval (U2_bitor a b) = N.lor (uval a) (uval b)) /\
  (forall (B : Build) a n, U2_made a ->
    U2_shl a n = (m <- shift8 n ;; Ret (pack 8 ((uval a * 2 ^ m) mod 4))) /\
    U2_shr a n = (m <- shift8 n ;; Ret (pack 8 (uval a / 2 ^ m)))) /\
  (forall a, U4_made a -> uval (U2_from_U4 a) = (uval a mod 4)%N) /\ (forall a, U2_made a -> uval (U4_from_U2 a) = uval a) /\
  (forall a, U2_made a -> bool_from_U2 a = N.odd (uval a)).
Proof. exact U2_arith. Qed.
Print Assumptions C52_U2.
Theorem C52_shift : forall (B : Build) n, shift8 (B := B) n = if (n <? 8)%N then Ret n else if dbg then Panic else Ret (n mod 8)%N.
Proof. exact (fun B => @shift8_ok B). Qed.
Print Assumptions C52_shift.
Local Existing Instance debug_build.
Example C52_case : U4_made (U4_from_u8 (wrap 8 29)) /\ uval (U4_from_u8 (wrap 8 29)) = 13%N /\
  rmap (@uval 8) (U4_shl (U4_from_u8 (wrap 8 29)) 1) = Ret 10%N /\ rmap (@uval 8) (U4_shr (U4_from_u8 (wrap 8 29)) 1) = Ret 6%N /\
  U4_shl (U4_from_u8 (wrap 8 29)) 8 = Panic /\ rmap (@uval 8) (U4_shl (B := release_build) (U4_from_u8 (wrap 8 29)) 9) = Ret 10%N /\
  U2_made (U2_from_u8 (wrap 8 7)) /\ uval (U2_from_u8 (wrap 8 7)) = 3%N.
Proof. repeat split; constructor. Qed.

(** ** C53 The numbering of keys on every pointer width *)
Theorem C53_offered : forall (B : Build) w, offered usize_bits w <->
  (w = 8 \/ w = 16 \/ (w = 32 /\ 32 <= usize_bits) \/ (w = 64 /\ 64 <= usize_bits) \/ (w = 128 /\ 128 <= usize_bits))%N.
Proof. exact target_offered. Qed.
Print Assumptions C53_offered.
Theorem C53_unsigned : forall p w, offered p w -> numbering (@index_u_at p w) (Cardinality_at w).
Proof. exact target_unsigned. Qed.
Print Assumptions C53_unsigned.
(** The signed numbering is right only where the integer is as wide as a pointer; elsewhere it sends exactly the negative keys below
    [Cardinality]: an array collection is left by every other key *)
Theorem C53_signed : forall p h, offered p (h + 1) ->
  (numbering (@index_i_at p h) (Cardinality_at (h + 1)) <-> p = (h + 1)%N) /\
  (p <> (h + 1)%N -> forall x : i h, (index_i_at p x < Cardinality_at (h + 1))%N <-> (ival x < 0)%Z).
Proof. exact target_signed. Qed.
Print Assumptions C53_signed.
(** ... this is the [index] that the rest of the model has in every build *)
Theorem C53_agrees : forall B : Build, (forall w (x : u w), (w <= usize_bits)%N -> index_u_at usize_bits x = uval x) /\
  (forall h (x : i h), index_i_at usize_bits x = index_i x).
Proof. exact target_build. Qed.
Print Assumptions C53_agrees.
Theorem C53_CARDINALITY : forall p w, offered p w -> CARDINALITY_u_at p w = (Cardinality_at w - 1)%N /\
  (CARDINALITY_i_at p w = (Cardinality_at w - 1)%N <-> (w = p \/ (w <> 16 /\ w <> 32))%N).
Proof. exact target_const. Qed.
Print Assumptions C53_CARDINALITY.
Example C53_case : offered 32 (15 + 1) /\ offered 32 (31 + 1) /\ index_i_at 32 (wrapi 15 5) = (2 ^ 32 - 2 ^ 15 + 5)%N /\
  index_i_at 32 (wrapi 31 5) = (2 ^ 31 + 5)%N /\ index_i_at 32 (wrapi 15 (-5)) = (2 ^ 15 - 5)%N /\ ~ offered 32 64.
Proof. unfold offered. cbn. repeat split; auto; try lia. Qed.
