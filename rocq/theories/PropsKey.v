(** C26-C30, C37, C39: the keys (src/key.rs).  [provided ko]: [ko] is one of the crate's key types; see KeySpec.v. *)
From Verif Require Import Base Ints Ops Spec Key KeySpec Coll Tree Lists Laws CollProofs KeyProofs Hist KeyCor Concrete.

(** ** C26 Keys split and rejoin without loss *)
Theorem C26_join_split : forall K Hi Lo (ko : KeyOps K Hi Lo), provided ko ->
  forall k, k_join ko (fst (k_split_val ko k)) (snd (k_split_val ko k)) = k.
Proof. exact (fun K Hi Lo ko H => KL_join_split (provided_laws ko H)). Qed.
Print Assumptions C26_join_split.
Theorem C26_split_join : forall K Hi Lo (ko : KeyOps K Hi Lo), provided ko ->
  forall hi lo, k_split_val ko (k_join ko hi lo) = (hi, lo).
Proof. exact (fun K Hi Lo ko H => KI_split_join (provided_iso ko H)). Qed.
Print Assumptions C26_split_join.
(** the halves of an integer are its high and its low bits *)
Theorem C26_unsigned_halves :
  (forall x : u 128, uval (fst (k_split_val u128_key x)) = (uval x / 2 ^ 64)%N /\ uval (snd (k_split_val u128_key x)) = (uval x mod 2 ^ 64)%N) /\
  (forall x : u 64, uval (fst (k_split_val u64_key x)) = (uval x / 2 ^ 32)%N /\ uval (snd (k_split_val u64_key x)) = (uval x mod 2 ^ 32)%N) /\
  (forall x : u 32, uval (fst (k_split_val u32_key x)) = (uval x / 2 ^ 16)%N /\ uval (snd (k_split_val u32_key x)) = (uval x mod 2 ^ 16)%N) /\
  (forall x : u 16, uval (fst (k_split_val u16_key x)) = (uval x / 2 ^ 8)%N /\ uval (snd (k_split_val u16_key x)) = (uval x mod 2 ^ 8)%N) /\
  (forall x : u 8, uval (fst (k_split_val u8_key x)) = (uval x / 2 ^ 4)%N /\ uval (snd (k_split_val u8_key x)) = (uval x mod 2 ^ 4)%N) /\
  (forall x : u 4, uval (fst (k_split_val U4_key x)) = (uval x / 2 ^ 2)%N /\ uval (snd (k_split_val U4_key x)) = (uval x mod 2 ^ 2)%N).
Proof. exact (conj (split_u_val 64) (conj (split_u_val 32) (conj (split_u_val 16) (conj (split_u_val 8) (conj u8_split_val U4_split_val))))). Qed.
Print Assumptions C26_unsigned_halves.
Example C26_case : provided u128_key /\ provided i8_key /\ provided (arr7_key (@i_cmp 7)) /\
  (let '(h, l) := k_split_val u32_key (b32 200001) in (uval h, uval l)) = (3, 3393)%N /\
  ival (k_join i8_key (pack 4 3) (pack 4 9)) = (-71)%Z /\
  k_split_val (arr5_key N.compare) (A5 1 2 3 4 5)%N = (A2 1 2, A3 3 4 5)%N.
Proof. split; [constructor|]. split; [constructor|]. split; [constructor; apply i_cmp_laws|]. vm_compute. auto. Qed.

(** ** C27 Splitting preserves order *)
Theorem C27_order : forall K Hi Lo (ko : KeyOps K Hi Lo), provided ko ->
  OrdLaws (k_cmp ko) /\ OrdLaws (hi_cmp ko) /\ OrdLaws (lo_cmp ko) /\
  forall a b, k_cmp ko a b =
    match hi_cmp ko (fst (k_split_val ko a)) (fst (k_split_val ko b)) with
    | Eq => lo_cmp ko (snd (k_split_val ko a)) (snd (k_split_val ko b))
    | c => c
    end.
Proof.
  exact (fun K Hi Lo ko H => let L := provided_laws ko H in conj (KL_k L) (conj (KL_hi L) (conj (KL_lo L) (KL_cmp L)))).
Qed.
Print Assumptions C27_order.
(** and the order of the integer keys is the numeric one, that of arrays the lexicographic one *)
Theorem C27_numeric :
  k_cmp u128_key = (fun a b => N.compare (uval a) (uval b)) /\ k_cmp u64_key = (fun a b => N.compare (uval a) (uval b)) /\
  k_cmp u32_key = (fun a b => N.compare (uval a) (uval b)) /\ k_cmp u16_key = (fun a b => N.compare (uval a) (uval b)) /\
  k_cmp u8_key = (fun a b => N.compare (uval a) (uval b)) /\ k_cmp U4_key = (fun a b => N.compare (uval a) (uval b)) /\
  k_cmp U2_key = (fun a b => N.compare (uval a) (uval b)) /\
  k_cmp i128_key = (fun a b => Z.compare (ival a) (ival b)) /\ k_cmp i64_key = (fun a b => Z.compare (ival a) (ival b)) /\
  k_cmp i32_key = (fun a b => Z.compare (ival a) (ival b)) /\ k_cmp i16_key = (fun a b => Z.compare (ival a) (ival b)) /\
  k_cmp i8_key = (fun a b => Z.compare (ival a) (ival b)).
Proof. repeat split. Qed.
Print Assumptions C27_numeric.
Example C27_case : provided i16_key /\ k_cmp i16_key (wrapi 15 (-1)) (wrapi 15 0) = Lt /\
  (let '(h, l) := k_split_val i16_key (wrapi 15 (-1)) in (uval h, uval l)) = (127, 255)%N /\
  (let '(h, l) := k_split_val i16_key (wrapi 15 0) in (uval h, uval l)) = (128, 0)%N.
Proof. split; [constructor|]. vm_compute. auto. Qed.

(** ** C28 split_ref agrees with split_val *)
Theorem C28_split_ref : forall K Hi Lo (ko : KeyOps K Hi Lo), provided ko -> forall k, k_split_ref ko k = k_split_val ko k.
Proof. exact (fun K Hi Lo ko H => KL_split_ref (provided_laws ko H)). Qed.
Print Assumptions C28_split_ref.
Example C28_case : provided (arr16_key N.compare) /\
  k_split_ref (arr16_key N.compare) (A16 1 2 3 4 5 6 7 8 9 10 11 12 13 14 15 16)%N = (A8 1 2 3 4 5 6 7 8, A8 9 10 11 12 13 14 15 16)%N.
Proof.
  split; [|reflexivity]. constructor. split; [apply N.compare_eq_iff|apply N.compare_antisym|].
  intros a b c. rewrite !N.compare_lt_iff. apply N.lt_trans.
Qed.

(** ** C29 U4 and U2 stay in range *)
Theorem C29_U4 : forall x, U4_made x -> (uval (U4_into_u8 x) < 16)%N.
Proof. exact made4_lt. Qed.
Print Assumptions C29_U4.
Theorem C29_U2 : forall x, U2_made x -> (uval x < 4)%N.
Proof. exact made2_lt. Qed.
Print Assumptions C29_U2.
Example C29_case : exists x, U4_made x /\ uval x = 14%N.
Proof.
  eexists. split.
  - apply (made4_shl debug_build (U4_bitor (U4_from_u8 (b8 7)) (fst (u8_split_raw (b8 240)))) 1); [|reflexivity]. apply made4_or; constructor.
  - vm_compute. reflexivity.
Qed.

(** ** C30 index is a bijection onto 0..Cardinality: for the unsigned types, U4, U2, () and the signed type as wide as a pointer *)
Theorem C30_index : forall (B : Build) H (ix : IdxOps H), sized_right ix ->
  (forall x, (i_index ix x < i_card ix)%N) /\ (forall x y, i_index ix x = i_index ix y -> x = y) /\
  (forall n, (n < i_card ix)%N -> exists x, i_index ix x = n).
Proof. exact (fun B H ix Hr => right_numbering ix Hr). Qed.
Print Assumptions C30_index.
Example C30_case : sized_right u32_idx /\ sized_right i64_idx /\ i_index i64_idx (wrapi 63 (-1)) = (2 ^ 63 - 1)%N /\
  i_index i64_idx (wrapi 63 5) = (2 ^ 63 + 5)%N.
Proof. split; [constructor; vm_compute; discriminate|]. split; [constructor; reflexivity|]. vm_compute. auto. Qed.
Example C30_narrow_case : let B32 := {| dbg := true; ptr := P32 |} in sized_right (B := B32) (i32_idx (B := B32)) /\
  i_index (i32_idx (B := B32)) (wrapi 31 5) = (2 ^ 31 + 5)%N /\ sized_signed (B := B32) (i16_idx (B := B32)) /\
  i_index (i16_idx (B := B32)) (wrapi 15 5) = (2 ^ 32 - 2 ^ 15 + 5)%N.
Proof. cbv zeta. split; [constructor; reflexivity|]. split; [vm_compute; reflexivity|]. split; [constructor; reflexivity|]. vm_compute. reflexivity. Qed.
(** not for narrower signed types, on 64-bit targets i8, i16 and i32: every value that is not negative is out of bounds; the negative ones are right *)
Theorem C30_index_refuted : exists (x : i 7) (y : i 15) (z : i 31),
  (i_card i8_idx <= i_index i8_idx x)%N /\ (i_card i16_idx <= i_index i16_idx y)%N /\ (i_card i32_idx <= i_index i32_idx z)%N.
Proof. exists (wrapi 7 0), (wrapi 15 0), (wrapi 31 0). vm_compute. repeat split; discriminate. Qed.
Print Assumptions C30_index_refuted.
Theorem C30_index_signed : forall (B : Build) h (ix : IdxOps (i h)), sized_signed ix -> forall x : i h,
  ((0 <= ival x)%Z -> (i_card ix <= i_index ix x)%N) /\
  ((ival x < 0)%Z -> Z.of_N (i_index ix x) = (ival x + 2 ^ Z.of_N h)%Z).
Proof. exact (fun B h ix Hs x => conj (signed_bad ix Hs x) (signed_good ix Hs x)). Qed.
Print Assumptions C30_index_signed.
Example C30_signed_case : sized_signed i8_idx /\ i_index i8_idx (wrapi 7 5) = (2 ^ 64 - 123)%N /\ i_index i8_idx (wrapi 7 (-3)) = 125%N.
Proof. split; [constructor|]. vm_compute. auto. Qed.
(** so a tree with an array of children, keyed by pairs of such integers, panics at the first child whose key is not negative *)
Theorem C30_array_panics : forall (B : Build) h (ix : IdxOps (i h)) V S (Tr : VebOps (i h) V) p q (m : arr2 (i h)) a b c hi lo, sized_signed ix ->
  cmp2 i_cmp p m = Lt -> cmp2 i_cmp m q = Lt -> m = A2 hi lo -> (0 <= ival hi)%Z ->
  run (Tree_ops false (arr2_key i_cmp) S Tr (Array_coll ix Tr)) [Insert p a; Insert q b; Insert m c] None = Panic.
Proof. exact (fun B h ix V S Tr p q m a b c hi lo Hs => array_panics ix Hs S Tr p q m a b c hi lo). Qed.
Print Assumptions C30_array_panics.
Example C30_array_case : let n z := wrapi 7 z in
  cmp2 i_cmp (A2 (n 1%Z) (n 0%Z)) (A2 (n 2%Z) (n 0%Z)) = Lt /\ cmp2 i_cmp (A2 (n 2%Z) (n 0%Z)) (A2 (n 3%Z) (n 0%Z)) = Lt.
Proof. vm_compute. auto. Qed.

(** ** C39 CARDINALITY counts the keys.  The associated type does ... *)
Theorem C39_Cardinality : forall (B : Build), (forall H (ix : IdxOps H), sized_right ix -> has_size H (i_card ix)) /\
  (forall h (ix : IdxOps (i h)), sized_signed ix -> has_size (i h) (i_card ix)).
Proof. exact (fun B => conj (@right_size B) (@signed_size B)). Qed.
Print Assumptions C39_Cardinality.
(** ... the constant does for () ... *)
Theorem C39_CARDINALITY_unit : has_size unit (i_CARDINALITY unit_idx).
Proof. exact (right_size unit_idx R_unit). Qed.
Print Assumptions C39_CARDINALITY_unit.
(** ... and for no other type, on any target. *)
Theorem C39_CARDINALITY_refuted : forall (B : Build),
  ~ has_size (u 128) (i_CARDINALITY u128_idx) /\ ~ has_size (i 127) (i_CARDINALITY i128_idx) /\
  ~ has_size (u 64) (i_CARDINALITY u64_idx) /\ ~ has_size (i 63) (i_CARDINALITY i64_idx) /\
  ~ has_size (u 32) (i_CARDINALITY u32_idx) /\ ~ has_size (i 31) (i_CARDINALITY i32_idx) /\
  ~ has_size (u 16) (i_CARDINALITY u16_idx) /\ ~ has_size (i 15) (i_CARDINALITY i16_idx) /\
  ~ has_size (u 8) (i_CARDINALITY u8_idx) /\ ~ has_size (i 7) (i_CARDINALITY i8_idx) /\
  ~ has_size (u 4) (i_CARDINALITY U4_idx) /\ ~ has_size (u 2) (i_CARDINALITY U2_idx).
Proof. exact CARDINALITY_wrong. Qed.
Print Assumptions C39_CARDINALITY_refuted.
(** ... it is one less than that, except for [()], and for i16 and i32 it is the largest [usize] *)
Theorem C39_CARDINALITY_off : forall (B : Build),
  i_CARDINALITY unit_idx = i_card unit_idx /\ i_CARDINALITY u128_idx = (i_card u128_idx - 1)%N /\ i_CARDINALITY i128_idx = (i_card i128_idx - 1)%N /\
  i_CARDINALITY u64_idx = (i_card u64_idx - 1)%N /\ i_CARDINALITY i64_idx = (i_card i64_idx - 1)%N /\
  i_CARDINALITY u32_idx = (i_card u32_idx - 1)%N /\ i_CARDINALITY u16_idx = (i_card u16_idx - 1)%N /\ i_CARDINALITY u8_idx = (i_card u8_idx - 1)%N /\
  i_CARDINALITY i8_idx = (i_card i8_idx - 1)%N /\ i_CARDINALITY U4_idx = (i_card U4_idx - 1)%N /\ i_CARDINALITY U2_idx = (i_card U2_idx - 1)%N /\
  i_CARDINALITY i32_idx = usize_max /\ i_CARDINALITY i16_idx = usize_max.
Proof. exact CARDINALITY_less. Qed.
Print Assumptions C39_CARDINALITY_off.
Example C39_case : i_CARDINALITY u8_idx = 255%N /\ i_CARDINALITY i16_idx = (2 ^ 64 - 1)%N /\ i_CARDINALITY U2_idx = 3%N.
Proof. vm_compute. auto. Qed.

(** ** C37 MaybeBorrowed is transparent: [m], made of [b] by either constructor, compares, dereferences and converts as [b] *)
Theorem C37_transparent : forall B (eq : B -> B -> bool) (clone : B -> B) (b c : B), (forall x, clone x = x) ->
  mb_deref (mb_from_owned b) = b /\ mb_deref (mb_from_ref b) = b /\
  (forall m m', In m [mb_from_owned b; mb_from_ref b] -> In m' [mb_from_owned c; mb_from_ref c] ->
     mb_eq eq m m' = eq b c /\ mb_into_or_clone clone m = b /\ mb_deref (mb_borrow m) = b /\ mb_deref (mb_clone clone m) = b).
Proof.
  intros B eq clone b c Hc. split; [reflexivity|]. split; [reflexivity|].
  intros m m' [<-|[<-|[]]] [<-|[<-|[]]]; cbn; rewrite ?Hc; repeat split.
Qed.
Print Assumptions C37_transparent.
(** ... and for a [Clone] that is not the identity: what is owned is moved without a clone, what is borrowed is cloned once and only when
    taken, a clone of a reference is the reference, and a [borrow] of either is a reference *)
Theorem C37_clones : forall B (clone : B -> B) (b : B),
  mb_into_or_clone clone (mb_from_owned b) = b /\ mb_into_or_clone clone (mb_from_ref b) = clone b /\
  (forall m, In m [mb_from_owned b; mb_from_ref b] -> mb_into_or_clone clone (mb_borrow m) = clone b) /\
  mb_deref (mb_clone clone (mb_from_owned b)) = clone b /\ mb_deref (mb_clone clone (mb_from_ref b)) = b /\
  mb_into_or_clone clone (mb_clone clone (mb_from_owned b)) = clone b /\ mb_into_or_clone clone (mb_clone clone (mb_from_ref b)) = clone b.
Proof. intros B clone b. repeat split. intros m [<-|[<-|[]]]; reflexivity. Qed.
Print Assumptions C37_clones.
Example C37_clones_case : mb_into_or_clone N.succ (mb_from_owned 5%N) = 5%N /\ mb_into_or_clone N.succ (mb_borrow (mb_from_owned 5%N)) = 6%N.
Proof. auto. Qed.
Example C37_case : mb_eq N.eqb (mb_from_owned 5%N) (mb_from_ref 5%N) = true /\ mb_eq N.eqb (mb_from_ref 5%N) (mb_from_ref 6%N) = false.
Proof. auto. Qed.
