(** C61: what a key type must satisfy.

    [KeyLaws ko] (Laws.v): the three orders are total with equality as identity, splitting and joining gives the key back, both splits
    agree, and keys are ordered as their halves are, high half first.  [TreeContract], [CollContract]: the parts behave as a sorted list
    and a finite map (Open.v).  All theorems hold with and without debug assertions ([B : Build]), for [Tree::insert] as it is
    ([fixed = false]) and corrected ([fixed = true]). *)
From Verif Require Import Base Ints Ops Spec Key ByteSet ByteMap Coll BTree Tree Laws Lists CollProofs KeyProofs KeySpec Hist CollSpec Types HistProofs
  TypesProofs HistCor Concrete Open OpenCor Fits FitsCor LawNeed.
From Coq Require Import ZArith Lia.

(** ** C61 The laws asked of keys are the ones the trees need *)
(** Parts that keep their contracts, and keys of any order without a first or last key: the laws hold if and only if [Tree] behaves as a
    sorted map on all histories of ascending insertions.  [v] is any value. *)
Theorem C61_exactly : forall (B : Build) fixed K Hi Lo V (ko : KeyOps K Hi Lo) (S : VebOps Hi unit) (Tr : VebOps Lo V) (C : CollOps Hi Lo V Tr) deq,
  OrdLaws (k_cmp ko) -> OrdLaws (hi_cmp ko) -> OrdLaws (lo_cmp ko) -> (forall a b, deq a b = true <-> a = b) ->
  TreeContract (hi_cmp ko) S -> TreeContract (lo_cmp ko) Tr -> CollContract deq C -> V ->
  (forall k, exists a b, k_cmp ko a k = Lt /\ k_cmp ko k b = Lt) ->
  (KeyLaws ko <-> forall cs, admissible (k_cmp ko) (adm_ascending (k_cmp ko)) cs [] ->
    exists ot, run (Tree_ops fixed ko S Tr C) cs None = Ret (ot, snd (sp_run (k_cmp ko) cs []))).
Proof. exact (fun B fixed K Hi Lo V => @laws_exactly B fixed K Hi Lo V). Qed.
Print Assumptions C61_exactly.
(** the corrected [Tree], on all histories *)
Theorem C61_exactly_fixed : forall (B : Build) K Hi Lo V (ko : KeyOps K Hi Lo) (S : VebOps Hi unit) (Tr : VebOps Lo V) (C : CollOps Hi Lo V Tr) deq,
  OrdLaws (k_cmp ko) -> OrdLaws (hi_cmp ko) -> OrdLaws (lo_cmp ko) -> (forall a b, deq a b = true <-> a = b) ->
  TreeContract (hi_cmp ko) S -> TreeContract (lo_cmp ko) Tr -> CollContract deq C -> V ->
  (forall k, exists a b, k_cmp ko a k = Lt /\ k_cmp ko k b = Lt) ->
  (KeyLaws ko <-> forall cs, admissible (k_cmp ko) adm_any cs [] ->
    exists ot, run (Tree_ops true ko S Tr C) cs None = Ret (ot, snd (sp_run (k_cmp ko) cs []))).
Proof. exact (fun B K Hi Lo V => @laws_exactly_fixed B K Hi Lo V). Qed.
Print Assumptions C61_exactly_fixed.
(** Any key type, with a first or last key or not: a [Tree] that is a sorted map on ascending insertions gets back every key with one on
    either side, orders such keys by their halves, and never takes another key for one of them. *)
Theorem C61_needed : forall (B : Build) fixed K Hi Lo V (ko : KeyOps K Hi Lo) (S : VebOps Hi unit) (Tr : VebOps Lo V) (C : CollOps Hi Lo V Tr) deq,
  OrdLaws (k_cmp ko) -> OrdLaws (hi_cmp ko) -> OrdLaws (lo_cmp ko) -> (forall a b, deq a b = true <-> a = b) ->
  TreeContract (hi_cmp ko) S -> TreeContract (lo_cmp ko) Tr -> CollContract deq C -> V ->
  (forall cs, admissible (k_cmp ko) (adm_ascending (k_cmp ko)) cs [] ->
    exists ot, run (Tree_ops fixed ko S Tr C) cs None = Ret (ot, snd (sp_run (k_cmp ko) cs []))) ->
  forall a k b, k_cmp ko a k = Lt -> k_cmp ko k b = Lt ->
    k_join ko (fst (k_split_val ko k)) (snd (k_split_val ko k)) = k /\
    k_split_ref ko k = k_split_val ko k /\
    (forall q, k_cmp ko a q = Lt -> k_cmp ko q b = Lt ->
      k_cmp ko q k = match hi_cmp ko (fst (k_split_ref ko q)) (fst (k_split_val ko k)) with
                     | Eq => lo_cmp ko (snd (k_split_ref ko q)) (snd (k_split_val ko k))
                     | c => c
                     end) /\
    (forall q, k_split_ref ko q = k_split_val ko k -> q = a \/ q = k \/ q = b).
Proof. exact (fun B fixed K Hi Lo V => @laws_needed B fixed K Hi Lo V). Qed.
Print Assumptions C61_needed.
(** A pair of halves need not come from a key: the laws do not ask [split] of [join] to give the halves back.  The keys of src/key.rs do so
    (C26_split_join).  The decimal digits of an integer: *)
Theorem C61_not_onto : exists K Hi Lo (ko : KeyOps K Hi Lo), KeyLaws ko /\ exists h l, k_split_val ko (k_join ko h l) <> (h, l).
Proof. exact not_onto. Qed.
Print Assumptions C61_not_onto.
(** An array of trees is a finite map only if [index] is below the cardinality and tells keys apart; a hash map if and only if [==] is identity *)
Theorem C61_array : forall (B : Build) Hi Lo V (ix : IdxOps Hi) (Tr : VebOps Lo V) deq, (forall a b, deq a b = true <-> a = b) -> vt Tr ->
  CollContract deq (Array_coll ix Tr) -> (forall h, (i_index ix h < i_card ix mod 2 ^ usize_bits)%N) /\ (forall a b, i_index ix a = i_index ix b -> a = b).
Proof. exact (fun B Hi Lo V => @array_needs B Hi Lo V). Qed.
Print Assumptions C61_array.
(** so an array whose keys are i8, i16 or i32 is none *)
Theorem C61_array_signed : forall (B : Build) h Lo V (ix : IdxOps (i h)), sized_signed ix -> forall (Tr : VebOps Lo V) deq,
  (forall a b, deq a b = true <-> a = b) -> vt Tr -> CollContract deq (Array_coll ix Tr) -> False.
Proof. exact (fun B h Lo V => @array_signed B h Lo V). Qed.
Print Assumptions C61_array_signed.
Theorem C61_hash : forall (B : Build) Hi Lo V (eq : Hi -> Hi -> bool) (Tr : VebOps Lo V) deq, (forall a b, deq a b = true <-> a = b) -> vt Tr ->
  ((forall a b, eq a b = true <-> a = b) <-> inhabited (CollContract deq (Hash_coll eq Tr))).
Proof. exact (fun B Hi Lo V => @hash_needs B Hi Lo V). Qed.
Print Assumptions C61_hash.

(** The hypotheses hold of integers with decimal digits over a BTreeSet, ByteMaps and a HashMap, and of the digits swapped; the first is a sorted
    map, the second answers 21 where 12 is next. *)
Definition Dec (ko : KeyOps Z Z (u 8)) : VebOps Z N := Tree_ops false ko (BTree_ops unit Z.compare) (ByteMap_ops N) (Hash_coll Z.eqb (ByteMap_ops N)).
Definition showz (o : out Z N) : option (Z * N) + bool := match o with OP p => inl p | OB b => inr b end.
Definition digits : list (op Z N) := [Insert (-7)%Z 1%N; Insert 1%Z 2%N; Insert 12%Z 3%N; Insert 21%Z 4%N; Succ 3%Z; Pred 12%Z; Find 2%Z; Remove 1%Z; Succ (-7)%Z].
Example C61_case : OrdLaws Z.compare /\ OrdLaws (@u_cmp 8) /\ inhabited (TreeContract Z.compare (BTree_ops unit Z.compare)) /\
  inhabited (TreeContract u_cmp (ByteMap_ops N)) /\ inhabited (CollContract Z.eqb (Hash_coll Z.eqb (ByteMap_ops N))) /\
  (forall k, exists a b, k_cmp dec_key a k = Lt /\ k_cmp dec_key k b = Lt) /\
  admissible Z.compare (adm_ascending Z.compare) digits [] /\
  map showz (answers (run (Dec dec_key) digits None)) =
    [inl None; inl None; inl None; inl None; inl (Some (12%Z, 3%N)); inl (Some (1%Z, 2%N)); inl None; inl (Some (1%Z, 2%N)); inl (Some (12%Z, 3%N))] /\
  map showz (answers (run (Dec swapped_key) digits None)) =
    [inl None; inl None; inl None; inl None; inl (Some (21%Z, 4%N)); inl (Some (1%Z, 2%N)); inl None; inl (Some (1%Z, 2%N)); inl (Some (12%Z, 3%N))].
Proof.
  split; [exact Z_laws|]. split; [apply u_cmp_laws|]. split; [exact (open_contract (OT_known false _ _ _ _ (VT_BTree false Z unit Z.compare Z_laws)) (or_introl eq_refl))|].
  split; [exact (open_contract (OT_known false _ _ _ _ (VT_ByteMap false N)) (or_introl eq_refl))|].
  split; [exact (coll_contract (CT_Hash _ _ Z.eqb Z.eqb_eq) Z.eqb Z.eqb_eq)|].
  split; [intros k; exists (k - 1)%Z, (k + 1)%Z; cbn; rewrite !Z.compare_lt_iff; lia|].
  split; [apply (admissible_b_ok Z.compare (ascending_b Z.compare)); [intros; apply (ascending_b_ok Z.compare Z_laws); assumption|vm_compute; reflexivity]|].
  split; vm_compute; reflexivity.
Qed.
Example C61_array_case : inhabited (CollContract u_eqb (Array_coll u8_idx (ByteMap_ops N))) /\ (forall a b : u 8, u_eqb a b = true <-> a = b) /\
  sized_signed i16_idx /\ i_card i16_idx = 65536%N /\ i_index i16_idx (wrapi 15 5) = 18446744073709518853%N.
Proof.
  split; [exact (coll_contract (CT_Array _ _ u8_idx u8_idx_laws) u_eqb u_eqb_eq)|]. split; [exact u_eqb_eq|].
  split; [constructor; reflexivity|]. split; vm_compute; reflexivity.
Qed.
