(** C31-C33, C35: the bit set, the collections, boxes, and the defect of [Tree::insert].

    Reading guide.  [number a] is the 256-bit number made of two words, [has s n] its bit [n], [how_many p] the number of bytes
    satisfying [p] (BitSpec.v).  [c_run C xs None]: the calls [xs] on a collection, starting with none; [m_run deq xs []]: the same calls on a finite
    map (CollSpec.v).  [VebType], [run], [reachable], [contents] as in PropsMap.v. *)
From Verif Require Import Base Ints Ops Spec Key ByteSet ByteMap Coll Boxed BTree SizedT Tree Markers Laws Lists CollProofs
  KeyProofs Hist Types HistProofs TypesProofs HistCor Concrete BitSpec BitCor CollSpec CollCor BoxCor DefectCor.

(** ** C31 ByteSet masks and counts are exact *)
Theorem C31_masks : forall (k : u 8) n,
  N.testbit (number (mask_lower k)) n = (n <? uval k)%N /\
  N.testbit (number (mask_higher k)) n = ((uval k <? n) && (n <? 256))%N.
Proof. exact (fun k n => conj (mask_lower_num k n) (mask_higher_num k n)). Qed.
Print Assumptions C31_masks.
Theorem C31_lowest : forall (B : Build) s m, has s m = true ->
  exists k, lowest s = Ret k /\ has s (uval k) = true /\ forall n, has s n = true -> (uval k <= n)%N.
Proof. exact @lowest_has. Qed.
Print Assumptions C31_lowest.
Theorem C31_highest : forall (B : Build) s m, has s m = true ->
  exists k, highest s = Ret k /\ has s (uval k) = true /\ forall n, has s n = true -> (n <= uval k)%N.
Proof. exact @highest_has. Qed.
Print Assumptions C31_highest.
Theorem C31_len : forall s m, has s m = true -> bs_len s = Ret (how_many (has s)).
Proof. exact len_has. Qed.
Print Assumptions C31_len.
Theorem C31_count_below : forall s k, count_below s k = how_many (fun n => (n <? uval k)%N && has s n).
Proof. exact count_below_has. Qed.
Print Assumptions C31_count_below.
Theorem C31_bits : forall s (k : u 8) n,
  has (set_bit s k) n = (n =? uval k)%N || has s n /\
  has (unset_bit s k) n = negb (n =? uval k)%N && has s n /\
  is_present s k = has s (uval k).
Proof. exact (fun s k n => conj (set_has s k n) (conj (unset_has s k n) (present_has s k))). Qed.
Print Assumptions C31_bits.
Theorem C31_extensional : forall s t, (forall n, has s n = has t n) -> s = t.
Proof. exact has_ext. Qed.
Print Assumptions C31_extensional.
(** ... the operations on one word, for every word *)
Theorem C31_words : forall n s, (n < 2 ^ 128)%N ->
  count_ones n = N.of_nat (length (filter (fun m => N.testbit n (N.of_nat m)) (seq 0 128))) /\
  (n = 0%N -> trailing_zeros n = 128%N /\ leading_zeros n = 128%N) /\
  (n <> 0%N -> (trailing_zeros n < 128)%N /\ N.testbit n (trailing_zeros n) = true /\ (leading_zeros n < 128)%N /\ N.testbit n (127 - leading_zeros n) = true) /\
  (forall m, N.testbit n m = true -> (trailing_zeros n <= m /\ m + leading_zeros n <= 127)%N) /\
  checked_shr n s = (if (s <? 128)%N then Some (n / 2 ^ s)%N else None) /\
  checked_shl n s = (if (s <? 128)%N then Some ((n * 2 ^ s) mod 2 ^ 128)%N else None).
Proof. exact words_ok. Qed.
Print Assumptions C31_words.
(** ... and a set without a byte, which no call makes: a panic with the checks on, 0 and 255 without *)
Theorem C31_empty : forall (B : Build) s, (forall n, has s n = false) ->
  bs_len s = Panic /\ lowest s = (if dbg then Panic else Ret (wrap 8 0)) /\ highest s = (if dbg then Panic else Ret (wrap 8 255)) /\
  forall k, count_below s k = 0%N.
Proof. exact @empty_ok. Qed.
Print Assumptions C31_empty.
Definition some_bytes : ByteSet := set_bit (set_bit (set_bit (bs_from_monad (b8 200) tt) (b8 127)) (b8 128)) (b8 3).
Example C31_case : has some_bytes 128 = true /\ has some_bytes 129 = false /\
  rmap (@uval 8) (lowest some_bytes) = Ret 3%N /\ rmap (@uval 8) (highest some_bytes) = Ret 200%N /\
  bs_len some_bytes = Ret 4%N /\ count_below some_bytes (b8 128) = 2%N /\ how_many (has some_bytes) = 4%N.
Proof. vm_compute. repeat split. Qed.
Example C31_words_case : let n := (2 ^ 100 + 2 ^ 7)%N in (n < 2 ^ 128)%N /\ count_ones n = 2%N /\ trailing_zeros n = 7%N /\ leading_zeros n = 27%N /\
  checked_shr n 7 = Some (2 ^ 93 + 1)%N /\ checked_shl n 28 = Some (2 ^ 35)%N /\ checked_shl n 128 = None.
Proof. vm_compute. repeat split. Qed.
Example C31_empty_case : (forall n, has (BS (pack 128 0) (pack 128 0)) n = false) /\ from_array (0%N, 0%N) = None.
Proof. split; [intros n; unfold has, number; cbn [words w0 w1 fst snd]; change (uval (pack 128 0)) with 0%N; apply N.bits_0|reflexivity]. Qed.

(** ** C32 Every TreeCollection is a finite map of trees *)
Theorem C32_finite_map : forall B : Build, dbg (Build := B) = true -> forall Lo V (Tr : VebOps Lo V) Hi C (CT : CollType Tr Hi C) (deq : Hi -> Hi -> bool)
  (Hdeq : forall a b, deq a b = true <-> a = b) xs,
  match m_run deq xs [] with
  | Ret (m, os) => exists oc, c_run C xs None = Ret (oc, os) /\ (oc = None <-> m = [])
  | Panic => c_run C xs None = Panic
  end.
Proof. exact (fun B Hd Lo V Tr Hi C CT deq Hdeq xs => coll_finite_map (coll_laws CT) deq Hdeq (coll_panics Hd CT) xs). Qed.
Print Assumptions C32_finite_map.
(** the specification itself, on a history that fills, overwrites, drops and empties; closures that panic make both panic *)
Definition some_calls : list (cop (u 8) (M8 N)) :=
  [CGet (b8 1); CCreate (b8 9) (v_from_monad (M8 N) (b8 5) 50%N); CInsert (b8 2) (b8 6, 60%N); CInsert (b8 9) (b8 7, 70%N);
   CInsert (b8 9) (b8 7, 71%N); CRemove (b8 9) (v_remove_min (M8 N)); CMaybe (b8 3) (fun t => v_remove (M8 N) t (b8 6));
   CMaybe (b8 2) (fun t => v_remove (M8 N) t (b8 0)); CMaybe (b8 2) (fun t => v_remove (M8 N) t (b8 6)); CRemove (b8 9) (v_remove_max (M8 N))].
Definition cshow (o : cout (u 8) (M8 N)) : list N :=
  match o with
  | COGone => [0] | CODone => [1] | COTree _ => [2]
  | COInsert (Ok h) => [3; uval h]
  | COInsert (Err (h, Some (lo, v))) => [4; uval h; uval lo; v]
  | COInsert (Err (h, None)) => [5; uval h]
  | CORemoved None (lo, v) => [6; uval lo; v]
  | CORemoved (Some b) (lo, v) => [7; if b then 1 else 0; uval lo; v]
  | COKept => [8]
  end%N.
Example C32_case :
  rmap (fun p => map cshow (snd p)) (m_run u_eqb some_calls []) =
    Ret [[0]; [1]; [3; 2]; [5; 9]; [4; 9; 7; 70]; [7; 0; 5; 50]; [8]; [8]; [7; 1; 6; 60]; [6; 7; 71]]%N /\
  match m_run u_eqb [CCreate (b8 9) (v_from_monad (M8 N) (b8 5) 50%N); CRemove (b8 8) (v_remove_min (M8 N))] [] with
  | Panic => true | _ => false end = true.
Proof. split; vm_compute; reflexivity. Qed.

(** ** C33 Boxing changes nothing *)
Theorem C33_tree : forall K V (O : VebOps K V) cs ot,
  run (Box_ops O) cs (omap mkbox ot) = rmap (fun p => (omap mkbox (fst p), snd p)) (run O cs ot).
Proof. exact (fun K V O cs ot => box_run O cs ot). Qed.
Print Assumptions C33_tree.
Theorem C33_len_hint : forall K V (O : VebOps K V) t, v_len_hint (Box_ops O) (mkbox t) = v_len_hint O t.
Proof. reflexivity. Qed.
Print Assumptions C33_len_hint.
Theorem C33_collection : forall Hi Lo V (Tr : VebOps Lo V) (C : CollOps Hi Lo V Tr) xs oc,
  c_run (Box_coll C) xs (omap mkbox oc) = rmap (fun p => (omap mkbox (fst p), snd p)) (c_run C xs oc).
Proof. exact (fun Hi Lo V Tr C xs oc => box_crun C xs oc). Qed.
Print Assumptions C33_collection.
Example C33_case : map show (answers (run (Box_ops (H32 false N)) wild None)) = map show (answers (run (H32 false N) wild None)) /\
  length (answers (run (Box_ops (H32 false N)) wild None)) = 18.
Proof. split; vm_compute; reflexivity. Qed.

(** ** C35 Inserting below the minimum misplaces the maximum *)
Theorem C35_misplaced : forall (B : Build) K Hi Lo V (ko : KeyOps K Hi Lo) (KL : KeyLaws ko) S Tr C
  (TS : VebType false Hi unit (hi_cmp ko) S) (TT : VebType false Lo V (lo_cmp ko) Tr) (CT : CollType Tr Hi C),
  let O := Tree_ops false ko S Tr C in
  forall t d k v p q, reachable O t -> contents O t d -> (N.of_nat (length d) < usize_max)%N ->
  v_min_val O t = Ret p -> v_max_val O t = Ret q -> k_cmp ko (fst p) (fst q) = Lt -> k_cmp ko k (fst p) = Lt ->
  exists t' r d', v_insert O t k v = Ret (t', r) /\ v_min_val O t' = Ret (k, v) /\ v_max_val O t' = Ret p /\
    v_successor O t' (fst p) = Ret None /\ contents O t' d' /\ In q d'.
Proof.
  exact (fun B K Hi Lo V ko KL S Tr C TS TT CT t d k v p q =>
    below_min KL (type_laws TS) (type_laws TT) (coll_laws CT) t d k v p q).
Qed.
Print Assumptions C35_misplaced.
Example C35_case : reachable (H32 false N) tame_tree /\
  match drain (v_remove_min (H32 false N)) 10 (Some tame_tree) with Ret (None, d) => length d | _ => 0 end = 5 /\
  rmap (fun p => (uval (fst p), snd p)) (v_min_val (H32 false N) tame_tree) = Ret (70000, 10)%N /\
  rmap (fun p => (uval (fst p), snd p)) (v_max_val (H32 false N) tame_tree) = Ret (200001, 8)%N /\
  u_cmp (b32 70000) (b32 200001) = Lt /\ u_cmp (b32 69999) (b32 70000) = Lt.
Proof.
  split; [|vm_compute; repeat split]. apply (reachable_ex tame).
  - apply tree_of_ok. vm_compute. reflexivity.
  - vm_compute. reflexivity.
Qed.
