(** C55: [ByteMap] over a list written by a user of the library.

    [ListContract L], [TreeListContract L]: the dictionary [L] of a list behaves as a non-empty sequence at every position in range
    (GenMap.v).  [ByteMapOf_ops L], [ByteMapOf_coll L]: [ByteMap] over it, as a tree and as a collection.  [TreeContract],
    [CollContract]: see C54.  All theorems hold with and without debug assertions ([B : Build]). *)
From Verif Require Import Base Ints Ops Spec Key ByteSet ByteMap Coll Boxed BTree SizedT Tree Markers Laws Lists CollProofs
  KeyProofs Hist CollSpec Types HistProofs TypesProofs HistCor WrapProofs Concrete Iter IterSpec IterProofs Open OpenCor
  GenMap GenMapProofs GenMapCor.

(** ** C55 [ByteMap] is correct over any correct list *)
Theorem C55_tree : forall (B : Build) V (L : ListOps V), ListContract L -> inhabited (TreeContract u_cmp (ByteMapOf_ops L)).
Proof. exact (fun B V L => @gen_tree_contract B V L). Qed.
Print Assumptions C55_tree.
Theorem C55_collection : forall (B : Build) Lo V (Tr : VebOps Lo V) (L : TreeListOps Tr) deq, TreeListContract L ->
  (forall a b, deq a b = true <-> a = b) -> inhabited (CollContract deq (ByteMapOf_coll L)).
Proof. exact (fun B Lo V Tr L => @gen_coll_contract B Lo V Tr L). Qed.
Print Assumptions C55_collection.
(** [VecDeque] is such a list, and the [ByteMap] of the other files is the one over [VecDeque] *)
Theorem C55_vecdeque : forall (B : Build), (forall V, inhabited (ListContract (VecDeque_list V)) /\ ByteMapOf_ops (VecDeque_list V) = ByteMap_ops V) /\
  (forall Lo V (Tr : VebOps Lo V), inhabited (TreeListContract (VecDeque_trees Tr)) /\ ByteMapOf_coll (VecDeque_trees Tr) = ByteMap_coll Tr).
Proof.
  exact (fun B => conj (fun V => conj (inhabits (VecDeque_contract V)) (gen_vecdeque V))
    (fun Lo V Tr => conj (inhabits (VecDeque_tree_contract Tr)) (gen_vecdeque_coll Lo V Tr))).
Qed.
Print Assumptions C55_vecdeque.
(** every history on a map over such a list answers as the sorted list does; none panics *)
Theorem C55_sorted_map : forall (B : Build) V (L : ListOps V) cs, ListContract L -> admissible u_cmp adm_any cs [] ->
  exists ot, run (ByteMapOf_ops L) cs None = Ret (ot, snd (sp_run u_cmp cs [])) /\ (ot = None <-> fst (sp_run u_cmp cs []) = []).
Proof. exact (fun B V L cs LC => @gen_sorted_map B V L cs LC). Qed.
Print Assumptions C55_sorted_map.
(** so do trees all of whose parts are byte maps over such lists: with [Tree::insert] corrected on every history, as it is while no
    insertion goes below the minimum *)
Theorem C55_tree_over_lists : forall (B : Build) (fixed : bool) V (LS : ListOps unit) (LV : ListOps V) (LT : TreeListOps (ByteMapOf_ops LV)) cs,
  ListContract LS -> ListContract LV -> TreeListContract LT ->
  admissible u_cmp (if fixed then adm_any else adm_above_min u_cmp) cs [] ->
  exists ot, run (Tree_ops fixed u16_key (ByteMapOf_ops LS) (ByteMapOf_ops LV) (ByteMapOf_coll LT)) cs None = Ret (ot, snd (sp_run u_cmp cs [])) /\
    (ot = None <-> fst (sp_run u_cmp cs []) = []).
Proof. exact (fun B fixed V LS LV LT cs => @gen_tree_over B fixed V LS LV LT cs). Qed.
Print Assumptions C55_tree_over_lists.

(** *** A map of bytes, and a map of 16-bit keys, over counted stacks *)
Definition SM8 (V : Type) : VebOps (u 8) V := ByteMapOf_ops (Stack_list V).
Definition SM16 (fixed : bool) (V : Type) : VebOps (u 16) V :=
  Tree_ops fixed u16_key (SM8 unit) (SM8 V) (ByteMapOf_coll (Stack_trees (SM8 V))).
Definition wild8 : list (op (u 8) N) :=
  [Insert (b8 200) 1%N; Insert (b8 7) 2%N; Insert (b8 90) 3%N; Insert (b8 7) 4%N; Min; Max; Pred (b8 90); Succ (b8 90); Find (b8 91);
   FindMut (b8 90) 5%N; MaxMut 6%N; MinMut 7%N; PredMut (b8 201) 8%N; SuccMut (b8 8) 9%N; IsMonad; IntoMonad; Remove (b8 91); Remove (b8 90); RemoveMax;
   IsMonad; Insert (b8 0) 10%N; RemoveMin; Insert (b8 255) 11%N; Remove (b8 7); IntoMonad; Insert (b8 1) 12%N; RemoveMin].
Definition wild16 : list (op (u 16) N) :=
  [Insert (b16 513) 1%N; Insert (b16 700) 2%N; Insert (b16 30000) 3%N; Insert (b16 515) 4%N; Insert (b16 1000) 5%N; Min; Max; Pred (b16 700); Succ (b16 700);
   FindMut (b16 515) 6%N; Remove (b16 700); Remove (b16 700); Insert (b16 30001) 7%N; Remove (b16 30000); RemoveMax; RemoveMin; Succ (b16 0); RemoveMin; RemoveMin].
Example C55_case : inhabited (ListContract (Stack_list N)) /\ inhabited (ListContract (Stack_list unit)) /\
  inhabited (TreeListContract (Stack_trees (SM8 N))) /\ admissible u_cmp adm_any wild8 [] /\ admissible u_cmp adm_any wild16 [] /\
  admissible u_cmp (adm_above_min u_cmp) wild16 [] /\
  map show (answers (run (SM8 N) wild8 None)) = map show (snd (sp_run u_cmp wild8 [])) /\
  map show (answers (run (SM16 false N) wild16 None)) = map show (snd (sp_run u_cmp wild16 [])).
Proof.
  split; [exact (inhabits (Stack_contract N))|]. split; [exact (inhabits (Stack_contract unit))|].
  split; [exact (inhabits (Stack_tree_contract _))|].
  split; [apply (admissible_b_ok u_cmp (fun _ _ => true)); [intros; exact I|vm_compute; reflexivity]|].
  split; [apply (admissible_b_ok u_cmp (fun _ _ => true)); [intros; exact I|vm_compute; reflexivity]|].
  split; [apply (admissible_b_ok u_cmp (above_min_b u_cmp)); [intros; apply (above_min_b_ok u_cmp); auto|vm_compute; reflexivity]|].
  split; vm_compute; reflexivity.
Qed.
(** without the clause on what [remove_value] leaves it fails: a list that is given back empty makes [remove_min] panic
    (src/bitset/map/mod.rs 283-287) and leaves a map that can not be used *)
Definition leaves_empty (V : Type) : ListOps V :=
  {| lty := list V; l_from_monad := l_from_monad (VecDeque_list V); l_len := l_len (VecDeque_list V); l_get := l_get (VecDeque_list V);
     l_get_mut := l_get_mut (VecDeque_list V); l_insert_value := l_insert_value (VecDeque_list V);
     l_remove_value := fun l n => let (o, l') := vd_remove l n in v <- expect o ;; Ret (Some l', v) |}.
Theorem C55_any_list_refuted : exists (L : ListOps N) cs, admissible u_cmp (adm_ascending u_cmp) cs [] /\ run (ByteMapOf_ops L) cs None = Panic.
Proof.
  exists (leaves_empty N), [Insert (b8 3) 1%N; RemoveMin]. split.
  - apply (admissible_b_ok u_cmp (ascending_b u_cmp)); [intros; apply (ascending_b_ok u_cmp (u_cmp_laws _)); auto|vm_compute; reflexivity].
  - vm_compute. reflexivity.
Qed.
Print Assumptions C55_any_list_refuted.
