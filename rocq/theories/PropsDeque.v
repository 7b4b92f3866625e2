(** C74: [ByteMap] over any queue, and the library's types with all their containers exchanged.

    [DequeContract D]: the dictionary [D] of a double-ended queue is a sequence, its operations at positions in range what the documentation of
    [VecDeque] and [vec_entry] says (DequeGen.v).  [DequeList D], [DequeTrees Tr D]: the library's implementations of [List] and [TreeList] for
    [VecDeque] over it.  [exchanged B' hf mf df T]: the type [T] in the build [B'] with [hf] for its hash maps (C72), [mf] for its ordered maps (C73)
    and [df] for its queues.  [ListContract], [TreeListContract]: see C55.  [TreeContract], [CollContract]: see C54. *)
From Verif Require Import Base Ints Ops Spec Key ByteSet ByteMap Coll Boxed BTree SizedT Tree Markers Laws Lists CollProofs
  KeyProofs Hist CollSpec Types HistProofs TypesProofs HistCor WrapProofs Concrete Iter IterSpec IterProofs Fits FitsCor Rel Open OpenCor HashGen HashGenCor
  MapGen MapGenCor GenMap GenMapProofs GenMapCor DequeGen DequeGenCor PropsSim PropsHash PropsOrdered.

(** ** C74 The implementations for [VecDeque] are right over any correct queue *)
Theorem C74_list : forall V (D : DequeOps V), DequeContract D -> inhabited (ListContract (DequeList D)).
Proof. exact (fun V D DC => inhabits (deque_list DC)). Qed.
Print Assumptions C74_list.
Theorem C74_trees : forall (B : Build) Lo V (Tr : VebOps Lo V) (D : DequeOps (vt Tr)), DequeContract D -> inhabited (TreeListContract (DequeTrees Tr D)).
Proof. exact (fun B Lo V Tr D DC => inhabits (deque_trees Tr DC)). Qed.
Print Assumptions C74_trees.
(** every history on a map of bytes gets the answers of the sorted list; the set left has its keys and the queue left its values, in order *)
Theorem C74_history : forall (B : Build) V (D : DequeOps V) (DC : DequeContract D) cs, admissible u_cmp (@adm_any (u 8) V) cs [] ->
  let l := fst (sp_run u_cmp cs []) in
  exists ot, run (ByteMapOf_ops (DequeList D)) cs None = Ret (ot, snd (sp_run u_cmp cs [])) /\
    match ot with
    | Some m => dk_inv DC (bm_list m) /\ dk_abs DC (bm_list m) = map snd l /\ (forall k, is_present (bm_set m) k = true <-> In k (keys l)) /\ l <> []
    | None => l = []
    end.
Proof. exact (fun B V D DC cs => @deque_history B V D DC cs). Qed.
Print Assumptions C74_history.
(** the list of ByteMap.v is such a queue and the two implementations over it are those of ByteMap.v *)
Theorem C74_vecdeque : forall (B : Build) V Lo W (Tr : VebOps Lo W),
  let L := DequeList (List_deque V) in let L' := VecDeque_list V in let T := DequeTrees Tr (List_deque (vt Tr)) in let T' := VecDeque_trees Tr in
  inhabited (DequeContract (List_deque V)) /\
  ((forall v, l_from_monad L v = l_from_monad L' v) /\ (forall l, l_len L l = l_len L' l) /\ (forall l i, l_get L l i = l_get L' l i) /\
   (forall l i, l_get_mut L l i = l_get_mut L' l i) /\ (forall l i v, l_insert_value L l i v = l_insert_value L' l i v) /\
   (forall l i, l_remove_value L l i = l_remove_value L' l i)) /\
  (forall t, tl_from T t = tl_from T' t) /\ (forall l i, tl_get T l i = tl_get T' l i) /\ (forall l i, tl_get_mut T l i = tl_get_mut T' l i) /\
  (forall l i t, tl_insert_tree T l i t = tl_insert_tree T' l i t) /\ (forall l i f, tl_remove T l i f = tl_remove T' l i f) /\
  (forall l i f, tl_maybe_remove T l i f = tl_maybe_remove T' l i f).
Proof. exact (fun B V Lo W Tr => conj (inhabits (List_deque_contract V)) (@list_deque_same B V Lo W Tr)). Qed.
Print Assumptions C74_vecdeque.
(** so is a ring buffer, however it grows and whichever side it moves, and a list that does as it likes out of range *)
Theorem C74_ring : forall A (plan : Ring A -> nat * nat) (first : A -> nat * nat) (open shut : Ring A -> nat -> bool),
  exists DC : DequeContract (Ring_deque plan first open shut), forall r, dk_abs DC r = rg_list r.
Proof. exact (fun A plan first open shut => ex_intro _ (Ring_contract plan first open shut) (fun r => eq_refl)). Qed.
Print Assumptions C74_ring.
Theorem C74_loose : forall A, inhabited (DequeContract (Loose_deque A)).
Proof. exact (fun A => inhabits (Loose_contract A)). Qed.
Print Assumptions C74_loose.

(** ** Every history, the insertion defect included, gets the same answers whatever the hash maps, ordered maps, queues and builds *)
Theorem C74_same : forall (hf hf' : HashFamily),
  (forall Hi T eq, (forall a b : Hi, eq a b = true <-> a = b) -> HashContract (hf Hi T eq)) ->
  (forall Hi T eq, (forall a b : Hi, eq a b = true <-> a = b) -> HashContract (hf' Hi T eq)) ->
  forall (mf mf' : MapFamily),
  (forall K V (cmp : K -> K -> comparison), OrdLaws cmp -> MapContract cmp (mf K V cmp)) ->
  (forall K V (cmp : K -> K -> comparison), OrdLaws cmp -> MapContract cmp (mf' K V cmp)) ->
  forall (df df' : DequeFamily), (forall A, DequeContract (df A)) -> (forall A, DequeContract (df' A)) ->
  forall B B1 B2 : Build, dbg (Build := B) = true -> (usize_bits (B := B) <= usize_bits (B := B1))%N -> (usize_bits (B := B) <= usize_bits (B := B2))%N ->
  forall fixed K V cmp (O : VebOps K V) (T : @VebType B fixed K V cmp O) cs, (N.of_nat (length cs) <= usize_max (B := B))%N ->
  exists ot ot' os, run (exchanged B1 hf mf df T) cs None = Ret (ot, os) /\ run (exchanged B2 hf' mf' df' T) cs None = Ret (ot', os) /\ (ot = None <-> ot' = None).
Proof. exact exchanged_two. Qed.
Print Assumptions C74_same.
(** ... the answers the type of the other files gives *)
Theorem C74_library : forall (hf : HashFamily) (mf : MapFamily) (df : DequeFamily),
  (forall Hi T eq, (forall a b : Hi, eq a b = true <-> a = b) -> HashContract (hf Hi T eq)) ->
  (forall K V (cmp : K -> K -> comparison), OrdLaws cmp -> MapContract cmp (mf K V cmp)) -> (forall A, DequeContract (df A)) ->
  forall B B' : Build, dbg (Build := B) = true -> (usize_bits (B := B) <= usize_bits (B := B'))%N ->
  forall fixed K V cmp (O : VebOps K V) (T : @VebType B fixed K V cmp O) cs ot os, run O cs None = Ret (ot, os) ->
  exists ot', run (exchanged B' hf mf df T) cs None = Ret (ot', os) /\ (ot = None <-> ot' = None).
Proof. exact (fun hf mf df FC MC DC B B' Hd Hw fixed K V cmp O T => exchanged_run hf FC mf MC df DC B' Hd Hw T). Qed.
Print Assumptions C74_library.
(** ... and their iterators, called from the two ends in any order, give the same pairs *)
Theorem C74_iter : forall (hf : HashFamily) (mf : MapFamily) (df : DequeFamily),
  (forall Hi T eq, (forall a b : Hi, eq a b = true <-> a = b) -> HashContract (hf Hi T eq)) ->
  (forall K V (cmp : K -> K -> comparison), OrdLaws cmp -> MapContract cmp (mf K V cmp)) -> (forall A, DequeContract (df A)) ->
  forall B B' : Build, dbg (Build := B) = true -> (usize_bits (B := B) <= usize_bits (B := B'))%N ->
  forall fixed K V cmp (O : VebOps K V) (T : @VebType B fixed K V cmp O) cs t os t' os' dirs it ps,
  run O cs None = Ret (Some t, os) -> run (exchanged B' hf mf df T) cs None = Ret (Some t', os') ->
  it_run (B := B) O (eqb cmp) t dirs it_new = Ret (it, ps) -> it_run (B := B') (exchanged B' hf mf df T) (eqb cmp) t' dirs it_new = Ret (it, ps).
Proof.
  exact (fun hf mf df FC MC DC B B' Hd Hw fixed K V cmp O T cs t os t' os' dirs it ps =>
    exchanged_iter hf FC mf MC df DC B' Hd Hw T cs t os t' os' dirs it ps (eqb cmp)).
Qed.
Print Assumptions C74_iter.
(** so they are sorted maps wherever the library's types are (C49) *)
Theorem C74_sorted_map : forall (hf : HashFamily) (mf : MapFamily) (df : DequeFamily),
  (forall Hi T eq, (forall a b : Hi, eq a b = true <-> a = b) -> HashContract (hf Hi T eq)) ->
  (forall K V (cmp : K -> K -> comparison), OrdLaws cmp -> MapContract cmp (mf K V cmp)) -> (forall A, DequeContract (df A)) ->
  forall B B' : Build, dbg (Build := B) = true -> (usize_bits (B := B) <= usize_bits (B := B'))%N ->
  forall fixed K V cmp (O : VebOps K V) (T : @VebType B fixed K V cmp O) adm cs, allowed T adm -> admissible (B := B) cmp adm cs [] ->
  exists ot, run (exchanged B' hf mf df T) cs None = Ret (ot, snd (sp_run cmp cs [])) /\ (ot = None <-> fst (sp_run cmp cs []) = []).
Proof. exact (fun hf mf df FC MC DC B B' Hd Hw fixed K V cmp O T => exchanged_sorted hf FC mf MC df DC B' Hd Hw T). Qed.
Print Assumptions C74_sorted_map.

(** *** A ring that wraps around, grows while wrapped, and moves either side *)
Definition ring8 : VebOps (u 8) N := ByteMapOf_ops (DequeList (std_ring N)).
Definition ring_of (r : res (option (vt ring8) * list (out (u 8) N))) : list (option N) * nat * nat :=
  match r with Ret (Some m, _) => (rg_buf (bm_list m), rg_head (bm_list m), rg_len (bm_list m)) | _ => ([], 0, 0) end.
Definition round8 : list (op (u 8) N) :=
  [Insert (b8 50) 5%N; Insert (b8 60) 6%N; Insert (b8 70) 7%N; Insert (b8 40) 4%N; Insert (b8 55) 9%N; Remove (b8 60); Remove (b8 40)].
Definition down8 : list (op (u 8) N) := [Insert (b8 50) 5%N; Insert (b8 40) 4%N; Insert (b8 30) 3%N; Insert (b8 35) 9%N; Insert (b8 20) 2%N].
Example C74_case : inhabited (DequeContract (std_ring N)) /\ admissible u_cmp (@adm_any (u 8) N) busy8 [] /\
  map show (answers (run ring8 busy8 None)) = map show (snd (sp_run u_cmp busy8 [])) /\
  map (fun n => ring_of (run ring8 (firstn n round8) None)) [2; 4; 5; 6; 7] =
    [([Some 5; Some 6; None; None]%N, 0, 2); ([Some 5; Some 6; Some 7; Some 4]%N, 3, 4);
     ([Some 9; Some 6; Some 7; None; None; None; Some 4; Some 5]%N, 6, 5);
     ([Some 9; Some 7; Some 7; None; None; None; Some 4; Some 5]%N, 6, 4);
     ([Some 9; Some 7; Some 7; None; None; None; Some 4; Some 5]%N, 7, 3)] /\
  map (fun n => ring_of (run ring8 (firstn n down8) None)) [4; 5] =
    [([Some 5; Some 3; Some 9; Some 4]%N, 1, 4); ([Some 2; Some 3; Some 9; Some 4; Some 5; None; None; None]%N, 0, 5)].
Proof.
  split; [exact (inhabits (Ring_contract _ _ _ _))|]. split; [apply (admissible_b_ok u_cmp (fun _ _ => true)); [intros; exact I|vm_compute; reflexivity]|].
  vm_compute. repeat split.
Qed.
(** keys of 32 bits: an ordered map of summaries, and a hash map of trees over byte maps in a byte map *)
Definition Q16 (fixed : bool) : VebOps (u 16) N := Tree_ops fixed u16_key ByteSet_ops (ByteMap_ops N) (ByteMap_coll (ByteMap_ops N)).
Definition TQ16 (fixed : bool) : VebType fixed (u 16) N u_cmp (Q16 fixed) :=
  VT_Tree fixed _ _ _ _ u16_key u16_laws _ _ _ (VT_ByteSet fixed) (VT_ByteMap fixed N) (CT_ByteMap _).
Definition Q32 (fixed : bool) : VebOps (u 32) N := Tree_ops fixed u32_key (BTree_ops unit u_cmp) (Q16 fixed) (Hash_coll u_eqb (Q16 fixed)).
Definition TQ32 (fixed : bool) : VebType fixed (u 32) N u_cmp (Q32 fixed) :=
  VT_Tree fixed _ _ _ _ u32_key u32_laws _ _ _ (VT_BTree fixed _ unit u_cmp (u_cmp_laws 16)) (TQ16 fixed) (CT_Hash _ _ u_eqb u_eqb_eq).
(** many keys with the same high half, some below the least *)
Definition deep32 : list (op (u 32) N) :=
  [Insert (b32 70000) 1%N; Insert (b32 70500) 2%N; Insert (b32 71000) 3%N; Insert (b32 71001) 4%N; Insert (b32 72000) 5%N; Insert (b32 70700) 6%N; Insert (b32 70701) 7%N; Insert (b32 66000) 8%N;
   Max; Pred (b32 72000); Insert (b32 300000) 9%N; Insert (b32 5) 10%N; Insert (b32 70702) 11%N; Min; Max; Pred (b32 71001); Succ (b32 70500); Find (b32 70700); FindMut (b32 71000) 12%N;
   Remove (b32 70701); Remove (b32 70701); Remove (b32 71000); Remove (b32 71001); RemoveMin; RemoveMin; RemoveMax; Succ (b32 0); RemoveMin; RemoveMin; IsMonad; RemoveMin; RemoveMin; RemoveMin; RemoveMin].
Example C74_same_case : (forall A, inhabited (DequeContract (std_ring A)) /\ inhabited (DequeContract (Loose_deque A))) /\
  map show (answers (run (exchanged debug_build one_row search_trees std_ring (TQ32 false)) deep32 None)) = map show (answers (run (Q32 false) deep32 None)) /\
  map show (answers (run (exchanged release_build restless search_trees Loose_deque (TQ32 false)) deep32 None)) = map show (answers (run (Q32 false) deep32 None)) /\
  map show (answers (run (Q32 false) deep32 None)) <> map show (snd (sp_run u_cmp deep32 [])) /\
  map show (answers (run (exchanged release_build restless search_trees std_ring (TQ32 true)) deep32 None)) = map show (snd (sp_run u_cmp deep32 [])) /\
  allowed (TQ32 true) adm_any /\ admissible u_cmp (@adm_any (u 32) N) deep32 [].
Proof.
  split; [intros A; split; [exact (inhabits (Ring_contract _ _ _ _))|exact (inhabits (Loose_contract A))]|].
  split; [vm_compute; reflexivity|]. split; [vm_compute; reflexivity|]. split; [vm_compute; discriminate|]. split; [vm_compute; reflexivity|].
  split; [apply AL_fixed; reflexivity|]. apply (admissible_b_ok u_cmp (fun _ _ => true)); [intros; exact I|vm_compute; reflexivity].
Qed.
