(** C76: the B-tree behind [BTreeMap].

    [Node_map V cmp]: a B-tree with nodes of five to eleven pairs, split, merged and refilled as the standard library's are (Nodes.v).
    [BTreeOf M]: the library's implementation of [VebTree] over the ordered map [M]; [MapContract cmp M]: see C73.  [well_shaped m]: every
    node but the root holds five to eleven pairs, the root at most eleven, and one at least if it has children; that all leaves are at
    one depth, [nm_height m], is in the type.  [elems]: the pairs of a node and those below, in order. *)
From Verif Require Import Base Ints Ops Spec Key ByteSet ByteMap Coll Boxed BTree SizedT Tree Markers Laws Lists CollProofs
  KeyProofs Hist CollSpec Types HistProofs TypesProofs HistCor WrapProofs Concrete Iter IterSpec IterProofs Fits FitsCor Rel Open OpenCor HashGen HashGenCor
  MapGen MapGenCor Nodes NodesCor PropsSim PropsHash PropsOrdered.

(** ** C76 The B-tree is a correct ordered map *)
Theorem C76_contract : forall K V (cmp : K -> K -> comparison), OrdLaws cmp -> inhabited (MapContract cmp (Node_map V cmp)).
Proof. exact (fun K V cmp OL => inhabits (Node_contract OL)). Qed.
Print Assumptions C76_contract.
(** so the library's implementation over it keeps the contract of C54 *)
Theorem C76_tree : forall (B : Build) K V (cmp : K -> K -> comparison), OrdLaws cmp -> inhabited (TreeContract cmp (BTreeOf (Node_map V cmp))).
Proof. exact (fun B K V cmp OL => @map_contract K V cmp OL _ (Node_contract OL) B). Qed.
Print Assumptions C76_tree.
(** ** Every history gets the answers of the sorted list; the tree left is well shaped, holds the list left, and knows its length *)
Theorem C76_history : forall (B : Build) K V (cmp : K -> K -> comparison) cs, OrdLaws cmp -> admissible cmp (@adm_any K V) cs [] ->
  exists ot, run (BTreeOf (Node_map V cmp)) cs None = Ret (ot, snd (sp_run cmp cs [])) /\
    match ot with
    | Some m => well_shaped m /\ elems _ (nm_root m) = fst (sp_run cmp cs []) /\ nm_length m = N.of_nat (length (fst (sp_run cmp cs []))) /\
        fst (sp_run cmp cs []) <> []
    | None => fst (sp_run cmp cs []) = []
    end.
Proof. exact (fun B K V cmp cs OL => node_history (B := B) OL cs). Qed.
Print Assumptions C76_history.
(** ** Its height is the logarithm of the number of pairs: with [n] pairs and [h] levels below the root, [2 * 6 ^ h <= n + 1 <= 12 ^ (h + 1)] *)
Theorem C76_height : forall K V (m : NMap (K := K) (V := V)), well_shaped m ->
  (nm_height m = 0 \/ 2 * 6 ^ nm_height m <= length (elems _ (nm_root m)) + 1) /\ length (elems _ (nm_root m)) + 1 <= 12 ^ S (nm_height m).
Proof. exact (fun K V m => height_bounds m). Qed.
Print Assumptions C76_height.
(** ... and a lookup in a tree reached by any history compares at most eleven keys on each level *)
Theorem C76_work : forall (B : Build) K V (cmp : K -> K -> comparison) cs m os k, OrdLaws cmp -> admissible cmp (@adm_any K V) cs [] ->
  run (BTreeOf (Node_map V cmp)) cs None = Ret (Some m, os) ->
  v_find (BTreeOf (Node_map V cmp)) m k = Ret (fst (n_getc cmp _ k (nm_root m))) /\
  fst (n_getc cmp _ k (nm_root m)) = sp_find cmp k (fst (sp_run cmp cs [])) /\
  snd (n_getc cmp _ k (nm_root m)) <= 11 * S (nm_height m) /\
  (nm_height m = 0 \/ 2 * 6 ^ nm_height m <= length (fst (sp_run cmp cs [])) + 1).
Proof. exact (fun B K V cmp cs m os k OL => node_work (B := B) OL cs m os k). Qed.
Print Assumptions C76_work.
(** ... the count is of the keys compared: [n_keys] lists them, they are keys of the tree, and a comparison that agrees on them sees no other *)
Theorem C76_compared : forall K V (cmp : K -> K -> comparison) (m : NMap (K := K) (V := V)) k,
  snd (n_getc cmp _ k (nm_root m)) = length (n_keys cmp _ k (nm_root m)) /\ incl (n_keys cmp _ k (nm_root m)) (map fst (elems _ (nm_root m))) /\
  forall cmp', (forall j, In j (n_keys cmp _ k (nm_root m)) -> cmp' k j = cmp k j) ->
    n_getc cmp' _ k (nm_root m) = n_getc cmp _ k (nm_root m) /\ n_keys cmp' _ k (nm_root m) = n_keys cmp _ k (nm_root m).
Proof. exact (fun K V cmp m k => n_keys_ok cmp _ k (nm_root m)). Qed.
Print Assumptions C76_compared.
(** ** A key that is there stays the one stored when an equal one is inserted, or its value is written: no law of the order is needed *)
Theorem C76_stored_keys : forall K V (cmp : K -> K -> comparison) (m : NMap (K := K) (V := V)) k v,
  map fst (elems _ (nm_root (nm_put cmp m k v))) = map fst (elems _ (nm_root m)) /\
  (m_get_key_value (Node_map V cmp) m k <> None ->
    map fst (elems _ (nm_root (m_insert (Node_map V cmp) m k v))) = map fst (elems _ (nm_root m)) /\ m_len (Node_map V cmp) (m_insert (Node_map V cmp) m k v) = nm_length m).
Proof. exact (fun K V cmp m k v => stored_keys cmp m k v). Qed.
Print Assumptions C76_stored_keys.

(** ** Every history on every type, the insertion defect included, gets the same answers with B-trees for its ordered maps *)
Definition b_trees : MapFamily := fun K V cmp => Node_map V cmp.
Theorem C76_same : forall (hf : HashFamily), (forall Hi T eq, (forall a b : Hi, eq a b = true <-> a = b) -> HashContract (hf Hi T eq)) ->
  forall B B' : Build, dbg (Build := B) = true -> (usize_bits (B := B) <= usize_bits (B := B'))%N ->
  forall fixed K V cmp (O : VebOps K V) (T : @VebType B fixed K V cmp O) cs, (N.of_nat (length cs) <= usize_max (B := B))%N ->
  exists ot ot' os, run O cs None = Ret (ot, os) /\ run (rebuilt B' hf b_trees T) cs None = Ret (ot', os) /\ (ot = None <-> ot' = None).
Proof. exact (fun hf FC B B' Hd Hw fixed K V cmp O T => rebuilt_same hf FC b_trees (fun K V cmp OL => Node_contract OL) B' Hd Hw T). Qed.
Print Assumptions C76_same.
(** so they are sorted maps wherever the library's types are (C49) *)
Theorem C76_sorted_map : forall (hf : HashFamily), (forall Hi T eq, (forall a b : Hi, eq a b = true <-> a = b) -> HashContract (hf Hi T eq)) ->
  forall B B' : Build, dbg (Build := B) = true -> (usize_bits (B := B) <= usize_bits (B := B'))%N ->
  forall fixed K V cmp (O : VebOps K V) (T : @VebType B fixed K V cmp O) adm cs, allowed T adm -> admissible (B := B) cmp adm cs [] ->
  exists ot, run (rebuilt B' hf b_trees T) cs None = Ret (ot, snd (sp_run cmp cs [])) /\ (ot = None <-> fst (sp_run cmp cs []) = []).
Proof. exact (fun hf FC B B' Hd Hw fixed K V cmp O T => rebuilt_sorted hf FC b_trees (fun K V cmp OL => Node_contract OL) B' Hd Hw T). Qed.
Print Assumptions C76_sorted_map.

(** *** Two hundred keys in and out again: splits at each point, merges and refills on both sides, roots gained and lost *)
Definition upto (n : nat) : list N := map N.of_nat (seq 0 n).
Definition scattered (n : nat) : list (op (u 8) N) := map (fun i => Insert (b8 (i * 37 mod 256)%N) i) (upto n).
Definition thinned (n : nat) : list (op (u 8) N) := map (fun i => Remove (b8 (i * 101 mod 256)%N)) (upto n).
(** the pairs in each node, the root first *)
Fixpoint dims {P} (h : nat) : node P h -> list nat :=
  match h return node P h -> list nat with
  | 0 => fun t => [length t]
  | S h' => fun t => length (snd t) :: dims h' (fst t) ++ flat_map (fun pc => dims h' (snd pc)) (snd t)
  end.
Definition dims_after (cs : list (op (u 8) N)) : list nat :=
  match run (BTreeOf (Node_map N u_cmp)) cs None with Ret (Some m, _) => dims _ (nm_root m) | _ => [] end.
Definition busy_nodes : list (op (u 8) N) :=
  scattered 200 ++ busy8 ++ scattered 200 ++ thinned 150 ++ map (fun i => Find (b8 (i * 5)%N)) (upto 50) ++ map (fun i => Succ (b8 (i * 7)%N)) (upto 36) ++
  map (fun i => PredMut (b8 (i * 11)%N) (1000 + i)%N) (upto 23) ++ repeat RemoveMin 30 ++ repeat RemoveMax 30 ++ [IsMonad; Min; Max; Remove (b8 0)].
Example C76_case : admissible u_cmp (@adm_any (u 8) N) busy_nodes [] /\
  map show (answers (run (BTreeOf (Node_map N u_cmp)) busy_nodes None)) = map show (snd (sp_run u_cmp busy_nodes [])) /\
  dims_after (scattered 11) = [11] /\ dims_after (scattered 12) = [1; 6; 5] /\
  dims_after (scattered 200) = [2; 9; 9; 6; 7; 10; 9; 6; 5; 10; 6; 10; 6; 10; 6; 5; 10; 8; 6; 8; 5; 9; 7; 11; 9; 6; 5] /\
  dims_after (scattered 200 ++ thinned 150) = [10; 9; 9; 8; 5; 5; 8; 5; 5; 6; 7; 5] /\
  dims_after (map (fun i => Insert (b8 i) i) (upto 30)) = [3; 6; 6; 6; 9].
Proof. split; [apply (admissible_b_ok u_cmp (fun _ _ => true)); [intros; exact I|vm_compute; reflexivity]|]. vm_compute. repeat split. Qed.
(** the keys that lookups compare in the tree of two hundred pairs and two levels below the root: thirty-three at the most *)
Example C76_work_case : match run (BTreeOf (Node_map N u_cmp)) (scattered 200) None with
  | Ret (Some m, _) => map (fun k => snd (n_getc u_cmp _ (b8 k) (nm_root m))) [0; 100; 200; 255]%N = [3; 13; 6; 12] /\ nm_height m = 2
  | _ => False
  end.
Proof. vm_compute. repeat split. Qed.
(** a [Tree] over byte sets and B-trees, in a table with one row *)
Example C76_same_case :
  map show (answers (run (rebuilt debug_build one_row b_trees TC16) wild16 None)) = map show (answers (run C16 wild16 None)) /\
  map show (answers (run (rebuilt release_build restless b_trees TC16) wild16 None)) = map show (answers (run C16 wild16 None)) /\
  map show (answers (run C16 wild16 None)) <> map show (snd (sp_run u_cmp wild16 [])).
Proof. split; [vm_compute; reflexivity|]. split; [vm_compute; reflexivity|vm_compute; discriminate]. Qed.
(** keys that compare by their first half only: thirteen pairs, then equal keys with other second halves; the first ones stay, the values do not *)
Definition half (a b : N * N) : comparison := (fst a ?= fst b)%N.
Example C76_stored_keys_case :
  let m := fold_left (fun m i => m_insert (Node_map N half) m (i, 0)%N i) (map N.of_nat (seq 0 40)) (m_new (Node_map N half)) in
  let m' := fold_left (fun m i => m_insert (Node_map N half) m (i, 1)%N (i + 100)%N) (map N.of_nat (seq 0 40)) m in
  nm_height m = 1 /\ map fst (elems _ (nm_root m')) = map fst (elems _ (nm_root m)) /\ map snd (elems _ (nm_root m')) = map (fun i => N.of_nat i + 100)%N (seq 0 40) /\
  n_keys half _ (20, 9)%N (nm_root m') = [(6, 0); (13, 0); (20, 0)]%N /\ n_keys half _ (18, 9)%N (nm_root m') = [(6, 0); (13, 0); (20, 0); (14, 0); (15, 0); (16, 0); (17, 0); (18, 0)]%N.
Proof. vm_compute. repeat split. Qed.
