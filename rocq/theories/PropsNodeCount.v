(** C79: how many nodes the B-tree behind [BTreeMap] creates and frees.

    [b_run cmp m os]: the B-tree of C76 after the insertions and removals [os], from [m] on; [nm_nodes m]: how many nodes it has;
    [b_work cmp m os]: by how many nodes it changes, summed over the calls (NodeCount.v). *)
From Verif Require Import Base Ints Ops Spec ByteSet ByteMap Coll BTree Lists Laws BTreeProofs Hist Types HistProofs HashGen HashGenCor MapGen MapGenCor Nodes NodesCor NodeCount NodeCountCor.
From Coq Require Import ZArith Lia.

(** ** C79 An insertion creates at most two nodes more than the tree has levels below the root and frees none, a removal frees at most one more and
    creates none *)
Theorem C79_call : forall K V (cmp : K -> K -> comparison) (m : NMap (K := K) (V := V)) o, match o with
  | BPut _ _ => nm_nodes m <= nm_nodes (b_step cmp m o) <= nm_nodes m + nm_height m + 2
  | _ => nm_nodes (b_step cmp m o) <= nm_nodes m <= nm_nodes (b_step cmp m o) + nm_height m + 1
  end.
Proof. exact (fun K V cmp => call). Qed.
Print Assumptions C79_call.
(** ** The calls do on the pairs what they do on a sorted list *)
Theorem C79_contents : forall K V (cmp : K -> K -> comparison) (os : list (bop K V)), OrdLaws cmp ->
  elems _ (nm_root (b_run cmp (nm_empty cmp) os)) = fold_left (l_step cmp) os [].
Proof. exact (fun K V cmp os OL => run_list OL os). Qed.
Print Assumptions C79_contents.
(** ** Five pairs for each node but one, whatever the history *)
Theorem C79_space : forall K V (cmp : K -> K -> comparison) os, OrdLaws cmp -> let m := b_run cmp (nm_empty (V := V) cmp) os in
  5 * (nm_nodes m - 1) <= length (elems _ (nm_root m)).
Proof. exact (fun K V cmp os OL => run_space OL os). Qed.
Print Assumptions C79_space.
(** ** so insertions alone create one node for five of them at the most *)
Theorem C79_insertions : forall K V (cmp : K -> K -> comparison) kvs, OrdLaws cmp ->
  5 * b_work cmp (nm_empty (V := V) cmp) (map (fun kv => BPut (fst kv) (snd kv)) kvs) <= length kvs.
Proof. exact (fun K V cmp kvs OL => insertions OL kvs). Qed.
Print Assumptions C79_insertions.
(** ** A full node is split where the table says, by the place of the new pair among its own *)
Theorem C79_split_leaf : forall K V (cmp : K -> K -> comparison) (t : node (K * V) 0) k v, width 0 t = 11 -> ascending cmp (elems 0 t) -> n_get cmp 0 k t = None ->
  exists a p b, n_insert cmp 0 k v t = Split a p b /\ width 0 a = left_share (length (below cmp k (elems 0 t))) /\ width 0 a + width 0 b = 11.
Proof. exact (fun K V cmp => split_leaf). Qed.
Print Assumptions C79_split_leaf.
Theorem C79_split_inner : forall K V (cmp : K -> K -> comparison) h (t : node (K * V) (S h)) k v, OrdLaws cmp -> width (S h) t = 11 -> ascending cmp (elems (S h) t) ->
  (exists a p b, n_insert cmp (S h) k v t = Split a p b) ->
  exists a p b, n_insert cmp (S h) k v t = Split a p b /\ width (S h) a = left_share (length (below cmp k (map fst (kids t)))) /\ width (S h) a + width (S h) b = 11.
Proof. exact (fun K V cmp h t k v OL => split_inner OL h t k v). Qed.
Print Assumptions C79_split_inner.
(** ** A child that ran under is merged, with its left neighbour or else the right one, exactly if one node can hold both and the pair between; it
    takes a pair otherwise, and others are let be *)
Theorem C79_mend : forall K V h (ls : list (node (K * V) h * (K * V))) c r, (5 <= width h c -> mend h ls c r = plug ls c r) /\
  forall n, beside (width h) ls r = Some n -> width h c < 5 ->
  nodes (S h) (plug ls c r : node (K * V) (S h)) = nodes (S h) (mend h ls c r) + (if width h c + 1 + n <=? 11 then 1 else 0).
Proof. exact (fun K V => mend_exact). Qed.
Print Assumptions C79_mend.
(** ** The bound of one call is reached over and over: falling keys lead to a tree of any height where to put the next key in makes a node more on each
    level and a new root, and to take it out again frees them all *)
Theorem C79_worst : forall K V (cmp : K -> K -> comparison) key (v : V), OrdLaws cmp -> (forall i, cmp (key (S i)) (key i) = Lt) -> forall h,
  exists j, let m := b_run cmp (nm_empty cmp) (map (fun i => BPut (key i) v) (seq 0 j)) in let m' := b_step cmp m (BPut (key j) v) in
  nm_height m = h /\ nm_nodes m' = nm_nodes m + h + 2 /\ b_step cmp m' (BDel (key j)) = m.
Proof. exact (fun K V cmp key v OL H => worst_seq OL key v H). Qed.
Print Assumptions C79_worst.
(** ** So no constant bounds the nodes created and freed for each call, over whole histories *)
Theorem C79_constant_refuted : forall c, exists os : list (bop Z unit), c * length os < b_work Z.compare (nm_empty Z.compare) os.
Proof. exact (no_constant Z_laws (fun i => (- Z.of_nat i)%Z) tt Z_falling). Qed.
Print Assumptions C79_constant_refuted.

(** *** Eleven falling keys fill the leaf, eighty-eight a root and its first leaf: from there a key put in and taken out ten times costs forty and
    sixty nodes *)
Definition down (n : nat) : list (bop Z unit) := map (fun i => BPut (- Z.of_nat i)%Z tt) (seq 0 n).
Definition to_and_fro (r : nat) (k : Z) : list (bop Z unit) := concat (repeat [BPut k tt; BDel k] r).
Definition figures (os : list (bop Z unit)) : nat * nat * nat * nat :=
  let m := b_run Z.compare (nm_empty Z.compare) os in (nm_height m, nm_nodes m, length (elems _ (nm_root m)), b_work Z.compare (nm_empty Z.compare) os).
Example C79_case : figures (down 11) = (0, 1, 11, 0) /\ figures (down 11 ++ to_and_fro 10 (-11)) = (0, 1, 11, 40) /\
  figures (down 88) = (1, 13, 88, 12) /\ figures (down 88 ++ to_and_fro 10 (-88)) = (1, 13, 88, 72) /\
  figures (down 88 ++ to_and_fro 10 (-300) ++ [BDel (-40); BDel 7]%Z ++ repeat BMin 30 ++ repeat BMax 19) = (1, 6, 38, 79).
Proof. vm_compute. repeat split. Qed.
(** a leaf of the even numbers from 0 to 20 gets each odd one; and the root reached by eighty-eight falling keys gets a key at its left edge *)
Definition evens : node (Z * unit) 0 := map (fun i => (2 * Z.of_nat i, tt)%Z) (seq 0 11).
Definition parts {h : nat} (g : Grown (K := Z) (V := unit) (node (Z * unit) h)) : nat * nat := match g with Fit t => (width h t, 0) | Split a _ b => (width h a, width h b) end.
Example C79_split_case : map (fun i => parts (n_insert Z.compare 0 (2 * Z.of_nat i - 1)%Z tt evens)) (seq 0 12) =
    [(5, 6); (5, 6); (5, 6); (5, 6); (5, 6); (6, 5); (5, 6); (6, 5); (6, 5); (6, 5); (6, 5); (6, 5)] /\
  (let m := b_run Z.compare (nm_empty Z.compare) (down 88) in parts (n_insert Z.compare _ (-88)%Z tt (nm_root m)) = (5, 6) /\ width _ (nm_root m) = 11).
Proof. vm_compute. repeat split. Qed.
(** a leaf of four beside one of six and one of seven, on either side *)
Definition from (i n : nat) : node (Z * unit) 0 := map (fun i => (Z.of_nat i, tt)) (seq i n).
Example C79_mend_case : forall p, let kept (t : node (Z * unit) 1) := nodes 1 t in
  (kept (mend 0 [(from 0 6, p)] (from 10 4) []), kept (mend 0 [(from 0 7, p)] (from 10 4) []), kept (mend 0 [] (from 0 4) [(p, from 10 6)]), kept (mend 0 [] (from 0 4) [(p, from 10 7)]),
   kept (mend 0 [(from 0 5, p)] (from 10 5) [])) = (2, 3, 2, 3, 3).
Proof. intros p. vm_compute. reflexivity. Qed.
