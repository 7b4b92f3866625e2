(** C73: [BTreeMap] as a tree over any ordered map.

    [MapContract cmp M]: the dictionary [M] of an ordered map is a sorted list of pairs, each of its operations what the documentation of
    [BTreeMap] says (MapGen.v).  [BTreeOf M]: the library's implementation of [VebTree] over it.  [rebuilt B' hf mf T]: the type [T] in the
    build [B'] with [mf] for all its ordered maps and [hf] for all its hash maps (C72).  [TreeContract]: see C54. *)
From Verif Require Import Base Ints Ops Spec Key ByteSet ByteMap Coll Boxed BTree SizedT Tree Markers Laws Lists CollProofs
  KeyProofs Hist CollSpec Types HistProofs TypesProofs HistCor WrapProofs Concrete Iter IterSpec IterProofs Fits FitsCor Rel Open OpenCor HashGen HashGenCor
  MapGen MapGenCor PropsSim PropsHash.

(** ** C73 The implementation for [BTreeMap] is right over any correct ordered map *)
Theorem C73_tree : forall (B : Build) K V (cmp : K -> K -> comparison) (M : MapOps K V), OrdLaws cmp -> MapContract cmp M ->
  inhabited (TreeContract cmp (BTreeOf M)).
Proof. exact (fun B K V cmp M OL MC => @map_contract K V cmp OL M MC B). Qed.
Print Assumptions C73_tree.
(** every history gets the answers of the sorted list, and the map left holds the list left *)
Theorem C73_history : forall (B : Build) K V (cmp : K -> K -> comparison) (M : MapOps K V) (MC : MapContract cmp M) cs, OrdLaws cmp ->
  admissible cmp (@adm_any K V) cs [] ->
  exists ot, run (BTreeOf M) cs None = Ret (ot, snd (sp_run cmp cs [])) /\
    match ot with Some m => mk_inv MC m /\ mk_abs MC m = fst (sp_run cmp cs []) /\ mk_abs MC m <> [] | None => fst (sp_run cmp cs []) = [] end.
Proof. exact (fun B K V cmp M MC cs OL => @map_history B K V cmp OL M MC cs). Qed.
Print Assumptions C73_history.
(** the sorted list is such a map, whatever it answers on ranges that would panic, and the unbalanced search tree is one *)
Theorem C73_maps : forall K V (cmp : K -> K -> comparison), OrdLaws cmp ->
  inhabited (MapContract cmp (List_map V cmp)) /\ inhabited (MapContract cmp (Picky_map V cmp)) /\ inhabited (MapContract cmp (Tree_map V cmp)).
Proof. exact (fun K V cmp OL => conj (inhabits (List_contract OL)) (conj (inhabits (Picky_contract OL)) (inhabits (Tree_contract OL)))). Qed.
Print Assumptions C73_maps.

(** ** Every history, the insertion defect included, gets the same answers whatever the ordered maps, the hash maps and the builds *)
Theorem C73_same : forall (hf hf' : HashFamily),
  (forall Hi T eq, (forall a b : Hi, eq a b = true <-> a = b) -> HashContract (hf Hi T eq)) ->
  (forall Hi T eq, (forall a b : Hi, eq a b = true <-> a = b) -> HashContract (hf' Hi T eq)) ->
  forall (mf mf' : MapFamily),
  (forall K V (cmp : K -> K -> comparison), OrdLaws cmp -> MapContract cmp (mf K V cmp)) ->
  (forall K V (cmp : K -> K -> comparison), OrdLaws cmp -> MapContract cmp (mf' K V cmp)) ->
  forall B B1 B2 : Build, dbg (Build := B) = true -> (usize_bits (B := B) <= usize_bits (B := B1))%N -> (usize_bits (B := B) <= usize_bits (B := B2))%N ->
  forall fixed K V cmp (O : VebOps K V) (T : @VebType B fixed K V cmp O) cs, (N.of_nat (length cs) <= usize_max (B := B))%N ->
  exists ot ot' os, run (rebuilt B1 hf mf T) cs None = Ret (ot, os) /\ run (rebuilt B2 hf' mf' T) cs None = Ret (ot', os) /\ (ot = None <-> ot' = None).
Proof. exact rebuilt_two. Qed.
Print Assumptions C73_same.
(** ... the answers the type of the other files gives *)
Theorem C73_library : forall (hf : HashFamily) (mf : MapFamily),
  (forall Hi T eq, (forall a b : Hi, eq a b = true <-> a = b) -> HashContract (hf Hi T eq)) ->
  (forall K V (cmp : K -> K -> comparison), OrdLaws cmp -> MapContract cmp (mf K V cmp)) ->
  forall B B' : Build, dbg (Build := B) = true -> (usize_bits (B := B) <= usize_bits (B := B'))%N ->
  forall fixed K V cmp (O : VebOps K V) (T : @VebType B fixed K V cmp O) cs ot os, run O cs None = Ret (ot, os) ->
  exists ot', run (rebuilt B' hf mf T) cs None = Ret (ot', os) /\ (ot = None <-> ot' = None).
Proof. exact (fun hf mf FC MC B B' Hd Hw fixed K V cmp O T => rebuilt_run hf FC mf MC B' Hd Hw T). Qed.
Print Assumptions C73_library.
(** ... and their iterators, called from the two ends in any order, give the same pairs *)
Theorem C73_iter : forall (hf : HashFamily) (mf : MapFamily),
  (forall Hi T eq, (forall a b : Hi, eq a b = true <-> a = b) -> HashContract (hf Hi T eq)) ->
  (forall K V (cmp : K -> K -> comparison), OrdLaws cmp -> MapContract cmp (mf K V cmp)) ->
  forall B B' : Build, dbg (Build := B) = true -> (usize_bits (B := B) <= usize_bits (B := B'))%N ->
  forall fixed K V cmp (O : VebOps K V) (T : @VebType B fixed K V cmp O) cs t os t' os' dirs it ps,
  run O cs None = Ret (Some t, os) -> run (rebuilt B' hf mf T) cs None = Ret (Some t', os') ->
  it_run (B := B) O (eqb cmp) t dirs it_new = Ret (it, ps) -> it_run (B := B') (rebuilt B' hf mf T) (eqb cmp) t' dirs it_new = Ret (it, ps).
Proof.
  exact (fun hf mf FC MC B B' Hd Hw fixed K V cmp O T cs t os t' os' dirs it ps => rebuilt_iter hf FC mf MC B' Hd Hw T cs t os t' os' dirs it ps (eqb cmp)).
Qed.
Print Assumptions C73_iter.
(** so they are sorted maps wherever the library's types are (C49) *)
Theorem C73_sorted_map : forall (hf : HashFamily) (mf : MapFamily),
  (forall Hi T eq, (forall a b : Hi, eq a b = true <-> a = b) -> HashContract (hf Hi T eq)) ->
  (forall K V (cmp : K -> K -> comparison), OrdLaws cmp -> MapContract cmp (mf K V cmp)) ->
  forall B B' : Build, dbg (Build := B) = true -> (usize_bits (B := B) <= usize_bits (B := B'))%N ->
  forall fixed K V cmp (O : VebOps K V) (T : @VebType B fixed K V cmp O) adm cs, allowed T adm -> admissible (B := B) cmp adm cs [] ->
  exists ot, run (rebuilt B' hf mf T) cs None = Ret (ot, snd (sp_run cmp cs [])) /\ (ot = None <-> fst (sp_run cmp cs []) = []).
Proof. exact (fun hf mf FC MC B B' Hd Hw fixed K V cmp O T => rebuilt_sorted hf FC mf MC B' Hd Hw T). Qed.
Print Assumptions C73_sorted_map.

(** *** A history on a search tree: keys replaced, found, written through references, removed from the middle, the two ends and where absent *)
Definition busy8 : list (op (u 8) N) :=
  [Insert (b8 50) 1%N; Insert (b8 20) 2%N; Insert (b8 80) 3%N; Insert (b8 60) 4%N; Insert (b8 90) 5%N; Insert (b8 70) 6%N; Insert (b8 50) 7%N; Insert (b8 10) 8%N;
   Find (b8 60); Find (b8 61); Pred (b8 60); Pred (b8 10); Succ (b8 60); Succ (b8 90); Succ (b8 71); FindMut (b8 70) 9%N; PredMut (b8 70) 10%N; SuccMut (b8 20) 11%N;
   FindMut (b8 71) 12%N; Find (b8 70); MinMut 13%N; MaxMut 14%N; Min; Max; Remove (b8 50); Remove (b8 50); Find (b8 60); Remove (b8 80); RemoveMax; RemoveMin; IsMonad;
   Remove (b8 20); Remove (b8 60); IsMonad; Min; Remove (b8 69); RemoveMax; Insert (b8 3) 15%N; Max].
Definition shape {K V} (key : K -> N) : STree K V -> list N := fix go t := match t with Leaf => [0%N] | Node l p r => (key (fst p) :: go l ++ go r) end.
Example C73_case : admissible u_cmp (@adm_any (u 8) N) busy8 [] /\
  map show (answers (run (BTreeOf (Tree_map N u_cmp)) busy8 None)) = map show (snd (sp_run u_cmp busy8 [])) /\
  map show (answers (run (BTreeOf (List_map N u_cmp)) busy8 None)) = map show (snd (sp_run u_cmp busy8 [])) /\
  match run (BTreeOf (Tree_map N u_cmp)) (firstn 25 busy8) None with
  | Ret (Some t, _) => shape uval t = [60; 20; 10; 0; 0; 0; 80; 70; 0; 0; 90; 0; 0]%N
  | _ => False
  end.
Proof. split; [apply (admissible_b_ok u_cmp (fun _ _ => true)); [intros; exact I|vm_compute; reflexivity]|]. vm_compute. repeat split. Qed.
(** a [Tree] over byte sets and ordered maps in a hash map: search trees for the maps, and a table with one row *)
Definition search_trees : MapFamily := fun K V cmp => Tree_map V cmp.
Definition wild16 : list (op (u 16) N) :=
  [Insert (b16 3000) 2%N; Insert (b16 3500) 8%N; Insert (b16 3200) 9%N; Insert (b16 700) 1%N; Max; Pred (b16 3400); Insert (b16 3000) 2%N; Insert (b16 5) 3%N; Insert (b16 701) 4%N; Insert (b16 40000) 5%N;
   Insert (b16 3210) 6%N; Insert (b16 3205) 6%N; Insert (b16 700) 7%N; Min; Max; Pred (b16 701); Succ (b16 5); Succ (b16 3200); Find (b16 5); FindMut (b16 3205) 8%N; PredMut (b16 3001) 9%N;
   Remove (b16 3205); Remove (b16 3205); Insert (b16 3001) 10%N; Remove (b16 700); RemoveMin; Succ (b16 0); RemoveMax; RemoveMin; IsMonad; RemoveMin; RemoveMin; RemoveMin; RemoveMin].
Example C73_same_case :
  (forall K V (cmp : K -> K -> comparison), OrdLaws cmp -> inhabited (MapContract cmp (search_trees K V cmp))) /\
  map show (answers (run (rebuilt debug_build one_row search_trees TC16) wild16 None)) = map show (answers (run C16 wild16 None)) /\
  map show (answers (run (rebuilt release_build restless search_trees TC16) wild16 None)) = map show (answers (run C16 wild16 None)) /\
  map show (answers (run C16 wild16 None)) <> map show (snd (sp_run u_cmp wild16 [])).
Proof.
  split; [intros K V cmp OL; apply inhabits, Tree_contract, OL|].
  split; [vm_compute; reflexivity|]. split; [vm_compute; reflexivity|vm_compute; discriminate].
Qed.
(** ** Without transitivity it fails: a key put in, and not taken out, is not found ([Ord] is a public trait: lib.rs 433) *)
Theorem C73_order_refuted : exists (cmp : N -> N -> comparison) (cs : list (op N N)) k,
  (forall a b, In a [0; 1; 2]%N -> In b [0; 1; 2]%N -> (cmp a b = Eq <-> a = b) /\ cmp b a = CompOpp (cmp a b)) /\
  In (Insert k 7%N) cs /\ ~ In (Remove k) cs /\ last_error cs = Some (Find k) /\
  exists ot os, run (BTreeOf (Tree_map N cmp)) cs None = Ret (ot, os ++ [OP (Some (0, 0)%N); OP None]).
Proof.
  exists (fun a b => if (a =? b)%N then Eq else if ((a + 1) mod 3 =? b)%N then Lt else Gt).
  exists [Insert 0%N 0%N; Insert 1%N 5%N; Insert 2%N 7%N; Remove 0%N; Find 2%N], 2%N.
  split.
  { intros a b [<-|[<-|[<-|[]]]] [<-|[<-|[<-|[]]]]; vm_compute; (split; [split; congruence|reflexivity]). }
  split; [cbn; tauto|]. split; [cbn; intros [E|[E|[E|[E|[E|[]]]]]]; discriminate E|]. split; [reflexivity|].
  exists (Some (Node (Node Leaf (2, 7)%N Leaf) (1, 5)%N Leaf)), [OP None; OP None; OP None]. vm_compute. reflexivity.
Qed.
Print Assumptions C73_order_refuted.
