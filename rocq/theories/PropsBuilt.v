(** C66: exactly which states a tree can be in.
    [built o T t l] (Built.v) says how [t], of type [T], must be built to hold the pairs [l]: what each record holds and how they agree, down to
    the leaves (summaries list the high halves there are children for, arrays count their occupied slots, lists and sets of byte maps match,
    nothing is empty, sizes count); with [o = true] also that keys stand in order.  [filed] is the part for collections.
    [twin], [no_hash] (Twin.v): up to where a hash map keeps its entries.  [contents] (Hist.v) is what draining yields.
    For the rest of the notation see the head of PropsMap.v. *)
From Verif Require Import Base Ints Ops Spec Key ByteSet ByteMap Coll Boxed BTree SizedT Tree Markers Laws Lists CollProofs
  KeyProofs Hist Types HistProofs TypesProofs HistCor Concrete Twin TwinCor Fits FitsCor GenMap Built BuiltCor.
Local Open Scope N_scope.

(** ** C66 Every history leaves a tree built so, the defect of [Tree::insert] included, and what it holds is what was put in and not handed back ... *)
Theorem C66_any_history : forall (B : Build) fixed K V cmp (O : VebOps K V) (T : VebType fixed K V cmp O) cs t os,
  run O cs None = Ret (Some t, os) -> fitting cs os 0 ->
  exists l, built false T t l /\ Permutation (total pairs_in cs os) (total pairs_out cs os ++ l).
Proof. exact @run_built. Qed.
Print Assumptions C66_any_history.
(** ... which is what draining it yields, in ascending order if it is built in order ... *)
Theorem C66_contents : forall (B : Build) (o : bool) fixed K V cmp (O : VebOps K V) (T : VebType fixed K V cmp O) t l, built o T t l ->
  exists d, contents O t d /\ Permutation d l /\ (o = true -> ascending cmp d).
Proof. exact (fun B o fixed K V cmp O => built_contents o). Qed.
Print Assumptions C66_contents.
(** ... and it suffices: from any state built so, reachable or not, no call panics, and what it leaves is built so again ... *)
Theorem C66_step : forall (B : Build) fixed K V cmp (O : VebOps K V) (T : VebType fixed K V cmp O) t l c, built false T t l ->
  (forall k v, c = Insert k v -> N.of_nat (length l) < usize_max) ->
  exists ot o l' rest, step O c (Some t) = Ret (ot, o) /\ match ot with Some t' => built false T t' l' | None => l' = [] end /\
  Permutation l (pairs_out c o ++ rest) /\ Permutation l' (pairs_in c o ++ rest).
Proof. exact @built_step. Qed.
Print Assumptions C66_step.
(** ... and from any state built in order the tree answers as the sorted list does and stays in order, as long as insertions are admitted ... *)
Theorem C66_run : forall (B : Build) fixed K V cmp (O : VebOps K V) (T : VebType fixed K V cmp O) adm t l cs,
  allowed T adm -> built true T t l -> ascending cmp l -> admissible cmp adm cs l ->
  exists ot, run O cs (Some t) = Ret (ot, snd (sp_run cmp cs l)) /\
  match ot with Some t' => built true T t' (fst (sp_run cmp cs l)) | None => fst (sp_run cmp cs l) = [] end.
Proof. exact @built_run. Qed.
Print Assumptions C66_run.
(** ... so the states built in order are exactly those admitted histories lead to, up to where a hash map keeps its entries ... *)
Theorem C66_exactly : forall (B : Build) fixed K V cmp (O : VebOps K V) (T : VebType fixed K V cmp O) t l,
  (exists adm t', allowed T adm /\ reached cmp O adm t' l /\ twin T t' t) <-> built true T t l /\ ascending cmp l /\ N.of_nat (length l) <= usize_max.
Proof. exact @built_exactly. Qed.
Print Assumptions C66_exactly.
(** ... and exactly those, without hash maps *)
Theorem C66_exactly_equal : forall (B : Build) fixed K V cmp (O : VebOps K V) (T : VebType fixed K V cmp O) t l, no_hash T = true ->
  (exists adm, allowed T adm /\ reached cmp O adm t l) <-> built true T t l /\ ascending cmp l /\ N.of_nat (length l) <= usize_max.
Proof. exact @built_exactly_equal. Qed.
Print Assumptions C66_exactly_equal.
(** The lists in byte maps are never empty: [List::is_empty] says no and [TreeList::len] does not panic, and they are as long as they should be *)
Theorem C66_lists : forall (B : Build) fixed V (t : vt (ByteMap_ops V)) l, built false (VT_ByteMap fixed V) t l ->
  list_is_empty (VecDeque_list V) (bm_list t) = Ret false /\ l_len (VecDeque_list V) (bm_list t) = Ret (N.of_nat (length l)).
Proof. exact (fun B fixed V => byte_list false fixed). Qed.
Print Assumptions C66_lists.
Theorem C66_tree_lists : forall (B : Build) Lo V (Tr : VebOps Lo V) c m, filed (CT_ByteMap Tr) c m ->
  tree_list_len (bm_list c) = Ret (N.of_nat (length m)).
Proof. exact @byte_trees. Qed.
Print Assumptions C66_tree_lists.
(** ... while on a queue that is empty, which only a caller can make, it does *)
Theorem C66_tree_list_empty : forall A (l : list A), tree_list_len l = Panic <-> l = [].
Proof. exact @tree_list_empty. Qed.
Print Assumptions C66_tree_list_empty.
Example C66_tree_list_empty_case : tree_list_len ([] : list N) = Panic /\ tree_list_len [3; 4]%N = Ret 2%N.
Proof. auto. Qed.
(** Not every history leaves [Tree] as it is built in order *)
Definition low16 : list (op (u 16) N) := [Insert (b16 10) 1; Insert (b16 20) 2; Insert (b16 5) 3].
Definition low_tree : vt (M16 false N) := tree_of (M16 false N) low16 (v_from_monad (M16 false N) (b16 0) 0).
Lemma drained_to {T P} (r : res (option T * list P)) x : match r with Ret (None, _) => true | _ => false end = true ->
  match r with Ret (_, y) => y | Panic => [] end = x -> r = Ret (None, x).
Proof. destruct r as [[[t|] y]|]; intros H E; try discriminate H. congruence. Qed.
Lemma second_third {K V} (cmp : K -> K -> comparison) (p q r : K * V) : ascending cmp [p; q; r] -> cmp (fst q) (fst r) = Lt.
Proof. intros H. inversion H as [|? ? H' _]. inversion H' as [|? ? _ Hf]. inversion Hf. auto. Qed.
Theorem C66_in_order_refuted : exists t, reachable (M16 false N) t /\ forall l, ~ built true (T16 false N) t l.
Proof.
  exists low_tree. split.
  - apply reachable_ex with low16; [apply tree_of_ok; vm_compute; reflexivity|vm_compute; reflexivity].
  - intros l H. destruct (built_contents true (T16 false N) low_tree l H) as [d [Hc [_ Ha]]]. specialize (Ha eq_refl).
    assert (Hd : drain (v_remove_min (M16 false N)) 3 (Some low_tree) = Ret (None, [(b16 5, 3); (b16 20, 2); (b16 10, 1)])).
    { apply drained_to; [vm_compute; reflexivity|apply look_inj; vm_compute; reflexivity]. }
    rewrite (contents_fun (M16 false N) low_tree d _ Hc (ex_intro _ 3%nat Hd)) in Ha. apply second_third in Ha. revert Ha. vm_compute. discriminate.
Qed.
Print Assumptions C66_in_order_refuted.

(** trees after histories with replacements and removals: over hash maps, corrected; over arrays, as it is; and the one the defect struck *)
Definition mix32 : list (op (u 32) N) :=
  [Insert (b32 262144) 9; Insert (b32 327680) 6; Insert (b32 70002) 5; Insert (b32 70000) 3; Insert (b32 65536) 0; Insert (b32 200000) 8;
   Insert (b32 400000) 0; Insert (b32 5) 4; Remove (b32 65536); FindMut (b32 200000) 1; RemoveMax; Insert (b32 70001) 2; Insert (b32 262144) 7].
Definition mix_holds : list (u 32 * N) :=
  [(b32 5, 4); (b32 70000, 3); (b32 70001, 2); (b32 70002, 5); (b32 200000, 1); (b32 262144, 7); (b32 327680, 6)].
Definition mix_tree : vt (H32 true N) := tree_of (H32 true N) mix32 (v_from_monad (H32 true N) (b32 0) 0).
Definition asc16 : list (op (u 16) N) := [Insert (b16 300) 1; Insert (b16 7) 2; Insert (b16 600) 3; Insert (b16 301) 4; Insert (b16 8) 5].
Definition asc_tree : vt (M16 false N) := tree_of (M16 false N) asc16 (v_from_monad (M16 false N) (b16 0) 0).
Example C66_case :
  built true (TH32 true N) mix_tree mix_holds /\ built true (T16 false N) asc_tree (fst (sp_run u_cmp asc16 [])) /\
  look (fst (sp_run u_cmp asc16 [])) = [(7, 2); (8, 5); (300, 1); (301, 4); (600, 3)] /\
  (exists l, built false (T16 false N) low_tree l) /\
  list_is_empty (VecDeque_list N) (bm_list (tree_of (ByteMap_ops N) [Insert (b8 200) 1; Insert (b8 3) 2; RemoveMax] (v_from_monad (ByteMap_ops N) (b8 0) 0))) = Ret false.
Proof.
  split; [|split; [|split; [vm_compute; reflexivity|split; [|vm_compute; reflexivity]]]].
  - refine (proj1 (reached_built (TH32 true N) adm_any mix_tree mix_holds _ _)); [apply AL_fixed; reflexivity|].
    apply (reached_any_ex u_cmp mix32); [apply tree_of_ok; vm_compute; reflexivity|apply look_inj; vm_compute; reflexivity|vm_compute; reflexivity].
  - refine (proj1 (reached_built (T16 false N) (adm_above_min u_cmp) asc_tree _ _ _)); [apply AL_shallow; reflexivity|].
    apply (reached_min_ex u_cmp asc16); [apply tree_of_ok; vm_compute; reflexivity|reflexivity|vm_compute; reflexivity].
  - destruct (reachable_built (T16 false N) low_tree) as [d [_ H]]; [|eauto].
    apply reachable_ex with low16; [apply tree_of_ok; vm_compute; reflexivity|vm_compute; reflexivity].
Qed.
