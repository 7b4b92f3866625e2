(** C56: a tree is built from what it holds, not from how it came to hold it.
    [twin T t t'] (Twin.v): the two trees of type [T] consist of the same records with the same keys and values in the same
    places, down to the leaves, except for where a hash map keeps its entries; [no_hash T]: there is no hash map in them.
    [reached cmp O adm t l]: a history whose insertions all satisfy [adm] ends with [t], and with the sorted list [l] when it is run on
    sorted lists instead.  [contents] (Hist.v) is what draining yields.  For the rest of the notation see the head of PropsMap.v. *)
From Verif Require Import Base Ints Ops Spec Key ByteSet ByteMap Coll Boxed BTree SizedT Tree Markers Laws Lists CollProofs
  KeyProofs Hist Types HistProofs TypesProofs HistCor Concrete Twin TwinCor Fits FitsCor.
Local Open Scope N_scope.

(** ** C56 In every build, two trees are built alike exactly when they hold the same ... *)
Theorem C56_exactly : forall (B : Build) fixed K V cmp (O : VebOps K V) (T : VebType (B := B) fixed K V cmp O) adm adm' t t' l l',
  allowed T adm -> allowed T adm' -> reached cmp O adm t l -> reached cmp O adm' t' l' -> twin T t t' <-> l = l'.
Proof. exact (fun b => @reached_twin_iff b). Qed.
Print Assumptions C56_exactly.
(** ... and, without hash maps, are equal ... *)
Theorem C56_equal : forall (B : Build) fixed K V cmp (O : VebOps K V) (T : VebType (B := B) fixed K V cmp O) adm adm' t t' l,
  no_hash T = true -> allowed T adm -> allowed T adm' -> reached cmp O adm t l -> reached cmp O adm' t' l -> t = t'.
Proof. exact (fun b => @reached_equal b). Qed.
Print Assumptions C56_equal.
(** ... so that calls which put everything back leave no trace ... *)
Theorem C56_detour : forall (B : Build) fixed K V cmp (O : VebOps K V) (T : VebType (B := B) fixed K V cmp O) adm t l cs,
  allowed T adm -> reached cmp O adm t l -> admissible cmp adm cs l -> fst (sp_run cmp cs l) = l ->
  exists t', run O cs (Some t) = Ret (Some t', snd (sp_run cmp cs l)) /\ twin T t t'.
Proof. exact (fun b => @detour b). Qed.
Print Assumptions C56_detour.
(** ... such as an insertion of a new key and its removal ... *)
Theorem C56_undo : forall (B : Build) fixed K V cmp (O : VebOps K V) (T : VebType (B := B) fixed K V cmp O) adm t l k v,
  allowed T adm -> reached cmp O adm t l -> adm l k -> N.of_nat (length l) < usize_max -> v_find O t k = Ret None ->
  exists t1 t2, v_insert O t k v = Ret (t1, None) /\ v_remove O t1 k = Ret (Ok (Some t2, (k, v))) /\ twin T t t2.
Proof. exact (fun b => @undo b). Qed.
Print Assumptions C56_undo.
(** ... and the order in which pairs are inserted does not matter, where any order is allowed ... *)
Theorem C56_any_order : forall (B : Build) fixed K V cmp (O : VebOps K V) (T : VebType (B := B) fixed K V cmp O) l l',
  allowed T adm_any -> l <> [] -> NoDup (map fst l) -> N.of_nat (length l) <= usize_max -> Permutation l l' ->
  exists t os t' os', run O (map (fun p => Insert (fst p) (snd p)) l) None = Ret (Some t, os) /\
    run O (map (fun p => Insert (fst p) (snd p)) l') None = Ret (Some t', os') /\ twin T t t'.
Proof. exact (fun b => @any_order b). Qed.
Print Assumptions C56_any_order.
(** ... but [Tree] as it is can hold the same and be built differently, when a key was inserted below the least of two ... *)
Definition drained (cs : list (op (u 16) N)) : list (u 16 * N) :=
  match drain (v_remove_min (M16 false N)) 3 (final (run (M16 false N) cs None)) with Ret (_, d) => d | Panic => [] end.
Lemma drained_ok cs : match drain (v_remove_min (M16 false N)) 3 (final (run (M16 false N) cs None)), final (run (M16 false N) cs None) with
  | Ret (None, _), Some _ => true | _, _ => false end = true ->
  contents (M16 false N) (tree_of (M16 false N) cs (v_from_monad (M16 false N) (b16 0) 0)) (drained cs).
Proof.
  unfold drained, contents, tree_of. destruct (final (run (M16 false N) cs None)) as [t|]; intros H.
  - exists 3%nat. destruct (drain _ _ _) as [[[t'|] d]|]; try discriminate H. reflexivity.
  - destruct (drain _ _ _) as [[[t'|] d]|]; discriminate H.
Qed.
Definition last_of (t : vt (M16 false N)) : N := match t_data t with Some d => uval (fst (d_max d)) | None => 0 end.
Lemma last_of_twin t t' : twin (T16 false N) t t' -> last_of t = last_of t'.
Proof.
  intros [_ H]. unfold last_of. destruct (t_data t), (t_data t'); cbn in H; try contradiction; auto. destruct H as [H _]. rewrite H. reflexivity.
Qed.
Theorem C56_any_history_refuted : exists t t' d d', reachable (M16 false N) t /\ reachable (M16 false N) t' /\
  contents (M16 false N) t d /\ contents (M16 false N) t' d' /\ Permutation d d' /\ ~ twin (T16 false N) t t'.
Proof.
  pose (t0 := v_from_monad (M16 false N) (b16 0) 0). pose (low := [Insert (b16 10) 1; Insert (b16 20) 2; Insert (b16 5) 3] : list (op (u 16) N)).
  pose (up := [Insert (b16 5) 3; Insert (b16 10) 1; Insert (b16 20) 2] : list (op (u 16) N)).
  exists (tree_of (M16 false N) low t0), (tree_of (M16 false N) up t0), (drained low), (drained up). repeat split.
  - apply reachable_ex with low; [apply tree_of_ok; vm_compute; reflexivity|vm_compute; reflexivity].
  - apply reachable_ex with up; [apply tree_of_ok; vm_compute; reflexivity|vm_compute; reflexivity].
  - apply drained_ok. vm_compute. reflexivity.
  - apply drained_ok. vm_compute. reflexivity.
  - replace (drained low) with [(b16 5, 3); (b16 20, 2); (b16 10, 1)] by (apply look_inj; vm_compute; reflexivity).
    replace (drained up) with [(b16 5, 3); (b16 10, 1); (b16 20, 2)] by (apply look_inj; vm_compute; reflexivity). repeat constructor.
  - intros H. apply last_of_twin in H. revert H. vm_compute. discriminate.
Qed.
Print Assumptions C56_any_history_refuted.
(** ... The [==] that byte sets derive compares the words; it decides whether the same keys are found *)
Theorem C56_byteset_eq : forall s s', words s = words s' <-> forall k, bs_find s k = bs_find s' k.
Proof. exact (fun s s' => iff_sym (byteset_eq s s')). Qed.
Print Assumptions C56_byteset_eq.

(** two histories of the corrected [Tree] over a hash map that end with the same pairs, having met other keys and values in between
    and in another order; and one of [Tree] as it is over arrays, with a detour *)
Definition one_way : list (op (u 32) N) :=
  [Insert (b32 200000) 1; Insert (b32 70001) 2; Insert (b32 70000) 3; Insert (b32 5) 4; Insert (b32 70002) 5; Insert (b32 327680) 6;
   Insert (b32 262144) 7].
Definition other_way : list (op (u 32) N) :=
  [Insert (b32 262144) 9; Insert (b32 327680) 6; Insert (b32 70002) 5; Insert (b32 70000) 3; Insert (b32 65536) 0; Insert (b32 200000) 8;
   Insert (b32 400000) 0; Insert (b32 5) 4; Remove (b32 65536); FindMut (b32 200000) 1; RemoveMax; Insert (b32 70001) 2; Insert (b32 262144) 7].
Definition both_hold : list (u 32 * N) :=
  [(b32 5, 4); (b32 70000, 3); (b32 70001, 2); (b32 70002, 5); (b32 200000, 1); (b32 262144, 7); (b32 327680, 6)].
Definition up16 : list (op (u 16) N) := [Insert (b16 300) 1; Insert (b16 7) 2; Insert (b16 600) 3; Insert (b16 301) 4; Insert (b16 8) 5].
Definition round16 : list (op (u 16) N) :=
  [Insert (b16 302) 6; Insert (b16 1000) 7; Remove (b16 302); Insert (b16 8) 6; RemoveMax; Remove (b16 600); Insert (b16 8) 5; Insert (b16 600) 3].
Definition hash_keys (t : vt (H32 true N)) : list N :=
  match t_data t with
  | Some d => match d_children d with Some (_, c) => map (fun x => uval (fst x)) c | None => [] end
  | None => []
  end.
Definition tree1 : vt (H32 true N) := tree_of (H32 true N) one_way (v_from_monad (H32 true N) (b32 0) 0).
Definition tree2 : vt (H32 true N) := tree_of (H32 true N) other_way (v_from_monad (H32 true N) (b32 0) 0).
Definition tree16 : vt (M16 false N) := tree_of (M16 false N) up16 (v_from_monad (M16 false N) (b16 0) 0).
Lemma tree1_reached : reached u_cmp (H32 true N) adm_any tree1 both_hold.
Proof.
  apply (reached_any_ex u_cmp one_way); [apply tree_of_ok; vm_compute; reflexivity|apply look_inj; vm_compute; reflexivity|vm_compute; reflexivity].
Qed.
Lemma tree2_reached : reached u_cmp (H32 true N) adm_any tree2 both_hold.
Proof.
  apply (reached_any_ex u_cmp other_way); [apply tree_of_ok; vm_compute; reflexivity|apply look_inj; vm_compute; reflexivity|vm_compute; reflexivity].
Qed.
Lemma tree16_reached : reached u_cmp (M16 false N) (adm_above_min u_cmp) tree16 (fst (sp_run u_cmp up16 [])).
Proof.
  apply (reached_min_ex u_cmp up16); [apply tree_of_ok; vm_compute; reflexivity|reflexivity|vm_compute; reflexivity].
Qed.
Example C56_case :
  (* the hash maps differ, nothing else does *)
  hash_keys tree1 = [4; 3; 1] /\ hash_keys tree2 = [3; 1; 4] /\ twin (TH32 true N) tree1 tree2 /\
  (* the detour ends with the very same tree *)
  look (fst (sp_run u_cmp up16 [])) = [(7, 2); (8, 5); (300, 1); (301, 4); (600, 3)] /\
  run (M16 false N) round16 (Some tree16) = Ret (Some tree16, snd (sp_run u_cmp round16 (fst (sp_run u_cmp up16 [])))) /\
  (* inserting and removing another key *)
  (exists t1, v_insert (M16 false N) tree16 (b16 302) 6 = Ret (t1, None) /\ v_remove (M16 false N) t1 (b16 302) = Ret (Ok (Some tree16, (b16 302, 6)))) /\
  (* the same byte set, filled in another order *)
  words (set_bit (bs_from_monad (b8 200) tt) (b8 3)) = words (set_bit (bs_from_monad (b8 3) tt) (b8 200)).
Proof.
  assert (A16 : allowed (T16 false N) (adm_above_min u_cmp)) by (apply AL_shallow; reflexivity).
  split; [vm_compute; reflexivity|]. split; [vm_compute; reflexivity|]. split.
  { apply (C56_exactly _ _ _ _ _ _ (TH32 true N) adm_any adm_any tree1 tree2 both_hold both_hold); auto using tree1_reached, tree2_reached;
      apply AL_fixed; reflexivity. }
  split; [vm_compute; reflexivity|]. split.
  { destruct (C56_detour _ _ _ _ _ _ (T16 false N) _ tree16 _ round16 A16 tree16_reached) as [t' [E Ht]].
    - apply (admissible_b_ok u_cmp (above_min_b u_cmp)); [apply above_min_b_ok|vm_compute; reflexivity].
    - apply look_inj. vm_compute. reflexivity.
    - rewrite E. apply (twin_eq (T16 false N)) in Ht; [|reflexivity]. rewrite <- Ht. reflexivity. }
  split; [|vm_compute; reflexivity].
  destruct (C56_undo _ _ _ _ _ _ (T16 false N) _ tree16 _ (b16 302) 6 A16 tree16_reached) as [t1 [t2 [E1 [E2 Ht]]]].
  - apply above_min_b_ok. vm_compute. reflexivity.
  - vm_compute. reflexivity.
  - assert (Hc := allowed_covered (T16 false N) _ A16).
    rewrite (repr_find (u_cmp_laws 16) (type_laws (T16 false N)) tree16 _ (b16 302)
      (reached_repr (u_cmp_laws 16) (type_laws (T16 false N)) _ _ _ Hc tree16_reached)). vm_compute. reflexivity.
  - exists t1. split; auto. rewrite E2. apply (twin_eq (T16 false N)) in Ht; [|reflexivity]. rewrite <- Ht. reflexivity.
Qed.
