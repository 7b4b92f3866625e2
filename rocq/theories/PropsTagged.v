(** C46, C47: keys that carry more than their order sees.
    [Tagged fixed K' V K p cmp O' O] (Tagged.v): [O'] is a tree type over keys [K'] of which comparison, index and hashing see only
    the image under [p : K' -> K], and [O] the lawful tree type over [K] built in the same way; [lawful] is the latter's
    construction.  [op_key p], [out_key p] map the keys in a command and in an answer.
    For the rest of the notation see the heads of PropsMap.v and PropsFits.v. *)
From Verif Require Import Base Ints Ops Spec Key ByteSet ByteMap Coll Boxed BTree SizedT Tree Laws Lists CollProofs
  KeyProofs Hist Types HistProofs TypesProofs HistCor Iter IterSpec Concrete Fits FitsCor Tagged TaggedCor.

(** ** C46 Up to [p] the two answer alike: the same panics, the same emptiness, the same answers ... *)
Theorem C46_same : forall (B : Build) fixed K' V K p cmp (O' : VebOps K' V) (O : VebOps K V) (T : Tagged fixed K' V K p cmp O' O) cs,
  rmap (fun r => (fst r, map (out_key p) (snd r))) (seen (run O' cs None)) = seen (run O (map (op_key p) cs) None).
Proof. exact @tag_run. Qed.
Print Assumptions C46_same.
(** ... so nothing panics ... *)
Theorem C46_no_panic : forall (B : Build) fixed K' V K p cmp (O' : VebOps K' V) (O : VebOps K V) (T : Tagged fixed K' V K p cmp O' O) cs,
  (N.of_nat (length cs) <= usize_max)%N -> run O' cs None <> Panic.
Proof. exact @tag_no_panic. Qed.
Print Assumptions C46_no_panic.
(** ... and up to [p] the type is a sorted map whenever the insertions fit (C43), or always if the defect is corrected *)
Theorem C46_sorted_map : forall (B : Build) fixed K' V K p cmp (O' : VebOps K' V) (O : VebOps K V) (T : Tagged fixed K' V K p cmp O' O) cs,
  admissible cmp (adm_fits (lawful T)) (map (op_key p) cs) [] ->
  exists ot os, run O' cs None = Ret (ot, os) /\ map (out_key p) os = snd (sp_run cmp (map (op_key p) cs) []) /\
    (ot = None <-> fst (sp_run cmp (map (op_key p) cs) []) = []).
Proof. exact @tag_sorted_map. Qed.
Print Assumptions C46_sorted_map.
Theorem C46_fixed_sorted_map : forall (B : Build) K' V K p cmp (O' : VebOps K' V) (O : VebOps K V) (T : Tagged true K' V K p cmp O' O) cs,
  admissible cmp adm_any (map (op_key p) cs) [] ->
  exists ot os, run O' cs None = Ret (ot, os) /\ map (out_key p) os = snd (sp_run cmp (map (op_key p) cs) []) /\
    (ot = None <-> fst (sp_run cmp (map (op_key p) cs) []) = []).
Proof. exact @tag_fixed_sorted_map. Qed.
Print Assumptions C46_fixed_sorted_map.
(** Iterators over the two trees go through the same states, yield the same items and give the same hints, up to [p] ... *)
Theorem C46_iter : forall (B : Build) fixed K' V K p cmp (O' : VebOps K' V) (O : VebOps K V) (T : Tagged fixed K' V K p cmp O' O) (e' : K' -> K' -> bool),
  (forall a b, e' a b = eqb cmp (p a) (p b)) -> forall cs t os dirs, run O' cs None = Ret (Some t, os) ->
  exists t' os', run O (map (op_key p) cs) None = Ret (Some t', os') /\
    rmap (fun r => (it_key p (fst r), map (omap (fun kv => (p (fst kv), snd kv))) (snd r))) (it_run O' e' t dirs it_new) =
    it_run O (eqb cmp) t' dirs it_new /\
    forall it ps, it_run O' e' t dirs it_new = Ret (it, ps) -> it_size_hint O' t it = it_size_hint O t' (it_key p it).
Proof. exact @tag_iter. Qed.
Print Assumptions C46_iter.
(** ... so they consume the sorted list from both ends *)
Theorem C46_deque : forall (B : Build) fixed K' V K p cmp (O' : VebOps K' V) (O : VebOps K V) (T : Tagged fixed K' V K p cmp O' O) (e' : K' -> K' -> bool),
  (forall a b, e' a b = eqb cmp (p a) (p b)) -> forall cs t os dirs, admissible cmp (adm_fits (lawful T)) (map (op_key p) cs) [] ->
  run O' cs None = Ret (Some t, os) ->
  exists it ps, it_run O' e' t dirs it_new = Ret (it, ps) /\
    map (omap (fun kv => (p (fst kv), snd kv))) ps = fst (sp_pops dirs (fst (sp_run cmp (map (op_key p) cs) []))).
Proof. exact @tag_deque. Qed.
Print Assumptions C46_deque.
(** All the array keys of the library are of this kind as soon as their elements are *)
Theorem C46_arrays : forall T' T (f : T' -> T) cmp' cmp, (forall a b, cmp' a b = cmp (f a) (f b)) ->
  KeyMap (m2 f) f f (arr2_key cmp') (arr2_key cmp) /\ KeyMap (m3 f) f (m2 f) (arr3_key cmp') (arr3_key cmp) /\
  KeyMap (m4 f) (m2 f) (m2 f) (arr4_key cmp') (arr4_key cmp) /\ KeyMap (m5 f) (m2 f) (m3 f) (arr5_key cmp') (arr5_key cmp) /\
  KeyMap (m6 f) (m3 f) (m3 f) (arr6_key cmp') (arr6_key cmp) /\ KeyMap (m7 f) (m3 f) (m4 f) (arr7_key cmp') (arr7_key cmp) /\
  KeyMap (m8 f) (m4 f) (m4 f) (arr8_key cmp') (arr8_key cmp) /\ KeyMap (m16 f) (m8 f) (m8 f) (arr16_key cmp') (arr16_key cmp).
Proof. exact @array_maps. Qed.
Print Assumptions C46_arrays.

(** Arrays of numbers with a label that their order ignores: two levels of [Tree], a hash map and a [BTreeMap] at the leaves *)
Definition lb : Type := N * N.
Definition lb_cmp (a b : lb) : comparison := N.compare (fst a) (fst b).
Definition lb_eq (a b : lb) : bool := N.eqb (fst a) (fst b).
Definition L2 {B : Build} (fixed : bool) (V : Type) : VebOps (arr2 lb) V :=
  Tree_ops fixed (arr2_key lb_cmp) (BTree_ops unit lb_cmp) (BTree_ops V lb_cmp) (Hash_coll lb_eq (BTree_ops V lb_cmp)).
Definition N2 {B : Build} (fixed : bool) (V : Type) : VebOps (arr2 N) V :=
  Tree_ops fixed (arr2_key N.compare) (BTree_ops unit N.compare) (BTree_ops V N.compare) (Hash_coll N.eqb (BTree_ops V N.compare)).
Definition TL2 {B : Build} (fixed : bool) (V : Type) : Tagged fixed (arr2 lb) V (arr2 N) (m2 fst) (cmp2 N.compare) (L2 fixed V) (N2 fixed V) :=
  TG_Tree fixed _ _ _ _ _ _ _ _ _ _ _ _ (arr2_laws n_cmp_laws) (arr2_map fst lb_cmp N.compare (fun _ _ => eq_refl)) _ _ _ _ _ _
    (TG_BTree fixed _ _ _ fst lb_cmp N.compare n_cmp_laws (fun _ _ => eq_refl)) (TG_BTree fixed _ _ _ fst lb_cmp N.compare n_cmp_laws (fun _ _ => eq_refl))
    (TC_Hash _ _ _ _ fst lb_eq N.eqb N.eqb_eq (fun _ _ => eq_refl)).
Definition L4 {B : Build} (fixed : bool) (V : Type) : VebOps (arr4 lb) V :=
  Tree_ops fixed (arr4_key lb_cmp) (L2 fixed unit) (L2 fixed V) (Hash_coll (fun a b => arr_eq (m2 fst a) (m2 fst b)) (L2 fixed V)).
Definition N4 {B : Build} (fixed : bool) (V : Type) : VebOps (arr4 N) V :=
  Tree_ops fixed (arr4_key N.compare) (N2 fixed unit) (N2 fixed V) (Hash_coll arr_eq (N2 fixed V)).
Definition TL4 {B : Build} (fixed : bool) (V : Type) : Tagged fixed (arr4 lb) V (arr4 N) (m4 fst) (cmp4 N.compare) (L4 fixed V) (N4 fixed V) :=
  TG_Tree fixed _ _ _ _ _ _ _ _ _ _ _ _ (arr4_laws n_cmp_laws) (arr4_map fst lb_cmp N.compare (fun _ _ => eq_refl)) _ _ _ _ _ _
    (TL2 fixed unit) (TL2 fixed V) (TC_Hash _ _ _ _ (m2 fst) _ arr_eq arr_eq_ok (fun _ _ => eq_refl)).

Definition k4 (t a b c d : N) : arr4 lb := A4 (a, t) (b, t) (c, t) (d, t).
Definition labels4 (k : arr4 lb) : N * list N := let '(A4 a b c d) := k in
  (fold_left (fun n x => 10 * n + fst x) [a; b; c; d] 0, map snd [a; b; c; d])%N.
Definition shown4 (o : out (arr4 lb) N) : option (N * list N * N) :=
  match o with OP (Some (k, v)) => Some (labels4 k, v) | _ => None end.
Definition hist4 : list (op (arr4 lb) N) :=
  [Insert (k4 1 1 1 1 1) 1; Insert (k4 2 1 1 2 1) 2; Insert (k4 3 1 1 2 2) 3; Insert (k4 4 1 2 1 1) 4; Insert (k4 5 2 1 1 1) 5;
   Insert (k4 6 1 1 2 2) 6; Insert (k4 7 2 1 1 1) 7; Find (k4 8 1 1 2 2); Find (k4 9 2 1 1 1); Succ (k4 10 1 1 2 1); Pred (k4 11 2 1 1 1);
   Remove (k4 12 1 1 2 1); RemoveMin; RemoveMax; Remove (k4 13 1 1 2 2); Min]%N.
Example C46_case : admissible (cmp4 N.compare) (adm_fits (lawful (TL4 false N))) (map (op_key (m4 fst)) hist4) [] /\
  (N.of_nat (length hist4) <= usize_max)%N /\ admissible (cmp4 N.compare) adm_any (map (op_key (m4 fst)) hist4) [].
Proof.
  split; [|split].
  - apply (admissible_b_ok (cmp4 N.compare) (fun l k => fits (lawful (TL4 false N)) (keys l) k)); [intros l k E; exact E|vm_compute; reflexivity].
  - vm_compute. discriminate.
  - apply (admissible_b_ok (cmp4 N.compare) (fun _ _ => true)); [intros; exact I|vm_compute; reflexivity].
Qed.
(** the answers: digits of the key, its labels, value *)
Example C46_answers : map shown4 (answers (run (L4 false N) hist4 None)) =
  [None; None; None; None; None; Some (1122, [6; 6; 3; 3], 3); Some (2111, [5; 5; 5; 5], 5); Some (1122, [8; 8; 6; 6], 6);
   Some (2111, [7; 7; 7; 7], 7); Some (1122, [10; 10; 6; 6], 6); Some (1211, [4; 4; 4; 4], 4); Some (1121, [12; 12; 2; 2], 2);
   Some (1111, [1; 1; 1; 1], 1); Some (2111, [7; 7; 7; 7], 7); Some (1122, [2; 2; 6; 6], 6); Some (1211, [4; 4; 4; 4], 4)]%N.
Proof. vm_compute. reflexivity. Qed.

(** iterating the tree left by the first seven calls from both ends: digits of the key, its labels, value *)
Definition eq4 (a b : arr4 lb) : bool := eqb (cmp4 N.compare) (m4 fst a) (m4 fst b).
Definition it4 : vt (L4 false N) := tree_of (L4 false N) (firstn 7 hist4) (v_from_monad (L4 false N) (k4 0 0 0 0 0) 0%N).
Example C46_iter_case : (forall a b, eq4 a b = eqb (cmp4 N.compare) (m4 fst a) (m4 fst b)) /\
  (exists os, run (L4 false N) (firstn 7 hist4) None = Ret (Some it4, os)) /\
  admissible (cmp4 N.compare) (adm_fits (lawful (TL4 false N))) (map (op_key (m4 fst)) (firstn 7 hist4)) [] /\
  match it_run (L4 false N) eq4 it4 [false; true; false; true; false; true] it_new with
  | Ret (_, ps) => map (fun o => shown4 (OP o)) ps | Panic => [] end =
  [Some (1111, [1; 1; 1; 1], 1); Some (2111, [7; 7; 7; 7], 7); Some (1121, [2; 2; 2; 2], 2); Some (1211, [4; 4; 4; 4], 4);
   Some (1122, [2; 2; 6; 6], 6); None]%N.
Proof.
  split; [reflexivity|]. split; [|split; [|vm_compute; reflexivity]].
  - eexists. apply run_final. apply tree_of_ok. vm_compute. reflexivity.
  - apply (admissible_b_ok (cmp4 N.compare) (fun l k => fits (lawful (TL4 false N)) (keys l) k)); [intros l k E; exact E|vm_compute; reflexivity].
Qed.

(** ** C47 Which key an insertion of an equal key returns and keeps.  "If k was already present, replace and return the previously
    stored values" (src/lib.rs 139-140): [Tree] does so with its minimum and maximum ... *)
Theorem C47_tree_min : forall (B : Build) fixed K Hi Lo V (ko : KeyOps K Hi Lo) S Tr (C : CollOps Hi Lo V Tr) (t : vt (Tree_ops fixed ko S Tr C)) k v,
  k_cmp ko k (fst (t_min t)) = Eq ->
  exists t', v_insert (Tree_ops fixed ko S Tr C) t k v = Ret (t', Some (t_min t)) /\ t_min t' = (k, v) /\ t_data t' = t_data t.
Proof. exact @tree_replace_min. Qed.
Print Assumptions C47_tree_min.
Theorem C47_tree_max : forall (B : Build) fixed K Hi Lo V (ko : KeyOps K Hi Lo) S Tr (C : CollOps Hi Lo V Tr) (t : vt (Tree_ops fixed ko S Tr C)) d k v,
  t_data t = Some d -> k_cmp ko k (fst (t_min t)) = Gt -> k_cmp ko k (fst (d_max d)) = Eq ->
  exists t', v_insert (Tree_ops fixed ko S Tr C) t k v = Ret (t', Some (d_max d)) /\
    t_min t' = t_min t /\ t_data t' = Some (TD (k, v) (d_children d)).
Proof. exact @tree_replace_max. Qed.
Print Assumptions C47_tree_max.
(** ... [BTreeMap] keeps its keys and returns the key it was given, whatever the comparison ... *)
Theorem C47_btree : forall K V cmp (t : vt (BTree_ops V cmp)) k v k0 v0, v_find (BTree_ops V cmp) t k = Ret (Some (k0, v0)) ->
  exists t', v_insert (BTree_ops V cmp) t k v = Ret (t', Some (k, v0)) /\ @map (K * V) K fst t' = map fst t.
Proof. exact @btree_replace. Qed.
Print Assumptions C47_btree.
Definition bt3 : list (lb * N) := [((1, 1), 10); ((2, 2), 20); ((3, 3), 30)]%N.
Definition lt4 : vt (L4 false N) := tree_of (L4 false N) (firstn 5 hist4) (v_from_monad (L4 false N) (k4 0 0 0 0 0) 0%N).
Example C47_btree_case : v_find (BTree_ops N lb_cmp) bt3 (2, 7)%N = Ret (Some ((2, 2), 20)%N).
Proof. vm_compute. reflexivity. Qed.
Example C47_tree_case : k_cmp (arr4_key lb_cmp) (k4 9 1 1 1 1) (fst (t_min lt4)) = Eq /\
  exists d, t_data lt4 = Some d /\ d_children d <> None /\ k_cmp (arr4_key lb_cmp) (k4 9 2 1 1 1) (fst (t_min lt4)) = Gt /\
    k_cmp (arr4_key lb_cmp) (k4 9 2 1 1 1) (fst (d_max d)) = Eq.
Proof.
  split; [vm_compute; reflexivity|].
  destruct (some_test (fun d => negb (is_none (d_children d)) && eqb (cmp4 lb_cmp) (k4 9 2 1 1 1) (fst (d_max d))) (t_data lt4)) as [d [E H]];
    [vm_compute; reflexivity|].
  exists d. split; [exact E|]. apply andb_prop in H. destruct H as [H1 H2]. split; [|split].
  - intros E'. rewrite E' in H1. discriminate H1.
  - vm_compute. reflexivity.
  - cbn [k_cmp arr4_key]. unfold eqb in H2. destruct (cmp4 lb_cmp (k4 9 2 1 1 1) (fst (d_max d))); congruence.
Qed.
(** ... so what is returned need not be what was stored ... *)
Theorem C47_returns_stored_refuted : exists (t t' : vt (BTree_ops N lb_cmp)) k v p q, reachable (BTree_ops N lb_cmp) t /\
  v_find (BTree_ops N lb_cmp) t k = Ret (Some p) /\ v_insert (BTree_ops N lb_cmp) t k v = Ret (t', Some q) /\ q <> p.
Proof.
  exists bt3, [((1, 1), 10); ((2, 2), 21); ((3, 3), 30)]%N, (2, 7)%N, 21%N, ((2, 2), 20)%N, ((2, 7), 20)%N.
  split; [|split; [|split]].
  - apply (reachable_ex [Insert (1, 1)%N 10%N; Insert (2, 2)%N 20%N; Insert (3, 3)%N 30%N]); vm_compute; reflexivity.
  - vm_compute. reflexivity.
  - vm_compute. reflexivity.
  - intros E. discriminate E.
Qed.
Print Assumptions C47_returns_stored_refuted.
(** ... and the keys [Tree] finds can be ones never inserted: half of it the key asked for, half a stored one *)
Theorem C47_found_inserted_refuted : exists cs (k : arr4 lb) ot os p, run (L4 false N) (cs ++ [Find k]) None = Ret (ot, os ++ [OP (Some p)]) /\
  ~ In (fst p) (k :: flat_map (fun c => match c with Insert k' _ => [k'] | _ => [] end) cs).
Proof.
  exists (firstn 5 hist4), (k4 8 1 1 2 2), (Some lt4), (map (fun _ => OP None) (firstn 5 hist4)),
    (A4 (1, 8) (1, 8) (2, 3) (2, 3), 3)%N.
  split; [|intros H; apply (in_map labels4) in H; vm_compute in H; repeat (destruct H as [H|H]; [discriminate H|]); exact H].
  assert (E : run (L4 false N) (firstn 5 hist4) None = Ret (Some lt4, map (fun _ => OP None) (firstn 5 hist4))).
  { rewrite (run_final (firstn 5 hist4) lt4); [|apply tree_of_ok; vm_compute; reflexivity]. f_equal. }
  assert (E' : v_find (L4 false N) lt4 (k4 8 1 1 2 2) = Ret (Some (A4 (1, 8) (1, 8) (2, 3) (2, 3), 3)%N)) by (vm_compute; reflexivity).
  rewrite (run_app _ _ _ _ _ E). cbn [run step]. unfold query. rewrite E'. reflexivity.
Qed.
Print Assumptions C47_found_inserted_refuted.
