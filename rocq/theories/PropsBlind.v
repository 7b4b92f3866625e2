(** C58: values are never looked at.  For the notation see the head of PropsMap.v. *)
From Verif Require Import Base Ints Ops Spec Key ByteSet ByteMap Coll Boxed BTree SizedT Tree Markers Laws Hist Types Iter IterSpec Concrete Core Rel Blind BlindCor.

(** ** C58 No operation of any tree type depends on the values stored.  Two types that nest [Tree] alike (Blind.v; leaves,
    collections, boxes and counters, and the type of the values, may differ), given the same calls with related values, answer
    with the same keys and related values, whatever the relation and the history. *)
Theorem C58_related : forall B : Build, dbg (Build := B) = true -> forall fixed K V W (R : V -> W -> Prop) cmp cmp' (O : VebOps K V) (O' : VebOps K W)
  (T : VebType fixed K V cmp O) (T' : VebType fixed K W cmp' O') cs cs',
  nested_alike T T' -> Forall2 (op_rel R) cs cs' -> (N.of_nat (length cs) <= usize_max)%N ->
  exists ot os ot' os', run O cs None = Ret (ot, os) /\ run O' cs' None = Ret (ot', os') /\ Forall2 (out_rel R) os os' /\ (ot = None <-> ot' = None).
Proof. exact (fun B Hd fixed K V W R cmp cmp' O O' T T' => related Hd R T T'). Qed.
Print Assumptions C58_related.
(** ... each in a build of its own *)
Theorem C58_builds : forall B B1 B2 : Build, dbg (Build := B) = true ->
  (usize_bits (B := B) <= usize_bits (B := B1))%N -> (usize_bits (B := B) <= usize_bits (B := B2))%N ->
  forall fixed K V W (R : V -> W -> Prop) cmp cmp' (O : VebOps K V) (O' : VebOps K W)
  (T : @VebType B fixed K V cmp O) (T' : @VebType B fixed K W cmp' O') cs cs',
  nested_alike T T' -> Forall2 (op_rel R) cs cs' -> (N.of_nat (length cs) <= usize_max (B := B))%N ->
  exists ot os ot' os', run (recompiled B1 T) cs None = Ret (ot, os) /\ run (recompiled B2 T') cs' None = Ret (ot', os') /\
    Forall2 (out_rel R) os os' /\ (ot = None <-> ot' = None).
Proof. exact (fun B B1 B2 Hd W1 W2 fixed K V W R cmp cmp' O O' T T' cs cs' => related_builds Hd R B1 B2 T T' cs cs' W1 W2). Qed.
Print Assumptions C58_builds.
(** replacing every value handed over by its image replaces every value answered by its image *)
Theorem C58_map : forall B : Build, dbg (Build := B) = true -> forall fixed K V W cmp cmp' (O : VebOps K V) (O' : VebOps K W)
  (T : VebType fixed K V cmp O) (T' : VebType fixed K W cmp' O') (f : V -> W) cs,
  nested_alike T T' -> (N.of_nat (length cs) <= usize_max)%N ->
  exists ot os ot', run O cs None = Ret (ot, os) /\ run O' (map (op_map f) cs) None = Ret (ot', map (out_map f) os) /\ (ot = None <-> ot' = None).
Proof. exact (fun B Hd fixed K V W cmp cmp' O O' T T' => mapped Hd T T'). Qed.
Print Assumptions C58_map.
(** what is answered, values aside, depends on the calls, values aside *)
Theorem C58_keys : forall B : Build, dbg (Build := B) = true -> forall fixed K V cmp (O : VebOps K V) (T : VebType fixed K V cmp O) cs cs' ot os ot' os',
  map (op_map (fun _ => tt)) cs = map (op_map (fun _ => tt)) cs' -> run O cs None = Ret (ot, os) -> run O cs' None = Ret (ot', os') ->
  map (out_map (fun _ => tt)) os = map (out_map (fun _ => tt)) os'.
Proof. exact (fun B Hd fixed K V cmp O T => erased Hd T). Qed.
Print Assumptions C58_keys.
(** every value answered was handed over *)
Theorem C58_given : forall B : Build, dbg (Build := B) = true -> forall fixed K V cmp (O : VebOps K V) (T : VebType fixed K V cmp O) cs ot os k v, run O cs None = Ret (ot, os) ->
  In (OP (Some (k, v))) os -> exists c, In c cs /\ In v (given c).
Proof. exact (fun B Hd fixed K V cmp O T => from_history Hd T). Qed.
Print Assumptions C58_given.
(** iterators over the two trees go through the same states and yield related pairs *)
Theorem C58_iter : forall B : Build, dbg (Build := B) = true -> forall fixed K V W (R : V -> W -> Prop) cmp cmp' (O : VebOps K V) (O' : VebOps K W)
  (T : VebType fixed K V cmp O) (T' : VebType fixed K W cmp' O') keq cs cs' t os t' os' dirs it ps it' ps',
  nested_alike T T' -> Forall2 (op_rel R) cs cs' -> run O cs None = Ret (Some t, os) -> run O' cs' None = Ret (Some t', os') ->
  it_run O keq t dirs it_new = Ret (it, ps) -> it_run O' keq t' dirs it_new = Ret (it', ps') ->
  it = it' /\ Forall2 (fun p p' => out_rel R (OP p) (OP p')) ps ps'.
Proof. exact (fun B Hd fixed K V W R cmp cmp' O O' T T' => related_iters Hd R T T'). Qed.
Print Assumptions C58_iter.

(** Marker32 holding numbers, and the two-level HashMap tree holding lists: on [wild], which runs into the defect of [Tree::insert],
    the second answers the images of what the first answers *)
Definition boxed (n : N) : list N := [n; n + 1]%N.
Definition shown {w V} (o : out (u w) V) : option (N * V) + bool :=
  match o with OP (Some (k, v)) => inl (Some (uval k, v)) | OP None => inl None | OB b => inr b end.
Example C58_case : nested_alike (T32 false N) (TH32 false (list N)) /\ (N.of_nat (length wild) <= usize_max)%N /\
  Forall2 (op_rel (fun v w => w = boxed v)) wild (map (op_map boxed) wild) /\
  firstn 5 (skipn 6 (map shown (answers (run (H32 false (list N)) (map (op_map boxed) wild) None)))) =
    [inl (Some (70001, [2; 3])); inl None; inl (Some (200001, [6; 7])); inl (Some (70000, [3; 4])); inl (Some (5, [4; 5]))]%N /\
  firstn 5 (skipn 6 (map shown (answers (run (H32 false N) wild None)))) =
    [inl (Some (70001, 2)); inl None; inl (Some (200001, 6)); inl (Some (70000, 3)); inl (Some (5, 4))]%N.
Proof.
  split; [intros X; reflexivity|]. split; [intros E; vm_compute in E; discriminate E|]. split; [apply op_map_rel|].
  split; vm_compute; reflexivity.
Qed.
Definition boxed_tree : vt (H32 false (list N)) := tree_of _ (map (op_map boxed) tame) (v_from_monad (H32 false (list N)) (b32 0) []).
Example C58_iter_case : nested_alike (TH32 false N) (TH32 false (list N)) /\
  final (run (H32 false N) tame None) = Some tame_tree /\ final (run (H32 false (list N)) (map (op_map boxed) tame) None) = Some boxed_tree /\
  match it_run (H32 false N) (eqb u_cmp) tame_tree [false; true; false] it_new, it_run (H32 false (list N)) (eqb u_cmp) boxed_tree [false; true; false] it_new with
  | Ret (_, os), Ret (_, os') => (map (fun o => shown (OP o)) os, map (fun o => shown (OP o)) os')
  | _, _ => ([], [])
  end = ([inl (Some (70000, 10)); inl (Some (200001, 8)); inl (Some (70001, 9))], [inl (Some (70000, [10; 11])); inl (Some (200001, [8; 9])); inl (Some (70001, [9; 10]))])%N.
Proof.
  split; [intros X; reflexivity|]. split; [apply tree_of_ok; vm_compute; reflexivity|]. split; [apply tree_of_ok; vm_compute; reflexivity|].
  vm_compute. reflexivity.
Qed.
