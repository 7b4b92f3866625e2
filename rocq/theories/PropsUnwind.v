(** C62: what a panic that is caught leaves of a tree (Unwind.v).  For the notation see the head of PropsMap.v. *)
From Verif Require Import Base Ints Ops Spec Key ByteSet ByteMap Coll Boxed BTree SizedT Tree Markers Laws Hist Types HistProofs TypesProofs Iter IterSpec
  Fits FitsCor Concrete PropsMap Unwind UnwindCor.

(** ** C62 A caller that catches a panic of a key type (or of a collection) in the midst of [insert] keeps a tree that still works,
    but all pairs except the smallest and the largest may be gone, and a [SizedVebTree] counts them still. *)
(** watching the state of the tree does not change what [insert] does *)
Theorem C62_watch : forall (B : Build) fixed K Hi Lo V (ko : KeyOps K Hi Lo) (S : VebOps Hi unit) (Tr : VebOps Lo V) (C : CollOps Hi Lo V Tr) t k v,
  snd (w_insert fixed ko S Tr C t k v) = v_insert (Tree_ops fixed ko S Tr C) t k v.
Proof. exact (fun B fixed K Hi Lo V ko S Tr C t k v => w_insert_same fixed t k v). Qed.
Print Assumptions C62_watch.
(** every tree of earlier properties is one of the trees considered here *)
Theorem C62_reachable : forall (B : Build) fixed K V cmp (O : VebOps K V) (T : VebType fixed K V cmp O) t, reachable O t -> survives T t.
Proof. exact @reachable_survives. Qed.
Print Assumptions C62_reachable.
(** No later call panics, and each accounts for all pairs held: [Tree::insert] with its defect or without, key types with any insertion order. *)
Theorem C62_calls : forall (B : Build) fixed K V cmp (O : VebOps K V) (T : VebType fixed K V cmp O) t d c, uncounted T = true -> survives T t ->
  contents O t d -> (forall k v, c = Insert k v -> (N.of_nat (length d) < usize_max)%N) ->
  exists ot o, step O c (Some t) = Ret (ot, o) /\
    match ot with
    | Some t' => survives T t' /\ exists d', contents O t' d' /\ Permutation (pairs_in c o ++ d) (pairs_out c o ++ d')
    | None => Permutation d (pairs_out c o)
    end.
Proof. exact (fun B fixed K V cmp O T t d c Hu => survives_step T Hu t d c). Qed.
Print Assumptions C62_calls.
(** such a tree holds something *)
Theorem C62_contents : forall (B : Build) fixed K V cmp (O : VebOps K V) (T : VebType fixed K V cmp O) t, uncounted T = true -> survives T t ->
  exists d, contents O t d /\ d <> [].
Proof. exact (fun B fixed K V cmp O T t Hu => survives_contents T Hu t). Qed.
Print Assumptions C62_contents.
(** the caught panic itself: nothing is held twice or made up, and at least one of the old pairs and the new one is lost *)
Theorem C62_caught : forall (B : Build) fixed K V cmp (O : VebOps K V) (T : VebType fixed K V cmp O) t d k v s, uncounted T = true -> survives T t ->
  contents O t d -> In s (unwound T t k v) ->
  survives T s /\ exists d' lost, contents O s d' /\ Permutation ((k, v) :: d) (d' ++ lost) /\ lost <> [].
Proof. exact (fun B fixed K V cmp O T t d k v s Hu => caught_pairs T Hu t d k v s). Qed.
Print Assumptions C62_caught.
(** answers are stored pairs, and what is inserted afterwards is found and can be removed *)
Theorem C62_stored : forall (B : Build) fixed K V cmp (O : VebOps K V) (T : VebType fixed K V cmp O) t d, uncounted T = true -> survives T t -> contents O t d ->
  (exists p, v_min_val O t = Ret p /\ In p d) /\ (exists p, v_max_val O t = Ret p /\ In p d) /\
  (forall k p, v_find O t k = Ret (Some p) -> In p d /\ fst p = k) /\
  (forall k p, v_predecessor O t k = Ret (Some p) -> In p d) /\
  (forall k p, v_successor O t k = Ret (Some p) -> In p d) /\
  (forall k v t' p, (N.of_nat (length d) < usize_max)%N -> v_insert O t k v = Ret (t', Some p) -> In p d) /\
  (forall k ot p, v_remove O t k = Ret (Ok (ot, p)) -> In p d /\ fst p = k).
Proof. exact (fun B fixed K V cmp O T t d Hu => survives_stored T Hu t d). Qed.
Print Assumptions C62_stored.
Theorem C62_inserted : forall (B : Build) fixed K V cmp (O : VebOps K V) (T : VebType fixed K V cmp O) t d k v, uncounted T = true -> survives T t ->
  contents O t d -> (N.of_nat (length d) < usize_max)%N ->
  exists t' r, v_insert O t k v = Ret (t', r) /\ v_find O t' k = Ret (Some (k, v)) /\ exists ot, v_remove O t' k = Ret (Ok (ot, (k, v))).
Proof. exact (fun B fixed K V cmp O T t d k v Hu => survives_read T Hu t d k v). Qed.
Print Assumptions C62_inserted.

(** With insertions that are allowed, a tree stays a sorted map across caught panics: of the pairs it holds then. *)
Theorem C62_sorted_map : forall (B : Build) fixed K V cmp (O : VebOps K V) (T : VebType fixed K V cmp O) adm t l cs, uncounted T = true -> allowed T adm ->
  orderly T adm t l -> ascending cmp l /\ contents O t l /\
  (admissible cmp adm cs l -> exists ot, run O cs (Some t) = Ret (ot, snd (sp_run cmp cs l)) /\ (ot = None <-> fst (sp_run cmp cs l) = [])).
Proof. exact (fun B fixed K V cmp O T adm t l cs Hu H => orderly_map T Hu adm (allowed_covered T adm H) t l cs). Qed.
Print Assumptions C62_sorted_map.
Theorem C62_iter : forall (B : Build) fixed K V cmp (O : VebOps K V) (T : VebType fixed K V cmp O) adm t l dirs, uncounted T = true -> allowed T adm ->
  orderly T adm t l -> exists it, it_run O (eqb cmp) t dirs it_new = Ret (it, fst (sp_pops dirs l)).
Proof. exact (fun B fixed K V cmp O T adm t l dirs Hu H => orderly_iter T Hu adm (allowed_covered T adm H) t l dirs). Qed.
Print Assumptions C62_iter.
Theorem C62_orderly : forall (B : Build) fixed K V cmp (O : VebOps K V) (T : VebType fixed K V cmp O) adm, uncounted T = true -> allowed T adm ->
  (forall t l, reached cmp O adm t l -> orderly T adm t l) /\
  (forall t l k v s, orderly T adm t l -> adm l k -> In s (unwound T t k v) ->
    exists l' lost, orderly T adm s l' /\ Permutation ((k, v) :: l) (l' ++ lost) /\ lost <> []).
Proof.
  exact (fun B fixed K V cmp O T adm Hu H => conj (reached_orderly T Hu adm (allowed_covered T adm H)) (orderly_caught T Hu adm (allowed_covered T adm H))).
Qed.
Print Assumptions C62_orderly.
(** How much is lost: with a [Tree] on top, an insertion between the smallest and the largest key can leave these two alone. *)
Theorem C62_lost : forall (B : Build) fixed K V cmp (O : VebOps K V) (T : VebType fixed K V cmp O) adm t mn mid mx k v, tree_top T = true -> allowed T adm ->
  orderly T adm t (mn :: mid ++ [mx]) -> cmp (fst mn) k = Lt -> cmp k (fst mx) = Lt ->
  exists s, In s (unwound T t k v) /\ contents O s [mn; mx].
Proof. exact (fun B fixed K V cmp O T adm t mn mid mx k v Ht H => lose T adm Ht H t mn mid mx k v). Qed.
Print Assumptions C62_lost.
(** Exactly what can be left of a [Tree]: the old pairs, or (Unwind.v, [remnant]) the new pair in place of the old end, or the two ends alone. *)
Theorem C62_left : forall (B : Build) fixed K V cmp (O : VebOps K V) (T : VebType fixed K V cmp O) adm t l k v d, tree_top T = true -> allowed T adm ->
  orderly T adm t l -> adm l k -> (exists s, In s (unwound T t k v) /\ contents O s d) <-> remnant cmp l (k, v) d.
Proof. exact (fun B fixed K V cmp O T adm t l k v d Ht H => left_exactly T adm Ht H t l k v d). Qed.
Print Assumptions C62_left.

(** [SizedVebTree]: its count is at least the number of pairs held, and is not corrected ... *)
Theorem C62_count : forall (B : Build) fixed K V cmp (O : VebOps K V) (T : VebType fixed K V cmp O) t, uncounted T = true ->
  survives (VT_Sized _ _ _ _ _ T) t ->
  exists d, contents (Sized_ops O) t d /\ contents O (sz_tree t) d /\ d <> [] /\ (N.of_nat (length d) <= sz_len t)%N.
Proof. exact (fun B fixed K V cmp O T t Hu => counted_size T Hu t). Qed.
Print Assumptions C62_count.
Theorem C62_count_kept : forall (B : Build) fixed K V cmp (O : VebOps K V) (T : VebType fixed K V cmp O) (t s : vt (Sized_ops O)) k v,
  In s (unwound (VT_Sized _ _ _ _ _ T) t k v) <-> In (sz_tree s) (unwound T (sz_tree t) k v) /\ sz_len s = sz_len t.
Proof. exact (fun B fixed K V cmp O T t s k v => counted_unwound T t s k v). Qed.
Print Assumptions C62_count_kept.
(** ... but only [is_monad] looks at it: every other call answers as the tree inside would, as long as the count leaves room *)
Theorem C62_count_calls : forall (B : Build) fixed K V cmp (O : VebOps K V) (T : VebType fixed K V cmp O) c t, uncounted T = true ->
  survives (VT_Sized _ _ _ _ _ T) t -> c <> IsMonad -> (forall k v, c = Insert k v -> (sz_len t < usize_max)%N) ->
  exists ot o, step (Sized_ops O) c (Some t) = Ret (ot, o) /\ step O c (Some (sz_tree t)) = Ret (option_map sz_tree ot, o) /\
    match ot with Some t' => survives (VT_Sized _ _ _ _ _ T) t' | None => True end.
Proof. exact (fun B fixed K V cmp O T c t Hu => counted_step T Hu c t). Qed.
Print Assumptions C62_count_calls.
(** [is_monad] panics in a build with debug assertions exactly when one pair is left and the count says otherwise *)
Theorem C62_is_monad : forall (B : Build) fixed K V cmp (O : VebOps K V) (T : VebType fixed K V cmp O) t d, uncounted T = true ->
  survives (VT_Sized _ _ _ _ _ T) t -> contents (Sized_ops O) t d ->
  v_is_monad (Sized_ops O) t = if ((length d =? 1) && dbg && negb (sz_len t =? 1)%N)%bool then Panic else Ret (length d =? 1).
Proof. exact (fun B fixed K V cmp O T t d Hu => counted_is_monad T Hu t d). Qed.
Print Assumptions C62_is_monad.

(** The iterator: a panic in [next] or [next_back] that is caught leaves it exhausted, however many items there were.  [w_step back] is
    the call, watched; it does what [it_call back] does. *)
Theorem C62_iterator : forall (B : Build) K V (O : VebOps K V) (keq : K -> K -> bool) t back it,
  snd (w_step O keq t back it) = it_call O keq t back it /\ (it_data it <> None -> exists s, In s (fst (w_step O keq t back it))) /\
  forall s, In s (fst (w_step O keq t back it)) ->
    (forall dirs, it_run O keq t dirs s = Ret (s, map (fun _ => None) dirs)) /\ it_size_hint O t s = Ret (0%N, Some 0%N).
Proof. exact @caught_iter. Qed.
Print Assumptions C62_iterator.
(** one item of five is read, then a panic in [next_back]: at [max_val], at [==], at [clone] *)
Example C62_iterator_case : match it_next (H32 false N) u_eqb tame_tree it_new with
  | Ret (it, Some p) => uval (fst p) = 70000%N /\ (length (fst (w_step (H32 false N) u_eqb tame_tree true it)) =? 3) = true /\
      match snd (w_step (H32 false N) u_eqb tame_tree true it) with Ret (_, Some q) => uval (fst q) = 200001%N | _ => False end
  | _ => False end.
Proof. vm_compute. repeat split. Qed.

(** five pairs, and a panic while 70002 is inserted between them: of the states left one holds the five pairs, one the ends *)
Definition cut_tree : vt (H32 false N) :=
  match nth_error (unwound (TH32 false N) tame_tree (b32 70002) 7%N) 3 with Some s => s | None => tame_tree end.
Definition cut_held : list (u 32 * N) := match drain (v_remove_min (H32 false N)) 9 (Some cut_tree) with Ret (_, d) => d | Panic => [] end.
Lemma cut_in : In cut_tree (unwound (TH32 false N) tame_tree (b32 70002) 7%N).
Proof.
  assert (H : match nth_error (unwound (TH32 false N) tame_tree (b32 70002) 7%N) 3 with Some _ => true | None => false end = true) by (vm_compute; reflexivity).
  unfold cut_tree. destruct (nth_error (unwound (TH32 false N) tame_tree (b32 70002) 7%N) 3) as [s|] eqn:E; [|discriminate H]. exact (nth_error_In _ _ E).
Qed.
Lemma cut_contents : contents (H32 false N) cut_tree cut_held.
Proof.
  exists 9. unfold cut_held. assert (H : match drain (v_remove_min (H32 false N)) 9 (Some cut_tree) with Ret (None, _) => true | _ => false end = true) by (vm_compute; reflexivity).
  destruct (drain (v_remove_min (H32 false N)) 9 (Some cut_tree)) as [[[|] d]|]; try discriminate H. reflexivity.
Qed.
Example C62_case : uncounted (TH32 false N) = true /\ tree_top (TH32 false N) = true /\ survives (TH32 false N) tame_tree /\ survives (TH32 false N) cut_tree /\
  contents (H32 false N) cut_tree cut_held /\ look cut_held = [(70000, 10); (200001, 8)]%N /\
  (N.of_nat (length (unwound (TH32 false N) tame_tree (b32 70002) 7%N)) = 4)%N /\
  map show (answers (run (H32 false N) [Find (b32 70001); Insert (b32 90000) 3%N; Insert (b32 90001) 4%N; Succ (b32 80000); Remove (b32 90001); Pred (b32 200000)] (Some cut_tree))) =
    [inl None; inl None; inl None; inl (Some (90000, 3)); inl (Some (90001, 4)); inl (Some (90000, 3))]%N.
Proof.
  split; [reflexivity|]. split; [reflexivity|].
  assert (H : survives (TH32 false N) tame_tree).
  { apply reachable_survives. apply (reachable_ex tame); [apply tree_of_ok|]; vm_compute; reflexivity. }
  split; [exact H|]. split; [exact (sv_caught _ _ _ _ _ H cut_in)|]. split; [exact cut_contents|]. repeat split; vm_compute; reflexivity.
Qed.
(** allowed insertions: the five pairs, cut down by a panic at an insertion that is allowed *)
Example C62_orderly_case : allowed (TH32 false N) (adm_fits (TH32 false N)) /\ uncounted (TH32 false N) = true /\
  orderly (TH32 false N) (adm_fits (TH32 false N)) tame_tree tame_list /\ adm_fits (TH32 false N) tame_list (b32 70002) /\
  orderly (TH32 false N) (adm_fits (TH32 false N)) cut_tree cut_held /\
  admissible u_cmp (adm_fits (TH32 false N)) [Insert (b32 90000) 3%N; Succ (b32 80000)] cut_held.
Proof.
  assert (Ha : allowed (TH32 false N) (adm_fits (TH32 false N))) by (intros l k _ H; exact H).
  assert (Ho : orderly (TH32 false N) (adm_fits (TH32 false N)) tame_tree tame_list).
  { apply (reached_orderly (TH32 false N) eq_refl _ (allowed_covered _ _ Ha)). exists tame, (answers (run (H32 false N) tame None)). split; [|split].
    - apply (admissible_b_ok u_cmp (fun l k => fits (TH32 false N) (keys l) k)); [auto|vm_compute; reflexivity].
    - apply run_final, tree_of_ok. vm_compute. reflexivity.
    - apply look_inj. vm_compute. reflexivity. }
  assert (Hk : adm_fits (TH32 false N) tame_list (b32 70002)) by (vm_compute; reflexivity).
  split; [exact Ha|]. split; [reflexivity|]. split; [exact Ho|]. split; [exact Hk|].
  split; [exact (or_caught _ _ _ _ _ _ _ _ Ho Hk cut_in cut_contents)|].
  cbn [admissible]. split; [|auto]. split; [vm_compute; reflexivity|]. rewrite <- (map_length (fun p => (uval (fst p), snd p))). vm_compute. reflexivity.
Qed.

(** 300000 goes above the largest key 200001: what can be left *)
Example C62_left_case : tree_top (TH32 false N) = true /\ adm_fits (TH32 false N) tame_list (b32 300000) /\
  map (fun s => match drain (v_remove_min (H32 false N)) 9 (Some s) with Ret (None, d) => look d | _ => [] end) (unwound (TH32 false N) tame_tree (b32 300000) 7%N) =
    [look tame_list; look tame_list; look (removelast tame_list ++ [(b32 300000, 7%N)]); [(70000, 10); (300000, 7)]%N].
Proof. split; [reflexivity|]. split; vm_compute; reflexivity. Qed.

(** [SizedVebTree]: three pairs, and a panic at the fourth insertion leave two; [len] still answers 3; after one removal [is_monad] panics *)
Definition ST16 : VebType false (u 16) N u_cmp (Sized_ops (M16 false N)) := VT_Sized _ _ _ _ _ (T16 false N).
Definition three : vt (Sized_ops (M16 false N)) :=
  tree_of (Sized_ops (M16 false N)) [Insert (b16 10) 1%N; Insert (b16 300) 2%N; Insert (b16 900) 3%N] (v_from_monad (Sized_ops (M16 false N)) (b16 0) 0%N).
Definition overcounted : vt (Sized_ops (M16 false N)) :=
  match nth_error (unwound ST16 three (b16 500) 4%N) 3 with Some s => s | None => three end.
Lemma overcounted_survives : survives ST16 overcounted.
Proof.
  assert (H : match nth_error (unwound ST16 three (b16 500) 4%N) 3 with Some _ => true | None => false end = true) by (vm_compute; reflexivity).
  unfold overcounted. destruct (nth_error (unwound ST16 three (b16 500) 4%N) 3) as [s|] eqn:E; [|discriminate H].
  apply (sv_caught ST16 three (b16 500) 4%N); [|exact (nth_error_In _ _ E)]. apply reachable_survives.
  exists [Insert (b16 10) 1%N; Insert (b16 300) 2%N; Insert (b16 900) 3%N]. eexists. split; [apply run_final, tree_of_ok; vm_compute; reflexivity|].
  apply fitting_b_ok. vm_compute. reflexivity.
Qed.
Theorem C62_len_refuted : exists t d, survives ST16 t /\ contents (Sized_ops (M16 false N)) t d /\ (N.of_nat (length d) = 2)%N /\ sz_len t = 3%N.
Proof.
  destruct (counted_size (T16 false N) eq_refl overcounted overcounted_survives) as [d [Hd _]]. exists overcounted, d. split; [exact overcounted_survives|]. split; [exact Hd|].
  split; [|vm_compute; reflexivity].
  assert (H : match drain (v_remove_min (Sized_ops (M16 false N))) 9 (Some overcounted) with Ret (None, d) => (N.of_nat (length d) =? 2)%N | _ => false end = true)
    by (vm_compute; reflexivity).
  destruct (drain (v_remove_min (Sized_ops (M16 false N))) 9 (Some overcounted)) as [[[|] d']|] eqn:E; try discriminate H.
  apply N.eqb_eq in H. rewrite <- H. do 2 f_equal. apply (HistCor.contents_fun _ overcounted d d' Hd). exists 9. exact E.
Qed.
Print Assumptions C62_len_refuted.
Theorem C62_is_monad_refuted : exists t, survives ST16 t /\ v_is_monad (Sized_ops (M16 false N)) t = Panic.
Proof.
  assert (H : match step (Sized_ops (M16 false N)) RemoveMin (Some overcounted) with
    | Ret (Some t, _) => match v_is_monad (Sized_ops (M16 false N)) t with Panic => true | _ => false end | _ => false end = true) by (vm_compute; reflexivity).
  destruct (step (Sized_ops (M16 false N)) RemoveMin (Some overcounted)) as [[[t|] o]|] eqn:E; try discriminate H. exists t. split.
  - apply (sv_call ST16 overcounted RemoveMin t o overcounted_survives); [discriminate|exact E].
  - destruct (v_is_monad (Sized_ops (M16 false N)) t); [discriminate H|reflexivity].
Qed.
Print Assumptions C62_is_monad_refuted.
Example C62_count_case : uncounted (T16 false N) = true /\ survives ST16 overcounted /\ sz_len overcounted = 3%N /\
  map show (answers (run (Sized_ops (M16 false N)) [Min; Max; Find (b16 300); Insert (b16 400) 5%N; Find (b16 400); RemoveMin; RemoveMin; RemoveMin] (Some overcounted))) =
    [inl (Some (10, 1)); inl (Some (900, 3)); inl None; inl None; inl (Some (400, 5)); inl (Some (10, 1)); inl (Some (400, 5)); inl (Some (900, 3))]%N.
Proof. split; [reflexivity|]. split; [exact overcounted_survives|]. split; vm_compute; reflexivity. Qed.
