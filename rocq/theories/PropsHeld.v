(** C59: what still holds once the defect of [Tree::insert] has struck.  For the notation see the head of PropsMap.v. *)
From Verif Require Import Base Ints Ops Spec Key ByteSet ByteMap Coll Boxed BTree SizedT Tree Markers Laws Hist Types HistProofs Iter IterSpec
  Concrete PropsMap RoomEx HeldCor.

(** ** C59 On every history, also after insertions that the defect of [Tree::insert] turned wrong, and in every build: what a tree
    answers is stored, what was just inserted is found, and what is found can be removed. *)
(** every pair answered is one of the pairs stored, and [find] and [remove] answer a pair with the key asked for *)
Theorem C59_stored : forall (B : Build) fixed K V cmp (O : VebOps K V) (T : VebType (B := B) fixed K V cmp O) t d, reachable O t -> contents O t d ->
  (exists p, v_min_val O t = Ret p /\ In p d) /\ (exists p, v_max_val O t = Ret p /\ In p d) /\
  (forall k p, v_find O t k = Ret (Some p) -> In p d /\ fst p = k) /\
  (forall k p, v_predecessor O t k = Ret (Some p) -> In p d) /\
  (forall k p, v_successor O t k = Ret (Some p) -> In p d) /\
  (forall k v t' p, (N.of_nat (length d) < usize_max)%N -> v_insert O t k v = Ret (t', Some p) -> In p d) /\
  (forall k ot p, v_remove O t k = Ret (Ok (ot, p)) -> In p d /\ fst p = k).
Proof. exact @answers_stored. Qed.
Print Assumptions C59_stored.
(** so is every pair an iterator yields, from whichever ends it is asked *)
Theorem C59_iter : forall (B : Build) fixed K V cmp (O : VebOps K V) (T : VebType (B := B) fixed K V cmp O) t d dirs it ps p, reachable O t ->
  contents O t d -> it_run (B := B) O (eqb cmp) t dirs it_new = Ret (it, ps) -> In (Some p) ps -> In p d.
Proof. exact @iter_stored. Qed.
Print Assumptions C59_iter.
(** what [find] finds, [remove] takes out *)
Theorem C59_found : forall (B : Build) fixed K V cmp (O : VebOps K V) (T : VebType (B := B) fixed K V cmp O) t k p, reachable O t ->
  v_find O t k = Ret (Some p) -> exists ot, v_remove O t k = Ret (Ok (ot, p)).
Proof. exact @found_removed. Qed.
Print Assumptions C59_found.
(** what was just inserted is found, can be removed, and is answered by an insertion that replaces it *)
Theorem C59_inserted : forall (B : Build) fixed K V cmp (O : VebOps K V) (T : VebType (B := B) fixed K V cmp O) t d k v, reachable O t -> contents O t d ->
  (N.of_nat (length d) < usize_max)%N ->
  exists t' r, v_insert O t k v = Ret (t', r) /\ v_find O t' k = Ret (Some (k, v)) /\
    (exists ot, v_remove O t' k = Ret (Ok (ot, (k, v)))) /\
    ((N.of_nat (length d) + 1 < usize_max)%N -> forall w, exists t2, v_insert O t' k w = Ret (t2, Some (k, v))).
Proof. exact @read_your_writes. Qed.
Print Assumptions C59_inserted.
(** No more than that.  An insertion can answer a pair with another key, and does not know the key it is given ... *)
Theorem C59_insert_refuted : exists t d k v t' p, reachable (M16 false N) t /\ contents (M16 false N) t d /\ ~ In k (keys d) /\
  v_insert (M16 false N) t k v = Ret (t', Some p) /\ fst p <> k.
Proof.
  assert (H : match v_insert (M16 false N) twice_tree (b16 30) 5%N with Ret (_, Some p) => (uval (fst p) =? 20)%N | _ => false end = true)
    by (vm_compute; reflexivity).
  destruct (v_insert (M16 false N) twice_tree (b16 30) 5%N) as [[t' [p|]]|] eqn:E; try discriminate H.
  exists twice_tree, twice_held, (b16 30), 5%N, t', p. split; [exact twice_reachable|]. split; [exact twice_contents|]. split; [|split; auto].
  - rewrite twice_listed. intros Hin. apply (in_map uval) in Hin. vm_compute in Hin. repeat (destruct Hin as [Hin|Hin]; [discriminate Hin|]). exact Hin.
  - intros Hk. rewrite Hk in H. vm_compute in H. discriminate H.
Qed.
Print Assumptions C59_insert_refuted.
(** ... and what was removed may still be found *)
Theorem C59_removed_refuted : exists t k t' p q, reachable (M16 false N) t /\ v_remove (M16 false N) t k = Ret (Ok (Some t', p)) /\
  v_find (M16 false N) t' k = Ret (Some q).
Proof.
  assert (H : match v_remove (M16 false N) twice_tree (b16 20) with
    | Ret (Ok (Some t', p)) => match v_find (M16 false N) t' (b16 20) with Ret (Some q) => true | _ => false end | _ => false end = true)
    by (vm_compute; reflexivity).
  destruct (v_remove (M16 false N) twice_tree (b16 20)) as [[[[t'|] p]|]|] eqn:E; try discriminate H.
  destruct (v_find (M16 false N) t' (b16 20)) as [[q|]|] eqn:E'; try discriminate H.
  exists twice_tree, (b16 20), t', p, q. split; [exact twice_reachable|]. split; auto.
Qed.
Print Assumptions C59_removed_refuted.
(** a tree out of order, holding 20 twice, and what it answers: the hypotheses of all of C59 *)
Example C59_case : reachable (M16 false N) twice_tree /\ contents (M16 false N) twice_tree twice_held /\
  (N.of_nat (length twice_held) + 1 < usize_max)%N /\ look twice_held = [(5, 3); (10, 1); (20, 2); (20, 4)]%N /\
  match v_find (M16 false N) twice_tree (b16 20) with Ret (Some p) => snd p | _ => 0%N end = 4%N /\
  match it_run (M16 false N) (eqb u_cmp) twice_tree [true; true; true; false] it_new with
  | Ret (_, os) => map (option_map (fun p => (uval (fst p), snd p))) os | Panic => [] end = [Some (20, 4); Some (20, 2); Some (20, 2); Some (5, 3)]%N.
Proof.
  split; [exact twice_reachable|]. split; [exact twice_contents|]. split; [rewrite twice_listed; reflexivity|]. repeat split; vm_compute; reflexivity.
Qed.
