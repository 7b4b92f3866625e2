(** C70: what the defect of [Tree::insert] (C04, C43, C65) cannot spoil in a tree built by insertions, and how such a tree is put right.

    Reading guide.  [adds_or_asks c]: [c] inserts, or asks without changing anything.  [sure c]: [c] is [is_monad], [min_val] or [find].
    [collect cmp d]: the sorted map into which the pairs [d] were put one after the other.  [salvage cmp O n ot]: drain [ot] with at most [n] calls of
    [remove_min] into such a map, and build a new tree from it in ascending order (Salvage.v).  [sp_run cmp cs []]: what a sorted map is after [cs], and what it
    answers.  [drain] (Hist.v): call until the tree is gone.  [allowed T adm]: the histories known to go right on type [T] (FitsCor.v, C43). *)
From Verif Require Import Base Ints Ops Spec Tree Markers Types TypesProofs Hist Fits FitsCor Concrete Salvage SalvageCor.

(** In a tree of any type and depth that insertions built, in any order, [is_monad], [min_val] and [find] answer as a sorted map does *)
Theorem C70_sure : forall (B : Build) fixed K V cmp (O : VebOps K V) (T : VebType fixed K V cmp O) cs,
  forallb adds_or_asks cs = true -> (N.of_nat (length cs) <= usize_max)%N ->
  exists ot os, run O cs None = Ret (ot, os) /\
    forall i c, nth_error cs i = Some c -> sure c = true -> nth_error os i = nth_error (snd (sp_run cmp cs [])) i.
Proof. exact (fun B fixed K V cmp O T => asked T). Qed.
Print Assumptions C70_sure.

(** ... and [remove_min] hands out, of the pairs with one key, the newest last, so that a map filled from it is what the tree should have been *)
Theorem C70_emptied : forall (B : Build) fixed K V cmp (O : VebOps K V) (T : VebType fixed K V cmp O) cs n,
  forallb adds_or_asks cs = true -> (N.of_nat (length cs) <= usize_max)%N -> length cs <= n ->
  exists ot os d, run O cs None = Ret (ot, os) /\ drain (v_remove_min O) n ot = Ret (None, d) /\ collect cmp d = fst (sp_run cmp cs []).
Proof. exact (fun B fixed K V cmp O T => emptied T). Qed.
Print Assumptions C70_emptied.

(** The tree rebuilt from that map answers from then on as it should have from the start *)
Theorem C70_salvage : forall (B : Build) fixed K V cmp (O : VebOps K V) (T : VebType fixed K V cmp O) cs n adm cs2,
  forallb adds_or_asks cs = true -> (N.of_nat (length cs) <= usize_max)%N -> length cs <= n ->
  allowed T adm -> admissible cmp adm cs2 (fst (sp_run cmp cs [])) ->
  exists ot os ot' ot2, run O cs None = Ret (ot, os) /\ salvage cmp O n ot = Ret ot' /\
    run O cs2 ot' = Ret (ot2, snd (sp_run cmp cs2 (fst (sp_run cmp cs [])))).
Proof. exact (fun B fixed K V cmp O T => salvaged T). Qed.
Print Assumptions C70_salvage.

(** keys in descending order and again, at one level and at two; Marker16, and 32 bits over a hash map *)
Definition fall16 : list (op (u 16) N) :=
  [Insert (b16 20) 1; Insert (b16 30) 2; Insert (b16 10) 3; Max; Find (b16 30); Insert (b16 30) 4; Find (b16 30); Insert (b16 5) 5; Min; Insert (b16 30) 6;
   Find (b16 30); Find (b16 20); Find (b16 7); IsMonad; Max; Succ (b16 20)]%N.
Definition fall32 : list (op (u 32) N) :=
  [Insert (b32 900000) 2; IsMonad; Insert (b32 65566) 3; Insert (b32 65556) 4; Insert (b32 65546) 5; Insert (b32 65566) 6; Insert (b32 900000) 7;
   Insert (b32 7) 8; Find (b32 900000); Find (b32 65566); Min; Max; Succ (b32 65546)]%N.
Definition sures {K V} (cs : list (op K V)) (os : list (out K V)) : list (out K V) :=
  map snd (filter (fun p => sure (fst p)) (combine cs os)).
Example C70_sure_case : forallb adds_or_asks fall16 = true /\ forallb adds_or_asks fall32 = true /\
  map show (sures fall16 (answers (run (M16 false N) fall16 None))) =
    [inl (Some (30, 2)); inl (Some (30, 4)); inl (Some (5, 5)); inl (Some (30, 6)); inl (Some (20, 1)); inl None; inr false]%N /\
  map show (answers (run (M16 false N) fall16 None)) <> map show (snd (sp_run u_cmp fall16 [])) /\
  map show (sures fall32 (answers (run (H32 false N) fall32 None))) = map show (sures fall32 (snd (sp_run u_cmp fall32 []))) /\
  map show (answers (run (H32 false N) fall32 None)) <> map show (snd (sp_run u_cmp fall32 [])).
Proof.
  split; [reflexivity|]. split; [reflexivity|]. split; [vm_compute; reflexivity|]. split; [vm_compute; discriminate|].
  split; [vm_compute; reflexivity|]. vm_compute. discriminate.
Qed.
(** what [remove_min] hands out of these trees, and what of it is collected *)
Definition pairs {w} (l : list (u w * N)) : list (N * N) := map (fun p => (uval (fst p), snd p)) l.
Definition drained {w} {O : VebOps (u w) N} (n : nat) (ot : option (vt O)) : list (u w * N) :=
  match drain (v_remove_min O) n ot with Ret (_, d) => d | Panic => [] end.
Example C70_emptied_case :
  pairs (drained 16 (final (run (M16 false N) fall16 None))) = [(5, 5); (10, 3); (20, 1); (30, 4); (30, 6)]%N /\
  pairs (collect u_cmp (drained 16 (final (run (M16 false N) fall16 None)))) = [(5, 5); (10, 3); (20, 1); (30, 6)]%N /\
  pairs (collect u_cmp (drained 13 (final (run (H32 false N) fall32 None)))) = pairs (fst (sp_run u_cmp fall32 [])).
Proof. split; [vm_compute; reflexivity|]. split; vm_compute; reflexivity. Qed.
(** ... after which the questions that went wrong go right *)
Definition after32 : list (op (u 32) N) :=
  [Max; Succ (b32 65546); Pred (b32 900000); Remove (b32 65566); Find (b32 65566); Insert (b32 900001) 9; RemoveMax; Max]%N.
Definition resumed {w} (O : VebOps (u w) N) cs n cs2 : list (out (u w) N) :=
  match salvage u_cmp O n (final (run O cs None)) with Ret ot => answers (run O cs2 ot) | Panic => [] end.
Example C70_salvage_case : allowed (TH32 false N) (adm_ascending u_cmp) /\
  admissible u_cmp (adm_ascending u_cmp) after32 (fst (sp_run u_cmp fall32 [])) /\
  map show (resumed (H32 false N) fall32 13 after32) =
    map inl [Some (900000, 7); Some (65556, 4); Some (65566, 6); Some (65566, 6); None; None; Some (900001, 9); Some (900000, 7)]%N.
Proof.
  split; [apply AL_ascending|]. split; [|vm_compute; reflexivity].
  apply (admissible_b_ok u_cmp (ascending_b u_cmp)); [intros; apply (ascending_b_ok u_cmp (u_cmp_laws _)); auto|vm_compute; reflexivity].
Qed.

(** The other questions, and what an insertion says it replaced, are not so safe *)
Theorem C70_unsure_refuted :
  let wrong cs := forallb adds_or_asks cs = true /\ run (M16 false N) cs None <> Panic /\
    last (answers (run (M16 false N) cs None)) (OB true) <> last (snd (sp_run u_cmp cs [])) (OB true) in
  (exists cs k v, wrong (cs ++ [Insert k v])) /\ (exists cs, wrong (cs ++ [Max])) /\ (exists cs k, wrong (cs ++ [Pred k])) /\ (exists cs k, wrong (cs ++ [Succ k])).
Proof.
  cbv zeta. set (cs := [Insert (b16 20) 1; Insert (b16 30) 2; Insert (b16 10) 3]%N).
  assert (H : forall c, map show (answers (run (M16 false N) (cs ++ [c]) None)) <> [] -> run (M16 false N) (cs ++ [c]) None <> Panic)
    by (intros c Hn E; rewrite E in Hn; apply Hn; reflexivity).
  split; [exists cs, (b16 30), 4%N|split; [exists cs|split; exists cs, (b16 20)]].
  all: split; [reflexivity|]; split; [apply H; vm_compute; discriminate|].
  all: intros E; apply (f_equal show) in E; vm_compute in E; discriminate E.
Qed.
Print Assumptions C70_unsure_refuted.

(** A removal spoils both: a key stored twice is found again after it was removed, and collected *)
Theorem C70_removal_refuted : exists cs k ot os d, forallb adds_or_asks cs = true /\
  run (M16 false N) (cs ++ [Remove k; Find k]) None = Ret (ot, os) /\ last os (OB true) <> last (snd (sp_run u_cmp (cs ++ [Remove k; Find k]) [])) (OB true) /\
  drain (v_remove_min (M16 false N)) (length cs) ot = Ret (None, d) /\ collect u_cmp d <> fst (sp_run u_cmp (cs ++ [Remove k]) []).
Proof.
  set (cs := [Insert (b16 20) 1; Insert (b16 30) 2; Insert (b16 10) 3; Insert (b16 30) 4]%N). exists cs, (b16 30).
  set (r := run (M16 false N) (cs ++ [Remove (b16 30); Find (b16 30)]) None).
  set (d := drain (v_remove_min (M16 false N)) (length cs) (final r)).
  exists (final r), (answers r), (match d with Ret (_, l) => l | Panic => [] end). split; [reflexivity|]. split.
  { assert (H : answers r <> []) by (intros E; apply (f_equal (map show)) in E; vm_compute in E; discriminate E).
    destruct r as [[ot os]|]; [reflexivity|]. elim H. reflexivity. }
  split; [intros E; apply (f_equal show) in E; vm_compute in E; discriminate E|]. split.
  { fold d. assert (H : match d with Ret (None, _) => true | _ => false end = true) by (vm_compute; reflexivity).
    destruct d as [[[t|] l]|]; try discriminate H. reflexivity. }
  intros E. apply (f_equal pairs) in E. vm_compute in E. discriminate E.
Qed.
Print Assumptions C70_removal_refuted.
