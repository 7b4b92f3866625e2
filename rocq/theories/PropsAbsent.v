(** C71: inserting absent keys and taking out by key always goes right, the defect of [Tree::insert] (C04, C43, C65) included.

    Reading guide.  [puts_or_takes c]: [c] inserts, removes by key, or asks without changing anything.  [settled c]: [c] is [insert], [remove], [into_monad] or
    [is_monad].  [admissible cmp adm_absent cs []]: [cs] inserts only keys that a sorted map would not hold at that point.  [dict_run O cs ot]: the calls [cs]
    made through a dictionary that takes a key out before it inserts it, and finds by taking out and putting back; [by_key c]: a call it offers (Absent.v).
    [sp_run cmp cs []]: what a sorted map is after [cs], and what it answers.  [drain] (Hist.v): call until the tree is gone.  [salvage], [collect]: Salvage.v,
    C70. *)
From Verif Require Import Base Ints Ops Spec SizedT Tree Markers Types TypesProofs Hist Fits FitsCor Concrete Salvage Absent AbsentCor.

(** In a tree of any type and depth into which only absent keys are inserted, and out of which they are taken by key, every insertion and every removal answers as
    a sorted map does, and the tree holds what the map holds *)
Theorem C71_exact : forall (B : Build) fixed K V cmp (O : VebOps K V) (T : VebType fixed K V cmp O) cs n,
  forallb puts_or_takes cs = true -> admissible cmp adm_absent cs [] -> length (fst (sp_run cmp cs [])) <= n ->
  exists ot os, run O cs None = Ret (ot, os) /\
    (forall i c, nth_error cs i = Some c -> settled c = true -> nth_error os i = nth_error (snd (sp_run cmp cs [])) i) /\
    (exists d, drain (v_remove_min O) n ot = Ret (None, d) /\ Permutation d (fst (sp_run cmp cs []))) /\
    (exists d, drain (v_remove_max O) n ot = Ret (None, d) /\ Permutation d (fst (sp_run cmp cs []))).
Proof. exact (fun B fixed K V cmp O T => absent_exact T). Qed.
Print Assumptions C71_exact.

(** A [SizedVebTree] counts right *)
Theorem C71_len : forall (B : Build) fixed K V cmp (O : VebOps K V) (T : VebType fixed K V cmp O) cs,
  forallb puts_or_takes cs = true -> admissible cmp adm_absent cs [] ->
  exists ot os, run (Sized_ops O) cs None = Ret (ot, os) /\
    match ot with None => fst (sp_run cmp cs []) = [] | Some t => sz_len t = N.of_nat (length (fst (sp_run cmp cs []))) end.
Proof. exact (fun B fixed K V cmp O T => absent_len T). Qed.
Print Assumptions C71_len.

(** Drained into a sorted map and rebuilt, the tree answers from then on as it should have from the start *)
Theorem C71_salvage : forall (B : Build) fixed K V cmp (O : VebOps K V) (T : VebType fixed K V cmp O) cs n adm cs2,
  forallb puts_or_takes cs = true -> admissible cmp adm_absent cs [] -> length (fst (sp_run cmp cs [])) <= n ->
  allowed T adm -> admissible cmp adm cs2 (fst (sp_run cmp cs [])) ->
  exists ot os ot' ot2, run O cs None = Ret (ot, os) /\ salvage cmp O n ot = Ret ot' /\
    run O cs2 ot' = Ret (ot2, snd (sp_run cmp cs2 (fst (sp_run cmp cs [])))).
Proof. exact (fun B fixed K V cmp O T => absent_salvage T). Qed.
Print Assumptions C71_salvage.

(** A dictionary that takes a key out before inserting it, and finds by taking out and putting back, goes right on every history, whatever the order of its keys *)
Theorem C71_dictionary : forall (B : Build) fixed K V cmp (O : VebOps K V) (T : VebType fixed K V cmp O) cs n,
  forallb by_key cs = true -> admissible cmp (fun _ _ => True) cs [] -> length (fst (sp_run cmp cs [])) <= n ->
  exists ot, dict_run O cs None = Ret (ot, snd (sp_run cmp cs [])) /\
    exists d, drain (v_remove_min O) n ot = Ret (None, d) /\ collect cmp d = fst (sp_run cmp cs []).
Proof. exact (fun B fixed K V cmp O T => dictionary T). Qed.
Print Assumptions C71_dictionary.

(** keys in descending order, and out again, at one level and at two; Marker16, and 32 bits over a hash map *)
Definition absent_b {K V} (cmp : K -> K -> comparison) (l : list (K * V)) (k : K) : bool := forallb (fun p => negb (eqb cmp (fst p) k)) l.
Definition fresh16 : list (op (u 16) N) :=
  [Insert (b16 20) 1; Insert (b16 30) 2; Insert (b16 10) 3; Max; Remove (b16 20); Remove (b16 20); Insert (b16 5) 4; Find (b16 30); Remove (b16 10);
   Insert (b16 20) 5; Insert (b16 700) 6; Insert (b16 2) 7; Remove (b16 30); Remove (b16 31); Max; IsMonad; Find (b16 5); IntoMonad]%N.
Definition fresh32 : list (op (u 32) N) :=
  [IsMonad; Insert (b32 900000) 2; IsMonad; Insert (b32 65566) 3; Insert (b32 65556) 4; Insert (b32 65546) 5; Remove (b32 65566); Insert (b32 7) 8; Max;
   Succ (b32 65546); Remove (b32 900000); Remove (b32 900000); Insert (b32 65540) 9; Remove (b32 65546); IntoMonad]%N.
Definition settleds {K V} (cs : list (op K V)) (os : list (out K V)) : list (out K V) := map snd (filter (fun p => settled (fst p)) (combine cs os)).
Definition pairs {w} (l : list (u w * N)) : list (N * N) := map (fun p => (uval (fst p), snd p)) l.
Definition drained {w} {O : VebOps (u w) N} (rm : vt O -> res (option (vt O) * (u w * N))) (n : nat) (ot : option (vt O)) : list (u w * N) :=
  match drain rm n ot with Ret (_, d) => d | Panic => [] end.
Lemma absent_b_ok w (l : list (u w * N)) k : absent_b u_cmp l k = true -> adm_absent l k.
Proof.
  intros H Hk. apply in_map_iff in Hk. destruct Hk as [p [<- Hp]]. unfold absent_b in H. rewrite forallb_forall in H. apply H in Hp.
  rewrite (Lists.eqb_refl (u_cmp_laws w)) in Hp. discriminate Hp.
Qed.
Example C71_exact_case : forallb puts_or_takes fresh16 = true /\ forallb puts_or_takes fresh32 = true /\
  admissible u_cmp adm_absent fresh16 [] /\ admissible u_cmp adm_absent fresh32 [] /\
  map show (settleds fresh16 (answers (run (M16 false N) fresh16 None))) =
    [inl None; inl None; inl None; inl (Some (20, 1)); inl None; inl None; inl (Some (10, 3)); inl None; inl None; inl None; inl (Some (30, 2)); inl None;
     inr false; inl None]%N /\
  pairs (drained (v_remove_min (M16 false N)) 4 (final (run (M16 false N) fresh16 None))) = [(2, 7); (20, 5); (700, 6); (5, 4)]%N /\
  pairs (fst (sp_run u_cmp fresh16 [])) = [(2, 7); (5, 4); (20, 5); (700, 6)]%N /\
  map show (answers (run (M16 false N) fresh16 None)) <> map show (snd (sp_run u_cmp fresh16 [])) /\
  map show (settleds fresh32 (answers (run (H32 false N) fresh32 None))) = map show (settleds fresh32 (snd (sp_run u_cmp fresh32 []))) /\
  map show (answers (run (H32 false N) fresh32 None)) <> map show (snd (sp_run u_cmp fresh32 [])).
Proof.
  split; [reflexivity|]. split; [reflexivity|].
  split; [apply (admissible_b_ok u_cmp (absent_b u_cmp)); [intros; apply absent_b_ok; auto|vm_compute; reflexivity]|].
  split; [apply (admissible_b_ok u_cmp (absent_b u_cmp)); [intros; apply absent_b_ok; auto|vm_compute; reflexivity]|].
  split; [vm_compute; reflexivity|]. split; [vm_compute; reflexivity|]. split; [vm_compute; reflexivity|]. split; [vm_compute; discriminate|].
  split; [vm_compute; reflexivity|]. vm_compute. discriminate.
Qed.
Example C71_len_case :
  match final (run (Sized_ops (M16 false N)) fresh16 None) with Some t => sz_len t | None => 0%N end = 4%N /\
  match final (run (Sized_ops (H32 false N)) fresh32 None) with Some t => sz_len t | None => 0%N end = 3%N.
Proof. split; vm_compute; reflexivity. Qed.
Definition after16 : list (op (u 16) N) := [Max; Succ (b16 5); Find (b16 20); Insert (b16 701) 9; RemoveMin; RemoveMax; Min; Max]%N.
Definition resumed {w} (O : VebOps (u w) N) cs n cs2 : list (out (u w) N) :=
  match salvage u_cmp O n (final (run O cs None)) with Ret ot => answers (run O cs2 ot) | Panic => [] end.
Example C71_salvage_case : allowed (T16 false N) (adm_ascending u_cmp) /\
  admissible u_cmp (adm_ascending u_cmp) after16 (fst (sp_run u_cmp fresh16 [])) /\
  map show (resumed (M16 false N) fresh16 4 after16) =
    map inl [Some (700, 6); Some (20, 5); Some (20, 5); None; Some (2, 7); Some (701, 9); Some (5, 4); Some (700, 6)]%N.
Proof.
  split; [apply AL_ascending|]. split; [|vm_compute; reflexivity].
  apply (admissible_b_ok u_cmp (ascending_b u_cmp)); [intros; apply (ascending_b_ok u_cmp (u_cmp_laws _)); auto|vm_compute; reflexivity].
Qed.
Definition lookups : list (op (u 32) N) :=
  [Find (b32 7); Insert (b32 900000) 2; Insert (b32 65566) 3; Insert (b32 65556) 4; Insert (b32 65546) 5; Insert (b32 900000) 6; Find (b32 900000);
   Find (b32 65566); FindMut (b32 65566) 7; Insert (b32 7) 8; Find (b32 65566); Remove (b32 65566); Find (b32 65566); Find (b32 900000); Insert (b32 65546) 9;
   Insert (b32 6) 10; Find (b32 65546); Find (b32 65556); IsMonad]%N.
Example C71_dictionary_case : forallb by_key lookups = true /\ admissible u_cmp (fun _ _ => True) lookups [] /\
  map show (answers (dict_run (H32 false N) lookups None)) =
    [inl None; inl None; inl None; inl None; inl None; inl (Some (900000, 2)); inl (Some (900000, 6)); inl (Some (65566, 3)); inl (Some (65566, 3)); inl None;
     inl (Some (65566, 7)); inl (Some (65566, 7)); inl None; inl (Some (900000, 6)); inl (Some (65546, 5)); inl None; inl (Some (65546, 9));
     inl (Some (65556, 4)); inr false]%N /\
  map show (answers (run (H32 false N) lookups None)) <> map show (snd (sp_run u_cmp lookups [])).
Proof.
  split; [reflexivity|].
  split; [apply (admissible_b_ok u_cmp (fun _ _ => true)); [intros; exact I|vm_compute; reflexivity]|].
  split; [vm_compute; reflexivity|]. vm_compute. discriminate.
Qed.

(** The other questions are not so safe, not even [find] and [min_val] (which are while nothing is removed: C70) ... *)
Theorem C71_unsettled_refuted :
  let wrong cs := forallb puts_or_takes cs = true /\ admissible u_cmp adm_absent cs [] /\ run (M16 false N) cs None <> Panic /\
    last (answers (run (M16 false N) cs None)) (OB true) <> last (snd (sp_run u_cmp cs [])) (OB true) in
  (exists cs, wrong (cs ++ [Min])) /\ (exists cs, wrong (cs ++ [Max])) /\ (exists cs k, wrong (cs ++ [Find k])) /\
  (exists cs k, wrong (cs ++ [Pred k])) /\ (exists cs k, wrong (cs ++ [Succ k])).
Proof.
  cbv zeta. set (cs := [Insert (b16 20) 1; Insert (b16 30) 2; Insert (b16 10) 3; Remove (b16 10)]%N).
  assert (H : forall c, map show (answers (run (M16 false N) (cs ++ [c]) None)) <> [] -> run (M16 false N) (cs ++ [c]) None <> Panic)
    by (intros c Hn E; rewrite E in Hn; apply Hn; reflexivity).
  split; [exists cs|split; [exists cs|split; [exists cs, (b16 20)|split; [exists cs, (b16 31)|exists cs, (b16 15)]]]].
  all: split; [reflexivity|]; split; [apply (admissible_b_ok u_cmp (absent_b u_cmp)); [intros; apply absent_b_ok; auto|vm_compute; reflexivity]|].
  all: split; [apply H; vm_compute; discriminate|].
  all: intros E; apply (f_equal show) in E; vm_compute in E; discriminate E.
Qed.
Print Assumptions C71_unsettled_refuted.

(** ... nor is an insertion of a key that is there: [insert] and [remove] go wrong *)
Theorem C71_present_refuted :
  let wrong cs := forallb puts_or_takes cs = true /\ admissible u_cmp (fun _ _ => True) cs [] /\ run (M16 false N) cs None <> Panic /\
    last (answers (run (M16 false N) cs None)) (OB true) <> last (snd (sp_run u_cmp cs [])) (OB true) in
  (exists cs k v, wrong (cs ++ [Insert k v])) /\ (exists cs k, wrong (cs ++ [Remove k])).
Proof.
  cbv zeta. set (cs := [Insert (b16 20) 1; Insert (b16 30) 2; Insert (b16 10) 3]%N).
  split; [exists cs, (b16 30), 4%N|exists (cs ++ [Insert (b16 30) 4%N; Remove (b16 30)]), (b16 30)].
  all: split; [reflexivity|]; split; [apply (admissible_b_ok u_cmp (fun _ _ => true)); [intros; exact I|vm_compute; reflexivity]|]; split.
  1,3: intros E; apply (f_equal (fun r => map show (answers r))) in E; vm_compute in E; discriminate E.
  all: intros E; apply (f_equal show) in E; vm_compute in E; discriminate E.
Qed.
Print Assumptions C71_present_refuted.
