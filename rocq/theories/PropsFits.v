(** C43: exactly which insertions keep the code a sorted map.
    [fits T ks k] (Fits.v) is a test on the stored keys [ks] and the inserted key [k] alone.
    For the rest of the notation see the head of PropsMap.v. *)
From Verif Require Import Base Ints Ops Spec Key ByteSet ByteMap Coll Boxed BTree SizedT Tree Markers Laws Lists CollProofs
  KeyProofs Hist Types HistProofs TypesProofs HistCor Concrete Fits FitsCor.

(** ** C43 Histories whose insertions all pass the test are answered as by a sorted map, in every build ... *)
Theorem C43_sorted_map : forall (B : Build) fixed K V cmp (O : VebOps K V) (T : VebType (B := B) fixed K V cmp O) cs,
  admissible cmp (adm_fits T) cs [] ->
  exists ot, run O cs None = Ret (ot, snd (sp_run cmp cs [])) /\ (ot = None <-> fst (sp_run cmp cs []) = []).
Proof. exact (fun b fixed K V cmp O T => sorted_map (type_ord T) (type_laws T) (allowed_covered T _ (AL_fits T))). Qed.
Print Assumptions C43_sorted_map.
(** ... after an insertion all successors are right exactly if it passed ... *)
Theorem C43_insert : forall (B : Build) K V cmp (O : VebOps K V) (T : VebType (B := B) false K V cmp O) t l k v,
  reached cmp O (adm_fits T) t l -> (N.of_nat (length l) < usize_max)%N ->
  exists t' r, v_insert O t k v = Ret (t', r) /\
    (fits T (keys l) k = true <-> forall q, v_successor O t' q = Ret (sp_succ cmp q (sp_insert cmp k v l))).
Proof. exact @fits_exact. Qed.
Print Assumptions C43_insert.
(** ... and a history passes exactly if a successor query at any point of it gives the answers of a sorted map *)
Theorem C43_exactly : forall (B : Build) K V cmp (O : VebOps K V) (T : VebType (B := B) false K V cmp O) cs, admissible cmp adm_any cs [] ->
  (admissible cmp (adm_fits T) cs [] <->
   forall cs1 cs2 q, cs = cs1 ++ cs2 -> exists ot, run O (cs1 ++ [Succ q]) None = Ret (ot, snd (sp_run cmp (cs1 ++ [Succ q]) []))).
Proof. exact @fits_exactly. Qed.
Print Assumptions C43_exactly.

(** The test is not stricter than the simpler conditions: any insertion passes if there is no [Tree] or [Tree::insert] is
    corrected, at one level of [Tree] one not below the minimum of two or more does, and so does one in ascending order *)
Theorem C43_conditions : forall (B : Build) fixed K V cmp (O : VebOps K V) (T : VebType (B := B) fixed K V cmp O) (l : list (K * V)) k,
  ascending cmp l ->
  (plain T = true \/ fixed = true -> fits T (keys l) k = true) /\
  (shallow T = true -> adm_above_min cmp l k -> fits T (keys l) k = true) /\
  (adm_ascending cmp l k -> fits T (keys l) k = true).
Proof. exact @fits_conditions. Qed.
Print Assumptions C43_conditions.
(** Nor is there a weaker one: a condition under which all histories are answered as by a sorted map lets an insertion pass only
    if it passes the test.  [adm] is asked about the contents only as far as they can be reached. *)
Theorem C43_weakest : forall (B : Build) K V cmp (O : VebOps K V) (T : VebType (B := B) false K V cmp O) adm,
  (forall cs, admissible cmp adm cs [] -> exists ot, run O cs None = Ret (ot, snd (sp_run cmp cs []))) ->
  forall cs, admissible cmp adm cs [] -> admissible cmp (adm_fits T) cs [].
Proof. exact @fits_weakest. Qed.
Print Assumptions C43_weakest.

(** A history that is far from ascending, yet passes ... *)
Definition fine32 : list (op (u 32) N) :=
  [Insert (b32 300000) 1%N; Insert (b32 5) 2%N; Insert (b32 70010) 3%N; Insert (b32 70002) 4%N; Insert (b32 200000) 5%N;
   Insert (b32 131100) 6%N; Insert (b32 70006) 7%N; Remove (b32 70006); Insert (b32 70004) 8%N; Insert (b32 400000) 9%N].
Definition fine_tree : vt (H32 false N) := tree_of (H32 false N) fine32 (v_from_monad (H32 false N) (b32 0) 0%N).
Definition fine_list : list (u 32 * N) :=
  [(b32 5, 2%N); (b32 70002, 4%N); (b32 70004, 8%N); (b32 70010, 3%N); (b32 131100, 6%N); (b32 200000, 5%N); (b32 300000, 1%N); (b32 400000, 9%N)].
Example C43_case : reached u_cmp (H32 false N) (adm_fits (TH32 false N)) fine_tree fine_list /\
  (N.of_nat (length fine_list) < usize_max)%N /\ admissible u_cmp adm_any fine32 [].
Proof.
  assert (H : admissible u_cmp (adm_fits (TH32 false N)) fine32 []).
  { apply (admissible_b_ok u_cmp (fun l k => fits (TH32 false N) (keys l) k)); [intros l k E; exact E|vm_compute; reflexivity]. }
  split; [|split].
  - exists fine32, (answers (run (H32 false N) fine32 None)). split; [exact H|]. split.
    + apply run_final. apply tree_of_ok. vm_compute. reflexivity.
    + apply look_inj. vm_compute. reflexivity.
  - vm_compute. reflexivity.
  - apply (admissible_b_ok u_cmp (fun _ _ => true)); [intros; exact I|vm_compute; reflexivity].
Qed.
(** ... and what the test says of the next insertion: below the minimum, below the minimum of a child of two, within a child,
    a new child below the minimum of the summary, a new child elsewhere *)
Example C43_next : map (fun n => fits (TH32 false N) (keys fine_list) (b32 n)) [3; 70001; 70003; 65600; 270000; 66000; 500000]%N =
  [false; false; true; false; true; false; true].
Proof. vm_compute. reflexivity. Qed.
(** the simpler conditions on a type of two levels, where none but the last applies, and of one; and a condition under which all histories
    are answered as by a sorted map *)
Example C43_conditions_case : ascending u_cmp tame_list /\ plain (TH32 false N) = false /\ shallow (TH32 false N) = false /\
  adm_ascending u_cmp tame_list (b32 4000000000) /\ shallow (T16 false N) = true /\
  (forall cs, admissible u_cmp (adm_ascending u_cmp) cs [] -> exists ot, run (H32 false N) cs None = Ret (ot, snd (sp_run u_cmp cs []))) /\
  admissible u_cmp (adm_ascending u_cmp) tame [].
Proof.
  split; [exact (reached_asc (u_cmp_laws 32) (type_laws (TH32 false N)) (allowed_covered _ _ (AL_ascending (TH32 false N))) tame_tree _ tame_reached)|]. split; [reflexivity|]. split; [reflexivity|].
  split; [apply (ascending_b_ok u_cmp (u_cmp_laws _)); vm_compute; reflexivity|]. split; [reflexivity|]. split; [|exact tame_admissible].
  intros cs H. destruct (sorted_map (type_ord (TH32 false N)) (type_laws (TH32 false N)) (allowed_covered _ _ (AL_ascending (TH32 false N))) cs H) as [ot [E _]].
  eauto.
Qed.
