(** C01-C20, C25, C34, C38: what every tree type does on histories of calls.

    Reading guide.  [VebType fixed K V cmp O]: [O] is one of the tree types the library can build, with keys [K]
    ordered by [cmp] and values [V] (Types.v), with the code as it is ([fixed = false]) or with [Tree::insert] corrected ([fixed = true]).
    [run O cs None = Ret (ot, os)]: the calls [cs], starting with no tree, leave [ot] and answer [os] (Hist.v).
    [sp_run]: a sorted association list doing the same calls (Hist.v, Spec.v).
    [reachable O t]: [t] is left by some history; [contents O t d]: repeated [remove_min] on [t] gives [d].
    [reached cmp O adm t l]: [t] is left by a history whose insertions are all of the kind [adm]; the sorted list is then [l].
    [allowed T adm]: insertions of the kind [adm] pass the test [fits] (Fits.v), which is the weakest condition there is (C43).
    So any insertion is allowed if [T] has no [Tree] inside or [Tree::insert] is corrected, insertion not below the minimum of two
    or more with one level of [Tree], and ascending insertion always.
    [B : Build]: with or without debug assertions and overflow checks (Base.v). *)
From Verif Require Import Base Ints Ops Spec Key ByteSet ByteMap Coll Boxed BTree SizedT Tree Markers Laws Lists CollProofs
  KeyProofs Hist Types HistProofs TypesProofs HistCor WrapProofs Concrete Fits FitsCor.

(** ** C01 No public operation ever panics *)
Theorem C01_no_panic : forall (B : Build) fixed K V cmp (O : VebOps K V) (T : VebType fixed K V cmp O) cs ot os c,
  run O cs None = Ret (ot, os) -> fitting cs os 0 ->
  (forall k v, c = Insert k v -> (N.of_nat (balance cs os) < usize_max)%N) ->
  step O c ot <> Panic.
Proof. exact (fun B fixed K V cmp O T => no_panic (type_laws T)). Qed.
Print Assumptions C01_no_panic.
Theorem C01_no_panic_short : forall (B : Build) fixed K V cmp (O : VebOps K V) (T : VebType fixed K V cmp O) cs,
  (N.of_nat (length cs) <= usize_max)%N -> run O cs None <> Panic.
Proof. exact (fun B fixed K V cmp O T => no_panic_run (type_laws T)). Qed.
Print Assumptions C01_no_panic_short.
Theorem C01_no_panic_len_hint : forall (B : Build) fixed K V cmp (O : VebOps K V) (T : VebType fixed K V cmp O) t,
  reachable O t -> v_len_hint O t <> Panic.
Proof. exact (fun B fixed K V cmp O T => no_panic_len_hint (type_laws T)). Qed.
Print Assumptions C01_no_panic_len_hint.
(** a two-level tree after a history that runs into the defect of [Tree::insert] *)
Example C01_case : run (H32 false N) wild None = Ret (Some wild_tree, answers (run (H32 false N) wild None)) /\
  fitting wild (answers (run (H32 false N) wild None)) 0 /\
  balance wild (answers (run (H32 false N) wild None)) = 4 /\ (4 < usize_max)%N.
Proof. split; [apply wild_run|]. split; [apply wild_fits|]. split; vm_compute; reflexivity. Qed.

(** ** C02 No stored pair is lost, duplicated or invented *)
Theorem C02_conservation : forall (B : Build) fixed K V cmp (O : VebOps K V) (T : VebType fixed K V cmp O) cs ot os n,
  run O cs None = Ret (ot, os) -> fitting cs os 0 -> balance cs os <= n ->
  exists d, drain (v_remove_min O) n ot = Ret (None, d) /\
            Permutation (total pairs_in cs os) (total pairs_out cs os ++ d).
Proof. exact (fun B fixed K V cmp O T cs ot os n => conserved (type_laws T) _ n cs ot os (rm_min_ok (type_laws T))). Qed.
Print Assumptions C02_conservation.
Theorem C02_conservation_max : forall (B : Build) fixed K V cmp (O : VebOps K V) (T : VebType fixed K V cmp O) cs ot os n,
  run O cs None = Ret (ot, os) -> fitting cs os 0 -> balance cs os <= n ->
  exists d, drain (v_remove_max O) n ot = Ret (None, d) /\
            Permutation (total pairs_in cs os) (total pairs_out cs os ++ d).
Proof. exact (fun B fixed K V cmp O T cs ot os n => conserved (type_laws T) _ n cs ot os (rm_max_ok (type_laws T))). Qed.
Print Assumptions C02_conservation_max.
Example C02_case : look (total pairs_out wild (answers (run (H32 false N) wild None))) =
    [(70001, 2); (200001, 6); (70000, 3); (5, 4); (70000, 8); (70002, 5)]%N /\
  match drain (v_remove_min (H32 false N)) 10 (Some wild_tree) with
  | Ret (None, d) => look d | _ => [] end = [(3, 9); (70002, 10); (200000, 1); (200001, 7)]%N.
Proof. split; vm_compute; reflexivity. Qed.

(** ** C03 A failed remove returns the tree unchanged *)
Theorem C03_remove : forall (B : Build) fixed K V cmp (O : VebOps K V) (T : VebType fixed K V cmp O) t k, reachable O t ->
  exists d, contents O t d /\
    ((exists ot p, v_remove O t k = Ret (Ok (ot, p)) /\ fst p = k /\ In p d) \/
     (v_remove O t k = Ret (Err t) /\ ~ In k (keys d))).
Proof. exact (fun B fixed K V cmp O T => remove_either (type_laws T)). Qed.
Print Assumptions C03_remove.
Example C03_case : reachable (H32 false N) wild_tree.
Proof. exact wild_reachable. Qed.

(** ** C04 Trees behave as a sorted map on every history: so for every type without [Tree] *)
Theorem C04_sorted_map_partial : forall (B : Build) fixed K V cmp (O : VebOps K V) (T : VebType fixed K V cmp O) cs,
  plain T = true -> admissible cmp adm_any cs [] ->
  exists ot, run O cs None = Ret (ot, snd (sp_run cmp cs [])) /\ (ot = None <-> fst (sp_run cmp cs []) = []).
Proof. exact (fun B fixed K V cmp O T cs H => sorted_map (type_ord T) (type_laws T) (covered_plain T H) cs). Qed.
Print Assumptions C04_sorted_map_partial.
Definition mixed8 : list (op (u 8) N) :=
  [Insert (b8 200) 1%N; Insert (b8 70) 2%N; Insert (b8 5) 3%N; Insert (b8 70) 4%N; Succ (b8 5); Remove (b8 200); MaxMut 6%N; Find (b8 70)].
Example C04_case : plain (VT_Sized false _ _ _ _ (T8 false N)) = true /\ admissible u_cmp adm_any mixed8 [].
Proof.
  split; [reflexivity|]. apply (admissible_b_ok u_cmp (fun _ _ => true)); [intros; exact I|vm_compute; reflexivity].
Qed.
(** but not for [Tree]: the answers to 10, 20, 5 inserted, [max_val], [successor(10)] differ *)
Theorem C04_sorted_map_refuted : exists cs, admissible u_cmp adm_any cs [] /\
  run (M16 false N) cs None <> Panic /\
  answers (run (M16 false N) cs None) <> snd (sp_run u_cmp cs []).
Proof.
  exists [Insert (b16 10) 1%N; Insert (b16 20) 2%N; Insert (b16 5) 3%N; Max; Succ (b16 10)].
  split; [|split].
  - apply (admissible_b_ok u_cmp (fun _ _ => true)); [intros; exact I|vm_compute; reflexivity].
  - intros H. apply (f_equal (fun r => length (answers r))) in H. vm_compute in H. discriminate.
  - intros H. apply (f_equal (map show)) in H. vm_compute in H. discriminate.
Qed.
Print Assumptions C04_sorted_map_refuted.

(** ** C05 Trees behave as a sorted map when insertions are ascending *)
Theorem C05_sorted_map_ascending : forall (B : Build) fixed K V cmp (O : VebOps K V) (T : VebType fixed K V cmp O) cs,
  admissible cmp (adm_ascending cmp) cs [] ->
  exists ot, run O cs None = Ret (ot, snd (sp_run cmp cs [])) /\ (ot = None <-> fst (sp_run cmp cs []) = []).
Proof. exact (fun B fixed K V cmp O T cs => sorted_map (type_ord T) (type_laws T) (covered_asc T) cs). Qed.
Print Assumptions C05_sorted_map_ascending.
Example C05_case : admissible u_cmp (adm_ascending u_cmp) tame [] /\
  map show (snd (sp_run u_cmp tame [])) =
  [inl None; inl None; inl None; inl None; inl None; inl None; inl None; inl (Some (70002, 4)); inl (Some (5, 1));
   inl (Some (200001, 7)); inl (Some (70001, 3)); inl (Some (70000, 2)); inl None; inl (Some (300000, 11))]%N.
Proof. split; [apply tame_admissible|vm_compute; reflexivity]. Qed.

(** ** C06 One-level trees behave as a sorted map while no insertion goes below the minimum *)
Theorem C06_sorted_map_above_min : forall (B : Build) fixed K V cmp (O : VebOps K V) (T : VebType fixed K V cmp O) cs,
  shallow T = true -> admissible cmp (adm_above_min cmp) cs [] ->
  exists ot, run O cs None = Ret (ot, snd (sp_run cmp cs [])) /\ (ot = None <-> fst (sp_run cmp cs []) = []).
Proof. exact (fun B fixed K V cmp O T cs H => sorted_map (type_ord T) (type_laws T) (covered_shallow T H) cs). Qed.
Print Assumptions C06_sorted_map_above_min.
Definition above16 : list (op (u 16) N) :=
  [Insert (b16 20) 1%N; Insert (b16 10) 2%N; Insert (b16 3000) 3%N; Insert (b16 270) 4%N; Insert (b16 260) 5%N; Pred (b16 270);
   Remove (b16 10); Insert (b16 21) 6%N; RemoveMin; RemoveMin; Insert (b16 280) 7%N; Max].
Example C06_case : shallow (T16 false N) = true /\ shallow (T16E false) = true /\
  admissible u_cmp (adm_above_min u_cmp) above16 [].
Proof.
  split; [reflexivity|]. split; [reflexivity|]. apply (admissible_b_ok u_cmp (above_min_b u_cmp)); [|vm_compute; reflexivity].
  intros. apply above_min_b_ok. auto.
Qed.

(** ** C07, C08, C09: the leaves are sorted maps on every history *)
Theorem C07_ByteSet : forall (B : Build) cs, admissible u_cmp adm_any cs [] ->
  exists ot, run ByteSet_ops cs None = Ret (ot, snd (sp_run u_cmp cs [])) /\ (ot = None <-> fst (sp_run u_cmp cs []) = []).
Proof. exact (fun B cs => sorted_map (type_ord (VT_ByteSet false)) (type_laws (VT_ByteSet false)) (covered_plain (VT_ByteSet false) eq_refl) cs). Qed.
Print Assumptions C07_ByteSet.
Definition mixed8e : list (op (u 8) unit) :=
  [Insert (b8 200) tt; Insert (b8 127) tt; Insert (b8 128) tt; Insert (b8 0) tt; Succ (b8 127); Pred (b8 128); Remove (b8 128); RemoveMax; Insert (b8 255) tt].
Example C07_case : admissible u_cmp adm_any mixed8e [].
Proof. apply (admissible_b_ok u_cmp (fun _ _ => true)); [intros; exact I|vm_compute; reflexivity]. Qed.

Theorem C08_ByteMap : forall (B : Build) V cs, admissible u_cmp adm_any cs [] ->
  exists ot, run (ByteMap_ops V) cs None = Ret (ot, snd (sp_run u_cmp cs [])) /\ (ot = None <-> fst (sp_run u_cmp cs []) = []).
Proof. exact (fun B V cs => sorted_map (type_ord (VT_ByteMap false V)) (type_laws (VT_ByteMap false V)) (covered_plain (VT_ByteMap false V) eq_refl) cs). Qed.
Print Assumptions C08_ByteMap.
Example C08_case : admissible u_cmp adm_any mixed8 [].
Proof. apply (admissible_b_ok u_cmp (fun _ _ => true)); [intros; exact I|vm_compute; reflexivity]. Qed.

Theorem C09_BTreeMap : forall (B : Build) K V cmp, OrdLaws cmp -> forall cs, admissible cmp adm_any cs [] ->
  exists ot, run (@BTree_ops K V cmp) cs None = Ret (ot, snd (sp_run cmp cs [])) /\ (ot = None <-> fst (sp_run cmp cs []) = []).
Proof. exact (fun B K V cmp OL cs => sorted_map OL (type_laws (VT_BTree false K V cmp OL)) (covered_plain (VT_BTree false K V cmp OL) eq_refl) cs). Qed.
Print Assumptions C09_BTreeMap.
Example C09_case : OrdLaws (@u_cmp 8) /\ admissible u_cmp adm_any mixed8 [].
Proof. split; [apply u_cmp_laws|exact C08_case]. Qed.

(** ** C10 Insertion reports and replaces exactly the pair with that key *)
Theorem C10_insert : forall (B : Build) fixed K V cmp (O : VebOps K V) (T : VebType fixed K V cmp O) adm t l k v, allowed T adm ->
  reached cmp O adm t l -> adm l k -> (N.of_nat (length l) < usize_max)%N ->
  exists t' r l', v_insert O t k v = Ret (t', r) /\
    match r with Some p => In p l /\ fst p = k | None => ~ In k (keys l) end /\
    reached cmp O adm t' l' /\ (forall q, In q l' <-> q = (k, v) \/ In q l /\ fst q <> k) /\
    v_find O t' k = Ret (Some (k, v)) /\ (forall k', k' <> k -> v_find O t' k' = v_find O t k').
Proof. exact (fun B fixed K V cmp O T adm t l k v H => insert_spec (type_ord T) (type_laws T) (allowed_covered T adm H) t l k v). Qed.
Print Assumptions C10_insert.
Example C10_case : allowed (TH32 false N) (adm_ascending u_cmp) /\
  reached u_cmp (H32 false N) (adm_ascending u_cmp) tame_tree tame_list /\
  adm_ascending u_cmp tame_list (b32 200000) /\ adm_ascending u_cmp tame_list (b32 200002) /\ (N.of_nat (length tame_list) < usize_max)%N.
Proof.
  split; [apply AL_ascending|]. split; [exact tame_reached|].
  split; [|split]; [apply (ascending_b_ok u_cmp (u_cmp_laws _)); vm_compute; reflexivity..|vm_compute; reflexivity].
Qed.

(** ** C11 Lookup returns the latest value *)
Theorem C11_find : forall (B : Build) fixed K V cmp (O : VebOps K V) (T : VebType fixed K V cmp O) adm cs t os k, allowed T adm ->
  admissible cmp adm cs [] -> run O cs None = Ret (Some t, os) ->
  v_find O t k = Ret (omap (fun v => (k, v)) (latest cmp k cs os None)).
Proof. exact (fun B fixed K V cmp O T adm cs t os k H => find_latest (type_ord T) (type_laws T) (allowed_covered T adm H) cs t os k). Qed.
Print Assumptions C11_find.
Example C11_case : allowed (TH32 false N) (adm_ascending u_cmp) /\ admissible u_cmp (adm_ascending u_cmp) tame [] /\
  has_tree (H32 false N) tame = true /\
  map (fun k => latest u_cmp (b32 k) tame (answers (run (H32 false N) tame None)) None) [70000; 70001; 70002; 200001; 4]%N =
  [Some 10; Some 9; None; Some 8; None]%N.
Proof. split; [apply AL_ascending|]. split; [exact tame_admissible|]. split; vm_compute; reflexivity. Qed.

(** ** C12, C13, C14: neighbours and extremes *)
Theorem C12_predecessor : forall (B : Build) fixed K V cmp (O : VebOps K V) (T : VebType fixed K V cmp O) adm t l k, allowed T adm ->
  reached cmp O adm t l -> exists o, v_predecessor O t k = Ret o /\
  match o with
  | Some p => In p l /\ cmp (fst p) k = Lt /\ forall q, In q l -> cmp (fst q) k = Lt -> q = p \/ cmp (fst q) (fst p) = Lt
  | None => forall q, In q l -> cmp (fst q) k <> Lt
  end.
Proof. exact (fun B fixed K V cmp O T adm t l k H => pred_spec (type_ord T) (type_laws T) (allowed_covered T adm H) t l k). Qed.
Print Assumptions C12_predecessor.
Theorem C13_successor : forall (B : Build) fixed K V cmp (O : VebOps K V) (T : VebType fixed K V cmp O) adm t l k, allowed T adm ->
  reached cmp O adm t l -> exists o, v_successor O t k = Ret o /\
  match o with
  | Some p => In p l /\ cmp k (fst p) = Lt /\ forall q, In q l -> cmp k (fst q) = Lt -> q = p \/ cmp (fst p) (fst q) = Lt
  | None => forall q, In q l -> cmp k (fst q) <> Lt
  end.
Proof. exact (fun B fixed K V cmp O T adm t l k H => succ_spec (type_ord T) (type_laws T) (allowed_covered T adm H) t l k). Qed.
Print Assumptions C13_successor.
Theorem C14_extremes : forall (B : Build) fixed K V cmp (O : VebOps K V) (T : VebType fixed K V cmp O) adm t l, allowed T adm ->
  reached cmp O adm t l ->
  (exists p, v_min_val O t = Ret p /\ In p l /\ forall q, In q l -> q = p \/ cmp (fst p) (fst q) = Lt) /\
  (exists p, v_max_val O t = Ret p /\ In p l /\ forall q, In q l -> q = p \/ cmp (fst q) (fst p) = Lt).
Proof. exact (fun B fixed K V cmp O T adm t l H => minmax_spec (type_ord T) (type_laws T) (allowed_covered T adm H) t l). Qed.
Print Assumptions C14_extremes.
(** ** C15, C16, C17: removals *)
Theorem C15_remove : forall (B : Build) fixed K V cmp (O : VebOps K V) (T : VebType fixed K V cmp O) adm t l k, allowed T adm ->
  reached cmp O adm t l ->
  (exists ot p, v_remove O t k = Ret (Ok (ot, p)) /\ In p l /\ fst p = k /\ left_over cmp O adm l p ot) \/
  (v_remove O t k = Ret (Err t) /\ ~ In k (keys l)).
Proof. exact (fun B fixed K V cmp O T adm t l k H => remove_spec (type_ord T) (type_laws T) (allowed_covered T adm H) t l k). Qed.
Print Assumptions C15_remove.
Theorem C16_remove_min : forall (B : Build) fixed K V cmp (O : VebOps K V) (T : VebType fixed K V cmp O) adm t l, allowed T adm ->
  reached cmp O adm t l -> exists ot p, v_remove_min O t = Ret (ot, p) /\ In p l /\
    (forall q, In q l -> q = p \/ cmp (fst p) (fst q) = Lt) /\ left_over cmp O adm l p ot.
Proof. exact (fun B fixed K V cmp O T adm t l H => remove_min_spec (type_ord T) (type_laws T) (allowed_covered T adm H) t l). Qed.
Print Assumptions C16_remove_min.
Theorem C16_remove_max : forall (B : Build) fixed K V cmp (O : VebOps K V) (T : VebType fixed K V cmp O) adm t l, allowed T adm ->
  reached cmp O adm t l -> exists ot p, v_remove_max O t = Ret (ot, p) /\ In p l /\
    (forall q, In q l -> q = p \/ cmp (fst q) (fst p) = Lt) /\ left_over cmp O adm l p ot.
Proof. exact (fun B fixed K V cmp O T adm t l H => remove_max_spec (type_ord T) (type_laws T) (allowed_covered T adm H) t l). Qed.
Print Assumptions C16_remove_max.
Theorem C17_drain : forall (B : Build) fixed K V cmp (O : VebOps K V) (T : VebType fixed K V cmp O) adm t l n, allowed T adm ->
  reached cmp O adm t l -> length l <= n -> ascending cmp l /\
  drain (v_remove_min O) n (Some t) = Ret (None, l) /\ drain (v_remove_max O) n (Some t) = Ret (None, rev l).
Proof. exact (fun B fixed K V cmp O T adm t l n H => drain_sorted (type_ord T) (type_laws T) (allowed_covered T adm H) t l n). Qed.
Print Assumptions C17_drain.
(** for C12-C17: a two-level tree of five pairs *)
Example C12_C17_case : allowed (TH32 false N) (adm_ascending u_cmp) /\
  reached u_cmp (H32 false N) (adm_ascending u_cmp) tame_tree tame_list /\ length tame_list = 5.
Proof. split; [apply AL_ascending|]. split; [exact tame_reached|reflexivity]. Qed.

(** None of C10-C14 holds of [Tree] on every history. *)
Definition broken16 : list (op (u 16) N) := [Insert (b16 10) 1%N; Insert (b16 20) 2%N; Insert (b16 5) 3%N].
Definition broken_list : list (u 16 * N) := [(b16 5, 3%N); (b16 10, 1%N); (b16 20, 2%N)].
Definition broken_tree : vt (M16 false N) := tree_of (M16 false N) broken16 (v_from_monad (M16 false N) (b16 0) 0%N).
Lemma broken_reached : reached u_cmp (M16 false N) adm_any broken_tree broken_list.
Proof.
  apply (reached_any_ex u_cmp broken16).
  - apply tree_of_ok. vm_compute. reflexivity.
  - apply look_inj. vm_compute. reflexivity.
  - vm_compute. reflexivity.
Qed.
Ltac shown H := apply (f_equal (fun r => match r with Ret o => match o with Some p => Some (Some (uval (fst p))) | None => Some None end | Panic => None end)) in H; vm_compute in H; discriminate H.
Theorem C10_insert_refuted : exists t l k v, reached u_cmp (M16 false N) adm_any t l /\ In k (keys l) /\
  exists t', v_insert (M16 false N) t k v = Ret (t', None).
Proof.
  exists broken_tree, broken_list, (b16 20), 7%N. split; [exact broken_reached|]. split; [right; right; left; reflexivity|].
  assert (H : match v_insert (M16 false N) broken_tree (b16 20) 7%N with Ret (_, None) => true | _ => false end = true)
    by (vm_compute; reflexivity).
  destruct (v_insert (M16 false N) broken_tree (b16 20) 7%N) as [[t' [p|]]|]; try discriminate. eauto.
Qed.
Print Assumptions C10_insert_refuted.
(** [find] misses a stored key: after [remove_min] the tree has minimum 20 and maximum 10 *)
Theorem C11_find_refuted : exists t l k v, reached u_cmp (M16 false N) adm_any t l /\ In (k, v) l /\
  v_find (M16 false N) t k = Ret None.
Proof.
  pose (t := tree_of (M16 false N) (broken16 ++ [RemoveMin]) (v_from_monad (M16 false N) (b16 0) 0%N)).
  exists t, [(b16 10, 1%N); (b16 20, 2%N)], (b16 10), 1%N. split; [|split].
  - apply (reached_any_ex u_cmp (broken16 ++ [RemoveMin])).
    + apply tree_of_ok. vm_compute. reflexivity.
    + apply look_inj. vm_compute. reflexivity.
    + vm_compute. reflexivity.
  - left. reflexivity.
  - vm_compute. reflexivity.
Qed.
Print Assumptions C11_find_refuted.
Theorem C12_predecessor_refuted : exists t l k p, reached u_cmp (M16 false N) adm_any t l /\
  v_predecessor (M16 false N) t k = Ret (Some p) /\ exists q, In q l /\ u_cmp (fst q) k = Lt /\ u_cmp (fst p) (fst q) = Lt.
Proof.
  exists broken_tree, broken_list, (b16 30), (b16 10, 1%N). split; [exact broken_reached|]. split.
  - assert (H : match v_predecessor (M16 false N) broken_tree (b16 30) with Ret (Some p) => Some (uval (fst p), snd p) | _ => None end
                = Some (10%N, 1%N)) by (vm_compute; reflexivity).
    destruct (v_predecessor (M16 false N) broken_tree (b16 30)) as [[[k v]|]|]; try discriminate. cbn in H. injection H as H ->.
    do 3 f_equal. apply u_eq. rewrite H. vm_compute. reflexivity.
  - exists (b16 20, 2%N). split; [right; right; left; reflexivity|]. split; vm_compute; reflexivity.
Qed.
Print Assumptions C12_predecessor_refuted.
Theorem C13_successor_refuted : exists t l k, reached u_cmp (M16 false N) adm_any t l /\
  v_successor (M16 false N) t k = Ret None /\ exists q, In q l /\ u_cmp k (fst q) = Lt.
Proof.
  exists broken_tree, broken_list, (b16 10). split; [exact broken_reached|]. split; [vm_compute; reflexivity|].
  exists (b16 20, 2%N). split; [right; right; left; reflexivity|vm_compute; reflexivity].
Qed.
Print Assumptions C13_successor_refuted.
Theorem C14_max_refuted : exists t l p q, reached u_cmp (M16 false N) adm_any t l /\
  v_max_val (M16 false N) t = Ret p /\ In q l /\ u_cmp (fst p) (fst q) = Lt.
Proof.
  exists broken_tree, broken_list.
  assert (H : match v_max_val (M16 false N) broken_tree with Ret p => Some (uval (fst p)) | _ => None end = Some 10%N)
    by (vm_compute; reflexivity).
  destruct (v_max_val (M16 false N) broken_tree) as [p|]; try discriminate. exists p, (b16 20, 2%N).
  split; [exact broken_reached|]. split; auto. split; [right; right; left; reflexivity|].
  injection H as H. unfold u_cmp. rewrite H. vm_compute. reflexivity.
Qed.
Print Assumptions C14_max_refuted.
Theorem C14_min_refuted : exists t l p q, reached u_cmp (M16 false N) adm_any t l /\
  v_min_val (M16 false N) t = Ret p /\ In q l /\ u_cmp (fst q) (fst p) = Lt.
Proof.
  pose (t := tree_of (M16 false N) (broken16 ++ [RemoveMin]) (v_from_monad (M16 false N) (b16 0) 0%N)).
  exists t, [(b16 10, 1%N); (b16 20, 2%N)].
  assert (H : match v_min_val (M16 false N) t with Ret p => Some (uval (fst p)) | _ => None end = Some 20%N)
    by (vm_compute; reflexivity).
  destruct (v_min_val (M16 false N) t) as [p|]; try discriminate. exists p, (b16 10, 1%N).
  split; [|split; [auto|split; [left; reflexivity|]]].
  - apply (reached_any_ex u_cmp (broken16 ++ [RemoveMin])).
    + apply tree_of_ok. vm_compute. reflexivity.
    + apply look_inj. vm_compute. reflexivity.
    + vm_compute. reflexivity.
  - injection H as H. unfold u_cmp. rewrite H. vm_compute. reflexivity.
Qed.
Print Assumptions C14_min_refuted.

(** ** C18 Mutable queries find what the immutable ones find *)
Theorem C18_mut_same : forall (B : Build) fixed K V cmp (O : VebOps K V) (T : VebType fixed K V cmp O) t, reachable O t ->
  (exists p put, v_min_val_mut O t = Ret (p, put) /\ v_min_val O t = Ret p) /\
  (exists p put, v_max_val_mut O t = Ret (p, put) /\ v_max_val O t = Ret p) /\
  (forall k, exists o, v_find_mut O t k = Ret o /\ v_find O t k = Ret (omap fst o)) /\
  (forall k, exists o, v_predecessor_mut O t k = Ret o /\ v_predecessor O t k = Ret (omap fst o)) /\
  (forall k, exists o, v_successor_mut O t k = Ret o /\ v_successor O t k = Ret (omap fst o)).
Proof. exact (fun B fixed K V cmp O T => mut_same (type_laws T)). Qed.
Print Assumptions C18_mut_same.
Example C18_case : reachable (H32 false N) wild_tree.
Proof. exact wild_reachable. Qed.

(** ** C19 Writing through a mutable reference changes that one value only *)
Theorem C19_mut_write : forall (B : Build) fixed K V cmp (O : VebOps K V) (T : VebType fixed K V cmp O) t p put,
  reachable O t -> mut_query O t p put ->
  exists d rest, contents O t d /\ Permutation d (p :: rest) /\
    forall w, exists d', contents O (put w) d' /\ Permutation d' ((fst p, w) :: rest).
Proof. exact (fun B fixed K V cmp O T => mut_write (type_laws T)). Qed.
Print Assumptions C19_mut_write.
Example C19_case : reachable (H32 false N) wild_tree /\
  exists p put, mut_query (H32 false N) wild_tree p put /\ uval (fst p) = 70002%N.
Proof.
  split; [exact wild_reachable|].
  assert (H : match v_find_mut (H32 false N) wild_tree (b32 70002) with Ret (Some (p, _)) => uval (fst p) | _ => 0%N end = 70002%N)
    by (vm_compute; reflexivity).
  destruct (v_find_mut (H32 false N) wild_tree (b32 70002)) as [[[p put]|]|] eqn:E; try discriminate H.
  exists p, put. split; [|exact H]. exact (MQ_find _ _ _ _ _ E).
Qed.

(** ** C20 Monad tests agree with the number of elements *)
Theorem C20_monads : forall (B : Build) fixed K V cmp (O : VebOps K V) (T : VebType fixed K V cmp O) t, reachable O t ->
  exists d, contents O t d /\
    v_is_monad O t = Ret (length d =? 1) /\
    v_into_monad O t = Ret (match d with [p] => Ok p | _ => Err t end) /\
    (forall k ot p, v_remove O t k = Ret (Ok (ot, p)) -> (ot = None <-> length d = 1)) /\
    (exists ot p, v_remove_min O t = Ret (ot, p) /\ (ot = None <-> length d = 1)) /\
    (exists ot p, v_remove_max O t = Ret (ot, p) /\ (ot = None <-> length d = 1)).
Proof. exact (fun B fixed K V cmp O T => monads (type_laws T)). Qed.
Print Assumptions C20_monads.
Example C20_case : reachable (H32 false N) wild_tree.
Proof. exact wild_reachable. Qed.

(** ** C25 SizedVebTree::len counts the stored entries *)
Theorem C25_len : forall (B : Build) fixed K V cmp (O : VebOps K V) (T : VebType fixed K V cmp O) t, reachable (Sized_ops O) t ->
  exists d, contents (Sized_ops O) t d /\ sz_len t = N.of_nat (length d) /\
    v_len_hint (Sized_ops O) t = Ret (sz_len t, Some (sz_len t)) /\
    (forall k ot p, v_remove (Sized_ops O) t k = Ret (Ok (ot, p)) -> (ot = None <-> sz_len t = 1%N)).
Proof. exact (fun B fixed K V cmp O T => sized_len (type_laws T)). Qed.
Print Assumptions C25_len.
Theorem C25_len_inner : forall (B : Build) fixed K V cmp (O : VebOps K V) (T : VebType fixed K V cmp O) t, reachable (Sized_ops O) t ->
  exists d, contents O (sz_tree t) d /\ sz_len t = N.of_nat (length d).
Proof. exact (fun B fixed K V cmp O T => sized_len_inner (type_laws T)). Qed.
Print Assumptions C25_len_inner.
Theorem C25_len_map : forall (B : Build) fixed K V cmp (O : VebOps K V) (T : VebType fixed K V cmp O) adm t l, allowed T adm ->
  reached cmp (Sized_ops O) adm t l -> sz_len t = N.of_nat (length (nodup (key_dec (type_ord T)) (keys l))).
Proof. exact (fun B fixed K V cmp O T adm t l H => sized_len_map (type_laws T) (type_ord T) (allowed_covered T adm H) t l). Qed.
Print Assumptions C25_len_map.
Example C25_case : has_tree (Sized_ops (H32 false N)) wild = true /\
  sz_len (tree_of (Sized_ops (H32 false N)) wild (SZ wild_tree 0%N)) = 4%N.
Proof. split; vm_compute; reflexivity. Qed.

(** ** C34 Observations depend only on contents *)
Theorem C34_interchangeable : forall (B1 B2 : Build) K V cmp (O1 O2 : VebOps K V) (T1 : VebType (B := B1) false K V cmp O1) (T2 : VebType (B := B2) false K V cmp O2)
  adm1 adm2 t1 t2 l cs, allowed T1 adm1 -> allowed T2 adm2 ->
  reached (B := B1) cmp O1 adm1 t1 l -> reached (B := B2) cmp O2 adm2 t2 l ->
  admissible (B := B1) cmp adm1 cs l -> admissible (B := B2) cmp adm2 cs l ->
  exists ot1 ot2 os, run O1 cs (Some t1) = Ret (ot1, os) /\ run O2 cs (Some t2) = Ret (ot2, os).
Proof.
  exact (fun B1 B2 K V cmp O1 O2 T1 T2 adm1 adm2 t1 t2 l cs H1 H2 => same_answers (type_ord T1) (type_laws T1) (type_laws T2)
    adm1 adm2 t1 t2 l cs (allowed_covered T1 adm1 H1) (allowed_covered T2 adm2 H2)).
Qed.
Print Assumptions C34_interchangeable.
Example C34_case : allowed (VT_BTree false (u 32) N u_cmp (u_cmp_laws 32)) adm_any /\ allowed (TH32 false N) (adm_ascending u_cmp) /\
  reached u_cmp (BTree_ops N u_cmp) adm_any tame_list tame_list /\
  reached u_cmp (H32 false N) (adm_ascending u_cmp) tame_tree tame_list.
Proof.
  split; [apply AL_plain; reflexivity|]. split; [apply AL_ascending|]. split; [|exact tame_reached].
  apply (reached_any_ex u_cmp tame).
  - assert (H : match final (run (BTree_ops N u_cmp) tame None) with Some t => look t | None => [] end = look tame_list)
      by (vm_compute; reflexivity).
    destruct (final (run (BTree_ops N u_cmp) tame None)) as [t|]; [|discriminate]. f_equal. apply look_inj. exact H.
  - apply look_inj. vm_compute. reflexivity.
  - vm_compute. reflexivity.
Qed.

(** ** C38 The insertion defect is the only one *)
Theorem C38_fixed_sorted_map : forall (B : Build) K V cmp (O : VebOps K V) (T : VebType true K V cmp O) cs,
  admissible cmp adm_any cs [] ->
  exists ot, run O cs None = Ret (ot, snd (sp_run cmp cs [])) /\ (ot = None <-> fst (sp_run cmp cs []) = []).
Proof. exact (fun B K V cmp O T cs => sorted_map (type_ord T) (type_laws T) (covered_fixed T) cs). Qed.
Print Assumptions C38_fixed_sorted_map.
Example C38_case : admissible u_cmp adm_any wild [] /\
  map show (answers (run (H32 true N) wild None)) = map show (snd (sp_run u_cmp wild [])) /\
  map show (answers (run (H32 true N) wild None)) <> map show (answers (run (H32 false N) wild None)).
Proof.
  split; [|split].
  - apply (admissible_b_ok u_cmp (fun _ _ => true)); [intros; exact I|vm_compute; reflexivity].
  - vm_compute. reflexivity.
  - vm_compute. discriminate.
Qed.
