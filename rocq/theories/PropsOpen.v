(** C54: trees whose parts are written by a user of the library.

    [TreeContract cmp O], [CollContract deq C]: the dictionary [O] of a tree type behaves as a sorted list, the dictionary [C] of a
    collection as a finite map, call by call (Open.v).  [OpenType fixed K V cmp O]: [O] is built by [Tree], [Box] and [SizedVebTree]
    from such parts and from the library's own.  All theorems hold with and without debug assertions ([B : Build]). *)
From Verif Require Import Base Ints Ops Spec Key ByteSet ByteMap Coll Boxed BTree SizedT Tree Markers Laws Lists CollProofs
  KeyProofs Hist CollSpec Types HistProofs TypesProofs HistCor WrapProofs Concrete Iter IterSpec IterProofs Open OpenCor Fits FitsCor.

(** ** C54 [Tree] is correct over any correct parts *)
(** the corrected [Tree] over parts that keep the contracts keeps the contract itself *)
Theorem C54_tree : forall (B : Build) K Hi Lo V (ko : KeyOps K Hi Lo) (S : VebOps Hi unit) (Tr : VebOps Lo V) (C : CollOps Hi Lo V Tr) deq,
  KeyLaws ko -> TreeContract (hi_cmp ko) S -> TreeContract (lo_cmp ko) Tr -> (forall a b, deq a b = true <-> a = b) -> CollContract deq C ->
  inhabited (TreeContract (k_cmp ko) (Tree_ops true ko S Tr C)).
Proof. exact (fun B K Hi Lo V => @tree_contract B K Hi Lo V). Qed.
Print Assumptions C54_tree.
(** so does every type without [Tree], and every type once [Tree::insert] is corrected; the library's collections keep theirs *)
Theorem C54_types : forall (B : Build) fixed K V cmp (O : VebOps K V) (T : OpenType fixed K V cmp O),
  open_plain T = true \/ fixed = true -> inhabited (TreeContract cmp O).
Proof. exact (fun B fixed K V cmp O => @open_contract B fixed K V cmp O). Qed.
Print Assumptions C54_types.
Theorem C54_collections : forall (B : Build) Lo V (Tr : VebOps Lo V) Hi (C : CollOps Hi Lo V Tr) (CT : CollType Tr Hi C) deq,
  (forall a b, deq a b = true <-> a = b) -> inhabited (CollContract deq C).
Proof. exact (fun B Lo V Tr Hi C => @coll_contract B Lo V Tr Hi C). Qed.
Print Assumptions C54_collections.
(** the code as it is: no call panics, and no pair is lost, whatever is inserted in whatever order *)
Theorem C54_no_panic : forall (B : Build) K V cmp (O : VebOps K V) (T : OpenType false K V cmp O) cs ot os c,
  run O cs None = Ret (ot, os) -> fitting cs os 0 ->
  (forall k v, c = Insert k v -> (N.of_nat (balance cs os) < usize_max)%N) ->
  step O c ot <> Panic.
Proof. exact (fun B K V cmp O T => no_panic (open_laws T)). Qed.
Print Assumptions C54_no_panic.
Theorem C54_no_panic_short : forall (B : Build) K V cmp (O : VebOps K V) (T : OpenType false K V cmp O) cs,
  (N.of_nat (length cs) <= usize_max)%N -> run O cs None <> Panic.
Proof. exact (fun B K V cmp O T => no_panic_run (open_laws T)). Qed.
Print Assumptions C54_no_panic_short.
Theorem C54_conservation : forall (B : Build) K V cmp (O : VebOps K V) (T : OpenType false K V cmp O) cs ot os n,
  run O cs None = Ret (ot, os) -> fitting cs os 0 -> balance cs os <= n ->
  exists d, drain (v_remove_min O) n ot = Ret (None, d) /\
            Permutation (total pairs_in cs os) (total pairs_out cs os ++ d).
Proof. exact (fun B K V cmp O T cs ot os n => conserved (open_laws T) _ n cs ot os (rm_min_ok (open_laws T))). Qed.
Print Assumptions C54_conservation.
Theorem C54_remove : forall (B : Build) K V cmp (O : VebOps K V) (T : OpenType false K V cmp O) t k, reachable O t ->
  exists d, contents O t d /\
    ((exists ot p, v_remove O t k = Ret (Ok (ot, p)) /\ fst p = k /\ In p d) \/
     (v_remove O t k = Ret (Err t) /\ ~ In k (keys d))).
Proof. exact (fun B K V cmp O T => remove_either (open_laws T)). Qed.
Print Assumptions C54_remove.
(** a sorted map while every insertion passes the test [open_fits] (Open.v): on every history if no [Tree] is inside or [Tree::insert] is
    corrected; while no insertion goes below the minimum with one level of [Tree] over contract-keeping parts; on ascending insertions always *)
Theorem C54_sorted_map : forall (B : Build) fixed K V cmp (O : VebOps K V) (T : OpenType fixed K V cmp O) adm cs, open_allowed T adm ->
  admissible cmp adm cs [] ->
  exists ot, run O cs None = Ret (ot, snd (sp_run cmp cs [])) /\ (ot = None <-> fst (sp_run cmp cs []) = []).
Proof. exact (fun B fixed K V cmp O T adm cs H => sorted_map (open_ord T) (open_laws T) (open_allowed_covered T adm H) cs). Qed.
Print Assumptions C54_sorted_map.
(** the library's iterator over such a type consumes the sorted list from both ends, and its size hint is right *)
Theorem C54_iter : forall (B : Build) fixed K V cmp (O : VebOps K V) (T : OpenType fixed K V cmp O) adm t l dirs, open_allowed T adm ->
  reached cmp O adm t l -> exists it lo hi, it_run O (eqb cmp) t dirs it_new = Ret (it, fst (sp_pops dirs l)) /\
    it_size_hint O t it = Ret (lo, hi) /\ (lo <= N.of_nat (length (snd (sp_pops dirs l))))%N /\
    (forall h, hi = Some h -> (N.of_nat (length (snd (sp_pops dirs l))) <= h)%N).
Proof. exact (fun B fixed K V cmp O T adm t l dirs H => iter_deque_hint (open_ord T) (open_laws T) (open_allowed_covered T adm H) t l dirs). Qed.
Print Assumptions C54_iter.
(** the test asks no more than that of the library's own types (C43): a history passes exactly if a successor query at any point of it
    gives the answer of a sorted map *)
Theorem C54_exactly : forall (B : Build) K V cmp (O : VebOps K V) (T : OpenType false K V cmp O) cs, admissible cmp adm_any cs [] ->
  (admissible cmp (fun l k => open_fits T (keys l) k = true) cs [] <->
   forall cs1 cs2 q, cs = cs1 ++ cs2 -> exists ot, run O (cs1 ++ [Succ q]) None = Ret (ot, snd (sp_run cmp (cs1 ++ [Succ q]) []))).
Proof. exact @open_exactly. Qed.
Print Assumptions C54_exactly.
(** ... and these conditions pass it *)
Theorem C54_conditions : forall (B : Build) fixed K V cmp (O : VebOps K V) (T : OpenType fixed K V cmp O) (l : list (K * V)) k,
  ascending cmp l ->
  (open_plain T = true \/ fixed = true -> open_fits T (keys l) k = true) /\
  (open_shallow T = true -> adm_above_min cmp l k -> open_fits T (keys l) k = true) /\
  (adm_ascending cmp l k -> open_fits T (keys l) k = true).
Proof. exact @open_conditions. Qed.
Print Assumptions C54_conditions.
(** ... where types without a [Tree] have at most one, a user's part has none, and a type of the library has as many as it has by itself *)
Theorem C54_levels : forall (B : Build) fixed K V cmp (O : VebOps K V),
  (forall T : OpenType fixed K V cmp O, open_plain T = true -> open_shallow T = true) /\
  (forall OL TC, open_plain (OT_user fixed K V cmp O OL TC) = true) /\
  (forall T, open_plain (OT_known fixed K V cmp O T) = plain T /\ open_shallow (OT_known fixed K V cmp O T) = shallow T).
Proof. exact (fun B fixed K V cmp O => conj open_levels (conj (fun _ _ => eq_refl) (fun _ => conj eq_refl eq_refl))). Qed.
Print Assumptions C54_levels.

(** a summary and subtrees that are sorted vectors, in an unordered vector; and a second level whose summary is the library's [Marker16]
    (src/markers.rs 22-30) and whose collection is boxed *)
Definition uvec (V : Type) : VebOps (u 8) V := SortedVec_ops u_cmp.
Definition U16 (fixed : bool) (V : Type) : VebOps (u 16) V := Tree_ops fixed u16_key (uvec unit) (uvec V) (VecColl u_eqb (uvec V)).
Definition U32 (fixed : bool) (V : Type) : VebOps (u 32) V :=
  Tree_ops fixed u32_key (M16E fixed) (U16 fixed V) (Box_coll (VecColl u_eqb (U16 fixed V))).
Definition OU16 (fixed : bool) (V : Type) : OpenType fixed (u 16) V u_cmp (U16 fixed V) :=
  OT_Tree fixed _ _ _ _ u16_key u16_laws _ _ _ (OT_user fixed _ _ _ _ (u_cmp_laws 8) (SortedVec_contract u_cmp (u_cmp_laws 8)))
    (OT_user fixed _ _ _ _ (u_cmp_laws 8) (SortedVec_contract u_cmp (u_cmp_laws 8)))
    (OC_user _ _ _ u_eqb u_eqb_eq (VecColl_contract u_eqb u_eqb_eq _)).
Definition OU32 (fixed : bool) (V : Type) : OpenType fixed (u 32) V u_cmp (U32 fixed V) :=
  OT_Tree fixed _ _ _ _ u32_key u32_laws _ _ _ (OT_known fixed _ _ _ _ (T16E fixed)) (OU16 fixed V)
    (OC_Box _ _ _ (OC_user _ _ _ u_eqb u_eqb_eq (VecColl_contract u_eqb u_eqb_eq _))).
(** the wild history runs into the defect of [Tree::insert] on this type as well; the corrected [Tree] answers as the sorted list does *)
Example C54_case : open_allowed (OU32 true N) adm_any /\ open_allowed (OU32 false N) (adm_ascending u_cmp) /\
  open_shallow (OU16 false N) = true /\ admissible u_cmp adm_any wild [] /\ admissible u_cmp (adm_ascending u_cmp) tame [] /\
  map show (answers (run (U32 false N) wild None)) = map show (answers (run (H32 false N) wild None)) /\
  map show (answers (run (U32 false N) wild None)) <> map show (snd (sp_run u_cmp wild [])) /\
  map show (answers (run (U32 true N) wild None)) = map show (snd (sp_run u_cmp wild [])).
Proof.
  split; [apply OA_fixed; reflexivity|]. split; [apply OA_ascending|]. split; [reflexivity|].
  split; [apply (admissible_b_ok u_cmp (fun _ _ => true)); [intros; exact I|vm_compute; reflexivity]|]. split; [apply tame_admissible|].
  split; [vm_compute; reflexivity|]. split; [vm_compute; discriminate|vm_compute; reflexivity].
Qed.
(** a history far from ascending that passes the test, and two insertions, one of which would not pass after it *)
Example C54_exactly_case :
  let cs := [Insert (b32 300000) 1%N; Insert (b32 5) 2%N; Insert (b32 70010) 3%N; Insert (b32 70002) 4%N; Insert (b32 200000) 5%N;
             Insert (b32 131100) 6%N; Insert (b32 70006) 7%N; Remove (b32 70006); Insert (b32 70004) 8%N; Insert (b32 400000) 9%N] in
  admissible u_cmp adm_any cs [] /\ admissible u_cmp (fun l k => open_fits (OU32 false N) (keys l) k = true) cs [] /\
  open_fits (OU32 false N) (keys (fst (sp_run u_cmp cs []))) (b32 70003) = true /\
  open_fits (OU32 false N) (keys (fst (sp_run u_cmp cs []))) (b32 65600) = false /\
  ascending u_cmp tame_list /\ adm_ascending u_cmp tame_list (b32 4000000000).
Proof.
  cbn zeta. split; [apply (admissible_b_ok u_cmp (fun _ _ => true)); [intros; exact I|vm_compute; reflexivity]|].
  split; [apply (admissible_b_ok u_cmp (fun l k => open_fits (OU32 false N) (keys l) k)); [intros l k E; exact E|vm_compute; reflexivity]|].
  split; [vm_compute; reflexivity|]. split; [vm_compute; reflexivity|].
  split; [exact (reached_asc (u_cmp_laws 32) (type_laws (TH32 false N)) (allowed_covered _ _ (AL_ascending (TH32 false N))) tame_tree _ tame_reached)|].
  apply (ascending_b_ok u_cmp (u_cmp_laws _)). vm_compute. reflexivity.
Qed.
Example C54_contract_case : KeyLaws u16_key /\ inhabited (TreeContract (@u_cmp 8) (uvec unit)) /\ inhabited (TreeContract (@u_cmp 8) (uvec N)) /\
  inhabited (CollContract (@u_eqb 8) (VecColl u_eqb (uvec N))) /\ (forall a b : u 8, u_eqb a b = true <-> a = b).
Proof.
  split; [exact u16_laws|]. split; [exact (inhabits (SortedVec_contract u_cmp (u_cmp_laws 8)))|].
  split; [exact (inhabits (SortedVec_contract u_cmp (u_cmp_laws 8)))|].
  split; [exact (inhabits (VecColl_contract u_eqb u_eqb_eq (uvec N)))|exact u_eqb_eq].
Qed.
(** the library does depend on its parts: with a summary that forgets what is inserted, removing the minimum panics *)
Definition forgetful : VebOps (u 8) unit :=
  {| vt := vt (uvec unit); v_from_monad := v_from_monad (uvec unit); v_is_monad := v_is_monad (uvec unit); v_len_hint := v_len_hint (uvec unit);
     v_into_monad := v_into_monad (uvec unit); v_min_val := v_min_val (uvec unit); v_min_val_mut := v_min_val_mut (uvec unit);
     v_max_val := v_max_val (uvec unit); v_max_val_mut := v_max_val_mut (uvec unit); v_find := v_find (uvec unit);
     v_find_mut := v_find_mut (uvec unit); v_predecessor := v_predecessor (uvec unit); v_predecessor_mut := v_predecessor_mut (uvec unit);
     v_successor := v_successor (uvec unit); v_successor_mut := v_successor_mut (uvec unit);
     v_insert := fun t _ _ => Ret (t, None);
     v_remove := v_remove (uvec unit); v_remove_min := v_remove_min (uvec unit); v_remove_max := v_remove_max (uvec unit) |}.
Theorem C54_any_part_refuted : exists (S : VebOps (u 8) unit) cs, admissible u_cmp (adm_ascending u_cmp) cs [] /\
  run (Tree_ops false u16_key S (uvec N) (VecColl u_eqb (uvec N))) cs None = Panic.
Proof.
  exists forgetful, [Insert (b16 1) 1%N; Insert (b16 300) 2%N; Insert (b16 600) 3%N; Insert (b16 900) 4%N; RemoveMin; RemoveMin; RemoveMin; RemoveMin].
  split.
  - apply (admissible_b_ok u_cmp (ascending_b u_cmp)); [intros; apply (ascending_b_ok u_cmp (u_cmp_laws _)); auto|vm_compute; reflexivity].
  - vm_compute. reflexivity.
Qed.
Print Assumptions C54_any_part_refuted.
