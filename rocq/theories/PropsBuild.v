(** C49: builds without debug assertions and overflow checks.

    Reading guide.  A build [B] (Base.v) has its checks ([dbg = true]) or not, and pointers of [usize_bits] bits.  [@VebType B ...]: the
    types of the build [B].  [recompiled B' T]: the tree type [T] compiled for the build [B'] (Rel.v).  What the checks are: Base.v
    ([debug_assert], [checked_sub], [usize_add]).  A build that is not named is the one with checks for 64-bit pointers.  [run], [reached], [allowed], [reachable], [it_run], [c_run], [m_run], [has], [how_many] as in PropsMap.v,
    PropsIter.v and PropsColl.v. *)
From Verif Require Import Base Ints Ops Spec Key ByteSet ByteMap Coll Boxed BTree SizedT Tree Markers Laws Lists CollProofs
  KeyProofs Hist Types HistProofs TypesProofs HistCor Concrete Iter IterSpec IterProofs BitSpec CollSpec CollCor Core Rel RelCor PropsIter PropsColl Fits FitsCor TaggedCor.

(** ** A build with checks answers: every other for pointers as wide or wider answers the same, on every history *)
Theorem C49_same : forall B B' : Build, dbg (Build := B) = true -> (usize_bits (B := B) <= usize_bits (B := B'))%N ->
  forall fixed K V cmp (O : VebOps K V) (T : @VebType B fixed K V cmp O) cs, (N.of_nat (length cs) <= usize_max (B := B))%N ->
  exists ot ot' os, run O cs None = Ret (ot, os) /\ run (recompiled B' T) cs None = Ret (ot', os) /\ (ot = None <-> ot' = None).
Proof. exact (fun B B' Hd Hw fixed K V cmp O T => same_run B' Hd Hw T). Qed.
Print Assumptions C49_same.
Theorem C49_same_long : forall B B' : Build, dbg (Build := B) = true -> (usize_bits (B := B) <= usize_bits (B := B'))%N ->
  forall fixed K V cmp (O : VebOps K V) (T : @VebType B fixed K V cmp O) cs ot os, run O cs None = Ret (ot, os) ->
  exists ot', run (recompiled B' T) cs None = Ret (ot', os) /\ (ot = None <-> ot' = None).
Proof. exact (fun B B' Hd Hw fixed K V cmp O T => recompiled_run B' Hd Hw T). Qed.
Print Assumptions C49_same_long.
(** C41 in every build: two types with the same core answer alike, each in a build of its own *)
Theorem C41_builds : forall B B1 B2 : Build, dbg (Build := B) = true ->
  (usize_bits (B := B) <= usize_bits (B := B1))%N -> (usize_bits (B := B) <= usize_bits (B := B2))%N ->
  forall fixed K V cmp cmp' (O O' : VebOps K V) (T : @VebType B fixed K V cmp O) (T' : @VebType B fixed K V cmp' O') cs,
  core T = core T' -> (N.of_nat (length cs) <= usize_max (B := B))%N ->
  exists ot ot' os, run (recompiled B1 T) cs None = Ret (ot, os) /\ run (recompiled B2 T') cs None = Ret (ot', os) /\ (ot = None <-> ot' = None).
Proof. exact (fun B B1 B2 Hd W1 W2 fixed K V cmp cmp' O O' T T' cs => same_core_builds B1 B2 Hd T T' cs W1 W2). Qed.
Print Assumptions C41_builds.
Example C49_case : map show (answers (run (recompiled release_build (TH32 false N)) wild None)) = map show (answers (run (H32 false N) wild None)) /\
  length (answers (run (recompiled release_build (TH32 false N)) wild None)) = 18.
Proof. split; vm_compute; reflexivity. Qed.

(** where pointers have 16 bits and where they have 64 *)
Definition B16 : Build := {| dbg := true; ptr := P16 |}.
Example C49_width_case : let T := TH32 (B := B16) false N in
  map show (answers (run (recompiled debug_build T) wild None)) = map show (answers (run (recompiled B16 T) wild None)) /\
  length (answers (run (recompiled B16 T) wild None)) = 18 /\ (usize_bits (B := B16) < usize_bits (B := debug_build))%N.
Proof. split; [|split]; vm_compute; reflexivity. Qed.
(** the other way round, not on every history: [Sized] counts 2^16 pairs on the wider target only (memory is not modelled) *)
Definition S16 := VT_Sized (B := B16) false _ _ _ _ (VT_BTree (B := B16) false N unit N.compare n_cmp_laws).
Definition descending (n : N) : list (op N unit) := N.peano_rect (fun _ => list (op N unit)) [] (fun n cs => Insert n tt :: cs) n.
Theorem C49_width_refuted : exists cs, run (recompiled B16 S16) cs None = Panic /\ run (recompiled debug_build S16) cs None <> Panic.
Proof.
  exists (descending (2 ^ 16)). split.
  - apply panicked. vm_compute. reflexivity.
  - apply not_panicked. vm_compute. reflexivity.
Qed.
Print Assumptions C49_width_refuted.

(** ** In every build: no panic, a sorted map, iteration as a deque *)
Theorem C49_no_panic : forall (B : Build) fixed K V cmp (O : VebOps K V) (T : @VebType B fixed K V cmp O) cs,
  (N.of_nat (length cs) <= usize_max)%N -> run O cs None <> Panic.
Proof. exact (fun B fixed K V cmp O T => no_panic_run (type_laws T)). Qed.
Print Assumptions C49_no_panic.
Theorem C49_sorted_map : forall (B : Build) fixed K V cmp (O : VebOps K V) (T : @VebType B fixed K V cmp O) adm cs, allowed T adm ->
  admissible cmp adm cs [] ->
  exists ot, run O cs None = Ret (ot, snd (sp_run cmp cs [])) /\ (ot = None <-> fst (sp_run cmp cs []) = []).
Proof. exact (fun B fixed K V cmp O T adm cs H => sorted_map (type_ord T) (type_laws T) (allowed_covered T adm H) cs). Qed.
Print Assumptions C49_sorted_map.
Theorem C49_deque : forall (B : Build) fixed K V cmp (O : VebOps K V) (T : @VebType B fixed K V cmp O) adm t l dirs, allowed T adm ->
  reached cmp O adm t l -> exists it, it_run (B := B) O (eqb cmp) t dirs it_new = Ret (it, fst (sp_pops dirs l)).
Proof. exact (fun B fixed K V cmp O T adm t l dirs H => iter_deque (type_ord T) (type_laws T) (allowed_covered T adm H) t l dirs). Qed.
Print Assumptions C49_deque.
Theorem C49_size_hint : forall (B : Build) fixed K V cmp (O : VebOps K V) (T : @VebType B fixed K V cmp O) adm t l dirs it os, allowed T adm ->
  reached cmp O adm t l -> it_run (B := B) O (eqb cmp) t dirs it_new = Ret (it, os) ->
  exists lo hi, it_size_hint (B := B) O t it = Ret (lo, hi) /\
    (lo <= N.of_nat (length (snd (sp_pops dirs l))))%N /\
    (forall h, hi = Some h -> (N.of_nat (length (snd (sp_pops dirs l))) <= h)%N).
Proof. exact (fun B fixed K V cmp O T adm t l dirs it os H => iter_hint (type_ord T) (type_laws T) (allowed_covered T adm H) t l dirs it os). Qed.
Print Assumptions C49_size_hint.
Definition R32 : VebOps (u 32) N := recompiled release_build (TH32 false N).
Definition R_tree : vt R32 := tree_of R32 tame (v_from_monad R32 (b32 0) 0%N).
Example C49_builds_case : allowed (recompiled_type release_build (N.le_refl _) (TH32 false N)) (adm_ascending u_cmp) /\
  reached u_cmp R32 (adm_ascending u_cmp) R_tree tame_list /\
  it_show (it_run (B := release_build) R32 (eqb u_cmp) R_tree [false; true; true; false; true; true; false; false] it_new) =
  [Some (70000, 10); Some (200001, 8); Some (200000, 6); Some (70001, 9); Some (70003, 5); None; None; None]%N.
Proof.
  split; [apply AL_ascending|]. split; [|vm_compute; reflexivity]. apply (reached_asc_ex u_cmp (u_cmp_laws _) tame).
  - apply tree_of_ok. vm_compute. reflexivity.
  - apply look_inj. vm_compute. reflexivity.
  - vm_compute. reflexivity.
Qed.

(** ** Iterators *)
Theorem C49_iter_same : forall B B' : Build, dbg (Build := B) = true -> (usize_bits (B := B) <= usize_bits (B := B'))%N ->
  forall fixed K V cmp (O : VebOps K V) (T : @VebType B fixed K V cmp O) cs t os t' os' dirs it ps,
  run O cs None = Ret (Some t, os) -> run (recompiled B' T) cs None = Ret (Some t', os') ->
  it_run (B := B) O (eqb cmp) t dirs it_new = Ret (it, ps) -> it_run (B := B') (recompiled B' T) (eqb cmp) t' dirs it_new = Ret (it, ps).
Proof.
  exact (fun B B' Hd Hw fixed K V cmp O T cs t os t' os' dirs it ps => recompiled_iter B' Hd Hw T cs t os t' os' dirs it ps (eqb cmp)).
Qed.
Print Assumptions C49_iter_same.
(** without checks no iterator of a tree of any history panics, nor its [size_hint], in whatever state it is *)
Theorem C49_iter_no_panic : forall B : Build, dbg (Build := B) = false ->
  forall fixed K V cmp (O : VebOps K V) (T : @VebType B fixed K V cmp O) t dirs it, reachable (B := B) O t ->
  it_run (B := B) O (eqb cmp) t dirs it <> Panic /\ it_size_hint (B := B) O t it <> Panic.
Proof. exact (fun B Hd fixed K V cmp O T t dirs it => release_reachable Hd (type_laws T) (eqb cmp) t dirs it). Qed.
Print Assumptions C49_iter_no_panic.
(** so the builds differ where the one with checks panics: 10, 20, 5 inserted, then next, next_back, next, next *)
Definition swapped : list (op (u 16) N) := [Insert (b16 10) 1%N; Insert (b16 20) 2%N; Insert (b16 5) 3%N].
Definition R16 : VebOps (u 16) N := recompiled release_build (T16 false N).
Definition swapped_tree : vt R16 := tree_of R16 swapped (v_from_monad R16 (b16 0) 0%N).
Theorem C49_iter_same_refuted : exists t l t' os os' cs dirs, reached u_cmp (M16 false N) adm_any t l /\
  run (M16 false N) cs None = Ret (Some t, os) /\ run R16 cs None = Ret (Some t', os') /\
  it_run (M16 false N) (eqb u_cmp) t dirs it_new = Panic /\
  it_show (it_run (B := release_build) R16 (eqb u_cmp) t' dirs it_new) = [Some (5, 3); Some (10, 1); Some (20, 2); None]%N.
Proof.
  exists (tree_of (M16 false N) swapped (v_from_monad (M16 false N) (b16 0) 0%N)), [(b16 5, 3%N); (b16 10, 1%N); (b16 20, 2%N)], swapped_tree,
    (answers (run (M16 false N) swapped None)), (answers (run R16 swapped None)), swapped, [false; true; false; false].
  split; [|split; [|split; [|split]]].
  - apply (reached_any_ex u_cmp swapped).
    + apply tree_of_ok. vm_compute. reflexivity.
    + apply look_inj. vm_compute. reflexivity.
    + vm_compute. reflexivity.
  - apply run_final, tree_of_ok. vm_compute. reflexivity.
  - apply run_final, tree_of_ok. vm_compute. reflexivity.
  - vm_compute. reflexivity.
  - vm_compute. reflexivity.
Qed.
Print Assumptions C49_iter_same_refuted.
(** and the upper bound of [size_hint], past the number of pairs of a counted tree whose iteration does not end, wraps around *)
Definition Z16 : VebOps (u 16) N := Sized_ops (M16 false N).
Definition ZR16 : VebOps (u 16) N := recompiled release_build (VT_Sized false _ _ _ _ (T16 false N)).
Definition five_next (B : Build) (O : VebOps (u 16) N) (t : vt O) : res (N * option N) :=
  ' (it, _) <- it_run (B := B) O (eqb u_cmp) t (repeat false 5) it_new ;; it_size_hint (B := B) O t it.
Theorem C49_size_hint_refuted : exists t t', final (run Z16 cyclic None) = Some t /\ final (run ZR16 cyclic None) = Some t' /\
  five_next debug_build Z16 t = Panic /\ five_next release_build ZR16 t' = Ret (0%N, Some usize_max).
Proof.
  exists (tree_of Z16 cyclic (v_from_monad Z16 (b16 0) 0%N)), (tree_of ZR16 cyclic (v_from_monad ZR16 (b16 0) 0%N)).
  split; [apply tree_of_ok; vm_compute; reflexivity|]. split; [apply tree_of_ok; vm_compute; reflexivity|]. split; vm_compute; reflexivity.
Qed.
Print Assumptions C49_size_hint_refuted.

(** ** Collections *)
Theorem C49_finite_map : forall (B : Build) Lo V (Tr : VebOps Lo V) Hi C (CT : @CollType B Lo V Tr Hi C) (deq : Hi -> Hi -> bool)
  (Hdeq : forall a b, deq a b = true <-> a = b) xs m os, m_run deq xs [] = Ret (m, os) ->
  exists oc, c_run C xs None = Ret (oc, os) /\ (oc = None <-> m = []).
Proof. exact (fun B Lo V Tr Hi C CT deq Hdeq => coll_finite_map_ret (coll_laws CT) deq Hdeq). Qed.
Print Assumptions C49_finite_map.
(** [remove_key] of an absent key panics in every build unless the collection is a ByteMap *)
Theorem C49_finite_map_panic : forall (B : Build) Lo V (Tr : VebOps Lo V) Hi C (CT : @CollType B Lo V Tr Hi C) (deq : Hi -> Hi -> bool)
  (Hdeq : forall a b, deq a b = true <-> a = b) xs, dbg (Build := B) = true \/ no_bytes CT = true ->
  m_run deq xs [] = Panic -> c_run C xs None = Panic.
Proof.
  exact (fun B Lo V Tr Hi C CT deq Hdeq xs H => coll_panic_run (coll_laws CT) deq Hdeq (coll_panics_if CT H) xs).
Qed.
Print Assumptions C49_finite_map_panic.
Example C49_finite_map_case :
  rmap (fun p => map cshow (snd p)) (c_run (ByteMap_coll (B := release_build) (M8 N)) some_calls None) =
    Ret [[0]; [1]; [3; 2]; [5; 9]; [4; 9; 7; 70]; [7; 0; 5; 50]; [8]; [8]; [7; 1; 6; 60]; [6; 7; 71]]%N /\
  no_bytes (CT_Box (B := release_build) _ _ _ (CT_Hash (B := release_build) (M8 N) (u 8) u_eqb u_eqb_eq)) = true.
Proof. split; vm_compute; reflexivity. Qed.
(** that of a ByteMap without checks acts on the tree of the next key above, and leaves that key in its set; it panics if there is
    none *)
Theorem C49_remove_absent : forall B : Build, dbg (Build := B) = false ->
  forall Lo V (Tr : VebOps Lo V) (m : ct (ByteMap_coll (B := B) Tr)) (h g : u 8) f, let C := ByteMap_coll (B := B) Tr in
  (uval h < uval g)%N -> (forall n, (uval h <= n)%N -> (n < uval g)%N -> has (bm_set m) n = false) -> has (bm_set m) (uval g) = true ->
  c_remove_key C m h f =
    match c_remove_key C m g f with
    | Ret (Some (m', removed), p) => Ret (Some (BM (bm_set m) (bm_list m'), removed), p)
    | r => r
    end.
Proof. exact (fun B Hd Lo V Tr m h g f => absent_next Hd Tr m h g f). Qed.
Print Assumptions C49_remove_absent.
Theorem C49_remove_absent_last : forall B : Build, dbg (Build := B) = false ->
  forall Lo V (Tr : VebOps Lo V) (m : ct (ByteMap_coll (B := B) Tr)) (h : u 8) f,
  (forall n, (uval h <= n)%N -> has (bm_set m) n = false) -> N.of_nat (length (bm_list m)) = how_many (has (bm_set m)) ->
  c_remove_key (ByteMap_coll (B := B) Tr) m h f = Panic.
Proof. exact (fun B Hd Lo V Tr m h f => absent_last Hd Tr m h f). Qed.
Print Assumptions C49_remove_absent_last.
Definition three_trees : ByteMap (list (vt (M8 N))) :=
  BM (set_bit (set_bit (bs_from_monad (b8 9) tt) (b8 2)) (b8 200))
     [v_from_monad (M8 N) (b8 6) 60%N; v_from_monad (M8 N) (b8 5) 50%N; v_from_monad (M8 N) (b8 7) 70%N].
Example C49_remove_absent_case : (uval (b8 4) < uval (b8 9))%N /\
  forallb (fun n => (n <? 4) || (9 <=? n) || negb (has (bm_set three_trees) n))%N (map N.of_nat (seq 0 256)) = true /\
  has (bm_set three_trees) (uval (b8 9)) = true /\
  forallb (fun n => (n <? 201) || negb (has (bm_set three_trees) n))%N (map N.of_nat (seq 0 256)) = true /\
  N.of_nat (length (bm_list three_trees)) = how_many (has (bm_set three_trees)).
Proof. repeat split; vm_compute; reflexivity. Qed.
(** documented to panic (src/collection/mod.rs 85-86), it takes the pair of key 9 out when asked to remove at key 4; the key 9 then
    answers with the tree of 200, and the key 200 is a panic *)
Definition absent_calls : list (cop (u 8) (M8 N)) :=
  [CCreate (b8 9) (v_from_monad (M8 N) (b8 5) 50%N); CInsert (b8 2) (b8 6, 60%N); CInsert (b8 200) (b8 7, 70%N);
   CRemove (b8 4) (v_remove_min (M8 N)); CRemove (b8 9) (v_remove_min (M8 N))].
Definition panics {A} (r : res A) : bool := match r with Panic => true | _ => false end.
Lemma panics_ok {A} (r : res A) : panics r = true -> r = Panic.
Proof. destruct r; [discriminate|reflexivity]. Qed.
Lemma panics_not {A} (r : res A) : panics r = false -> r <> Panic.
Proof. intros H ->. discriminate H. Qed.
Theorem C49_finite_map_panic_refuted : exists xs, m_run u_eqb xs [] = Panic /\ c_run (ByteMap_coll (M8 N)) xs None = Panic /\
  rmap (fun p => map cshow (snd p)) (c_run (ByteMap_coll (B := release_build) (M8 N)) xs None) = Ret [[1]; [3; 2]; [3; 200]; [7; 1; 5; 50]; [7; 1; 7; 70]]%N.
Proof.
  exists absent_calls. split; [apply panics_ok; vm_compute; reflexivity|]. split; [apply panics_ok; vm_compute; reflexivity|].
  vm_compute. reflexivity.
Qed.
Print Assumptions C49_finite_map_panic_refuted.
Theorem C49_remove_absent_breaks : exists xs, m_run u_eqb xs [] = Panic /\
  c_run (ByteMap_coll (B := release_build) (M8 N)) (xs ++ [CGet (b8 2)]) None <> Panic /\
  c_run (ByteMap_coll (B := release_build) (M8 N)) (xs ++ [CGet (b8 200)]) None = Panic.
Proof.
  exists (firstn 4 absent_calls). split; [apply panics_ok; vm_compute; reflexivity|].
  split; [apply panics_not|apply panics_ok]; vm_compute; reflexivity.
Qed.
Print Assumptions C49_remove_absent_breaks.

(** ** What the checks are: arithmetic of [usize], every pair of values *)
Theorem C49_arithmetic : forall (B : Build) x y, (x <= usize_max)%N -> (y <= usize_max)%N ->
  ((y <= x)%N -> checked_sub x y = Ret (x - y)%N) /\
  ((x < y)%N -> checked_sub x y = if dbg then Panic else Ret (2 ^ usize_bits - (y - x))%N) /\
  ((x + y < 2 ^ usize_bits)%N -> usize_add x y = Ret (x + y)%N) /\
  ((2 ^ usize_bits <= x + y)%N -> usize_add x y = if dbg then Panic else Ret (x + y - 2 ^ usize_bits)%N) /\
  debug_assert true = Ret tt /\ debug_assert false = if dbg then Panic else Ret tt.
Proof. exact build_arith. Qed.
Print Assumptions C49_arithmetic.
Example C49_arithmetic_case : (5 <= usize_max)%N /\ checked_sub (B := release_build) 5 7 = Ret (2 ^ 64 - 2)%N /\ checked_sub (B := debug_build) 5 7 = Panic /\
  usize_add (B := release_build) (2 ^ 64 - 1) 3 = Ret 2%N.
Proof. vm_compute. repeat split. discriminate. Qed.
