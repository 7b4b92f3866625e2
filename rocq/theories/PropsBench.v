(** C48: the two structures that the benchmark compares.
    [veb_bench O data], [btree_bench cmp data] (Bench.v): the two implementations of the benchmark's trait; [b_run B cs b]: the
    calls [cs] made one after the other; [sp_brun cmp data incl cs l]: what a sorted list answers ([incl]: [next] and [prev] may
    give the key itself); [b_admissible], [at_gaps]: conditions on insertions, and on calls of [next] and [prev]; [fill xs coin]: the
    keys [xs] inserted in turn where [coin] says so.  [U32Set], [keys32 bits]: what the benchmark uses.
    [Wide n] (Base.v): [n] is a [usize]; so [Wide (2 ^ 16)] says that pointers have more than 16 bits. *)
From Coq Require Import Sorting.Sorted.
From Verif Require Import Base Ints Spec Ops Boxed SizedT BTree Lists Laws Hist Markers Types TypesProofs Fits Concrete KeyProofs Bench BenchCor.

(** ** C48 The benchmark's structures answer alike.  The B-tree side is a sorted map whose [next] and [prev] may give the key
    itself, on every history ... *)
Theorem C48_btree : forall K V cmp, OrdLaws cmp -> forall (data : V) (cs : list (bop K V)),
  b_run (btree_bench cmp data) cs [] = Ret (sp_brun cmp data true cs []).
Proof. exact (fun K V cmp OL data cs => btree_run OL data cs [] asc_nil). Qed.
Print Assumptions C48_btree.
(** ... the side of this crate is a sorted map whose [next] and [prev] never give the key itself, while insertions are ascending or
    pass the test of C43 ... *)
Theorem C48_veb : forall (B : Build) fixed K V cmp (O : VebOps K V) (T : VebType fixed K V cmp O) data cs,
  b_admissible cmp data false (adm_ok T) cs [] ->
  exists ot, b_run (veb_bench O data) cs None = Ret (ot, snd (sp_brun cmp data false cs [])).
Proof. exact @bench_veb. Qed.
Print Assumptions C48_veb.
(** ... so both answer alike if [next] and [prev] are only called at keys that are not stored ... *)
Theorem C48_agree : forall (B : Build) fixed K V cmp (O : VebOps K V) (T : VebType fixed K V cmp O) data cs,
  b_admissible cmp data false (adm_ok T) cs [] -> at_gaps cmp data false cs [] ->
  exists ot m os, b_run (veb_bench O data) cs None = Ret (ot, os) /\ b_run (btree_bench cmp data) cs [] = Ret (m, os).
Proof. exact @bench_agree. Qed.
Print Assumptions C48_agree.
(** ... in particular once filled as the benchmark does, whatever the coins say, and used without further insertions ... *)
Theorem C48_filled : forall (B : Build) (W : Wide (2 ^ 16)) bits coin cs, bits <= 32 -> (N.of_nat bits < usize_bits)%N -> Forall no_insert cs ->
  at_gaps u_cmp tt false cs (map (fun x => (x, tt)) (filter coin (keys32 bits))) ->
  exists ot m os, b_run (veb_bench U32Set tt) (fill (keys32 bits) coin ++ cs) None = Ret (ot, os) /\
    b_run (btree_bench u_cmp tt) (fill (keys32 bits) coin ++ cs) [] = Ret (m, os).
Proof. exact (fun B W bits coin cs Hb Hp => bench_filled TU32 tt (keys32 bits) coin cs (keys32_sorted bits Hb) (keys32_length B bits Hp)). Qed.
Print Assumptions C48_filled.
(** ... and with the defect of [Tree::insert] corrected, on every history ... *)
Theorem C48_fixed_agree : forall (B : Build) K V cmp (O : VebOps K V) (T : VebType true K V cmp O) data cs,
  b_admissible cmp data false adm_any cs [] -> at_gaps cmp data false cs [] ->
  exists ot m os, b_run (veb_bench O data) cs None = Ret (ot, os) /\ b_run (btree_bench cmp data) cs [] = Ret (m, os).
Proof. exact (fun B K V cmp O T data cs => bench_fixed T data cs eq_refl). Qed.
Print Assumptions C48_fixed_agree.
(** ... the tree never panics, whatever is called ... *)
Theorem C48_no_panic : forall (B : Build) fixed K V cmp (O : VebOps K V) (T : VebType fixed K V cmp O) data cs,
  (N.of_nat (length cs) <= usize_max)%N -> b_run (veb_bench O data) cs None <> Panic.
Proof. exact @bench_no_panic. Qed.
Print Assumptions C48_no_panic.
(** ... but at every stored key [next] differs: the B-tree gives the key itself, the tree never does ... *)
Theorem C48_next_differs : forall (B : Build) fixed K V cmp (O : VebOps K V) (T : VebType fixed K V cmp O) data cs k,
  b_admissible cmp data false (adm_ok T) cs [] -> at_gaps cmp data false cs [] ->
  In k (keys (fst (sp_brun cmp data false cs []))) ->
  exists os ot m o o', b_run (veb_bench O data) (cs ++ [BNext k]) None = Ret (ot, os ++ [BP o]) /\
    b_run (btree_bench cmp data) (cs ++ [BNext k]) [] = Ret (m, os ++ [BP o']) /\ omap fst o' = Some k /\ omap fst o <> Some k.
Proof. exact @bench_differ. Qed.
Print Assumptions C48_next_differs.
(** Filled with 10 and 15, then used *)
Definition coin2 (x : u 32) : bool := ((uval x =? 10) || (uval x =? 15))%N.
Definition use2 : list (bop (u 32) unit) :=
  [BLen; BFind (b32 10); BNext (b32 3); BPrev (b32 12); BRemove (b32 11); BRemove (b32 10); BFind (b32 10); BNextMut (b32 10) tt; BPrev (b32 10); BLen].
Definition more2 : list (bop (u 32) unit) := [BInsert (b32 20); BInsert (b32 15); BInsert (b32 17); BLen].
Definition bshow (o : bout (u 32) unit) : option N + bool :=
  match o with
  | BN n => inl (Some n)
  | BV o => inr (match o with Some _ => true | None => false end)
  | BP o => inl (omap (fun p => uval (fst p)) o)
  end.
Example C48_case_filled : 4 <= 32 /\ Forall no_insert use2 /\
  at_gaps u_cmp tt false use2 (map (fun x => (x, tt)) (filter coin2 (keys32 4))).
Proof.
  split; [lia|]. split; [repeat constructor|]. apply at_gaps_b_ok; [apply u_cmp_laws|]. vm_compute. reflexivity.
Qed.
Example C48_case : b_admissible u_cmp tt false (adm_ok TU32) (fill (keys32 4) coin2 ++ use2 ++ more2) [] /\
  at_gaps u_cmp tt false (fill (keys32 4) coin2 ++ use2 ++ more2) [] /\
  In (b32 15) (keys (fst (sp_brun u_cmp tt false (fill (keys32 4) coin2 ++ use2 ++ more2) []))) /\
  map bshow (snd (sp_brun u_cmp tt false (fill (keys32 4) coin2 ++ use2 ++ more2) [])) =
    [inr false; inr false; inl (Some 2); inr true; inl (Some 10); inl (Some 10); inr false; inr true; inr false; inl (Some 15); inl None;
     inl (Some 1); inr false; inr true; inr false; inl (Some 3)]%N.
Proof.
  split; [|split; [|split]].
  - apply b_admissible_b_ok; [apply u_cmp_laws|]. vm_compute. reflexivity.
  - apply at_gaps_b_ok; [apply u_cmp_laws|]. vm_compute. reflexivity.
  - apply (in_b_ok (u_cmp_laws 32)). vm_compute. reflexivity.
  - vm_compute. reflexivity.
Qed.
Example C48_case_fixed : b_admissible u_cmp tt false adm_any (fill (keys32 4) coin2 ++ spoil) [] /\
  at_gaps u_cmp tt false (fill (keys32 4) coin2 ++ spoil) [] /\ (N.of_nat (length (fill (keys32 4) coin2 ++ spoil)) <= usize_max)%N.
Proof.
  split; [|split].
  - vm_compute. repeat split.
  - apply at_gaps_b_ok; [apply u_cmp_laws|]. vm_compute. reflexivity.
  - vm_compute. discriminate.
Qed.

(** ... and once a key below the smallest is inserted into the filled structures, even the answers to insertions and [len] differ *)
Theorem C48_agree_refuted : exists bits coin cs, bits <= 32 /\
  (forall k, ~ In (BNext k) cs) /\ (forall k, ~ In (BPrev k) cs) /\
  exists ot m os os', b_run (veb_bench U32Set tt) (fill (keys32 bits) coin ++ cs) None = Ret (ot, os) /\
    b_run (btree_bench u_cmp tt) (fill (keys32 bits) coin ++ cs) [] = Ret (m, os') /\ os <> os'.
Proof. exact agree_refuted. Qed.
Print Assumptions C48_agree_refuted.
