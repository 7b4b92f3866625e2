(** C77: the library's types over a probed hash table, a B-tree and a ring buffer: no contract of a container is left to assume.

    [probed ..]: the hash maps of C75, with any hash function, seeds, tags, group width, first size and wishes at a rebuilding.  [b_trees]: the
    ordered maps of C76.  [rings ..]: the queues of C74, with any plan of growth and any choice of the side that moves.
    [exchanged B' hf mf df T]: the type [T] in the build [B'] with [hf], [mf] and [df] for its hash maps, ordered maps and queues (C74). *)
From Verif Require Import Base Ints Ops Spec Key ByteSet ByteMap Coll Boxed BTree SizedT Tree Markers Laws Lists CollProofs
  KeyProofs Hist CollSpec Types HistProofs TypesProofs HistCor WrapProofs Concrete Iter IterSpec IterProofs Fits FitsCor Rel Open OpenCor HashGen HashGenCor
  MapGen MapGenCor GenMap GenMapProofs GenMapCor DequeGen DequeGenCor Probe ProbeCor Nodes NodesCor PropsSim PropsHash PropsOrdered PropsDeque PropsProbe PropsNodes.

Definition probed w (Seed : Type -> Type -> Type) (hash : forall Hi T, (Hi -> Hi -> bool) -> Seed Hi T -> Hi -> N) tag
  (draw : forall Hi T, Hi -> T -> Seed Hi T) bits0 (policy : forall Hi T, Swiss (Seed Hi T) Hi T -> nat) : HashFamily :=
  fun Hi T eq => Swiss_hash w eq (hash Hi T eq) tag (draw Hi T) bits0 (policy Hi T).
Definition rings (plan : forall A, Ring A -> nat * nat) (first : forall A, A -> nat * nat) (open shut : forall A, Ring A -> nat -> bool) : DequeFamily :=
  fun A => Ring_deque (plan A) (first A) (open A) (shut A).

(** ** C77 No history panics, and each gets the answers of the type of the other files, the insertion defect included *)
Theorem C77_same : forall w Seed hash tag draw bits0 policy plan first open shut,
  let hf := probed w Seed hash tag draw bits0 policy in let df := rings plan first open shut in
  forall B B' : Build, dbg (Build := B) = true -> (usize_bits (B := B) <= usize_bits (B := B'))%N ->
  forall fixed K V cmp (O : VebOps K V) (T : @VebType B fixed K V cmp O) cs, (N.of_nat (length cs) <= usize_max (B := B))%N ->
  exists ot ot' os, run O cs None = Ret (ot, os) /\ run (exchanged B' hf b_trees df T) cs None = Ret (ot', os) /\ (ot = None <-> ot' = None).
Proof.
  exact (fun w Seed hash tag draw bits0 policy plan first open shut B B' Hd Hw fixed K V cmp O T =>
    exchanged_same _ (swiss_family w hash tag draw bits0 policy) b_trees (fun K V cmp OL => Node_contract OL)
      _ (fun A => Ring_contract (plan A) (first A) (open A) (shut A)) B' Hd Hw T).
Qed.
Print Assumptions C77_same.
(** ** An iterator over the tree left, called from the two ends in any order, gives the same pairs *)
Theorem C77_iter : forall w Seed hash tag draw bits0 policy plan first open shut,
  let hf := probed w Seed hash tag draw bits0 policy in let df := rings plan first open shut in
  forall B B' : Build, dbg (Build := B) = true -> (usize_bits (B := B) <= usize_bits (B := B'))%N ->
  forall fixed K V cmp (O : VebOps K V) (T : @VebType B fixed K V cmp O) cs t os t' os' dirs it ps,
  run O cs None = Ret (Some t, os) -> run (exchanged B' hf b_trees df T) cs None = Ret (Some t', os') ->
  it_run (B := B) O (eqb cmp) t dirs it_new = Ret (it, ps) -> it_run (B := B') (exchanged B' hf b_trees df T) (eqb cmp) t' dirs it_new = Ret (it, ps).
Proof.
  exact (fun w Seed hash tag draw bits0 policy plan first open shut B B' Hd Hw fixed K V cmp O T cs t os t' os' dirs it ps =>
    exchanged_iter _ (swiss_family w hash tag draw bits0 policy) b_trees (fun K V cmp OL => Node_contract OL)
      _ (fun A => Ring_contract (plan A) (first A) (open A) (shut A)) B' Hd Hw T cs t os t' os' dirs it ps (eqb cmp)).
Qed.
Print Assumptions C77_iter.
(** ** The types are sorted maps wherever the library's are (C49): no law is assumed but those of the key type, which are in [T] *)
Theorem C77_sorted_map : forall w Seed hash tag draw bits0 policy plan first open shut,
  let hf := probed w Seed hash tag draw bits0 policy in let df := rings plan first open shut in
  forall B B' : Build, dbg (Build := B) = true -> (usize_bits (B := B) <= usize_bits (B := B'))%N ->
  forall fixed K V cmp (O : VebOps K V) (T : @VebType B fixed K V cmp O) adm cs, allowed T adm -> admissible (B := B) cmp adm cs [] ->
  exists ot, run (exchanged B' hf b_trees df T) cs None = Ret (ot, snd (sp_run cmp cs [])) /\ (ot = None <-> fst (sp_run cmp cs []) = []).
Proof.
  exact (fun w Seed hash tag draw bits0 policy plan first open shut B B' Hd Hw fixed K V cmp O T =>
    exchanged_sorted _ (swiss_family w hash tag draw bits0 policy) b_trees (fun K V cmp OL => Node_contract OL)
      _ (fun A => Ring_contract (plan A) (first A) (open A) (shut A)) B' Hd Hw T).
Qed.
Print Assumptions C77_sorted_map.

(** *** Keys of 32 bits: summaries in B-trees, trees over byte maps in a probed table, their bytes in ring buffers *)
Definition many32 : list (op (u 32) N) :=
  map (fun i => Insert (b32 ((i * 7919) mod 300 * 65536 + (i * 31) mod 7)) i) (map N.of_nat (seq 1 40)) ++
  [Max; Min] ++ map (fun i => Find (b32 ((i * 7919) mod 300 * 65536 + (i * 31) mod 7))) (map N.of_nat (seq 1 40)) ++
  map (fun i => Remove (b32 ((i * 7919) mod 300 * 65536 + (i * 31) mod 7))) (map N.of_nat (seq 10 25)) ++ repeat RemoveMin 4 ++ [Max; Min; Succ (b32 0); IsMonad].
Example C77_case :
  map show (answers (run (exchanged debug_build colliding b_trees std_ring (TQ32 false)) deep32 None)) = map show (answers (run (Q32 false) deep32 None)) /\
  map show (answers (run (exchanged release_build grouped b_trees std_ring (TQ32 false)) many32 None)) = map show (answers (run (Q32 false) many32 None)) /\
  map show (answers (run (Q32 false) many32 None)) <> map show (snd (sp_run u_cmp many32 [])) /\
  map show (answers (run (exchanged release_build grouped b_trees std_ring (TQ32 true)) many32 None)) = map show (snd (sp_run u_cmp many32 [])) /\
  allowed (TQ32 true) adm_any /\ admissible u_cmp (@adm_any (u 32) N) many32 [].
Proof.
  split; [vm_compute; reflexivity|]. split; [vm_compute; reflexivity|]. split; [vm_compute; discriminate|]. split; [vm_compute; reflexivity|].
  split; [apply AL_fixed; reflexivity|]. apply (admissible_b_ok u_cmp (fun _ _ => true)); [intros; exact I|vm_compute; reflexivity].
Qed.
