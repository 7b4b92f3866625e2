(** C78: what the rebuildings of the probed hash table cost.

    [lg_run w eq hash tag draw bits0 policy h t os]: the table of C75 begun with the pair [(h, t)], after the trees put in and taken out that [os]
    lists, with the number of insertions of absent keys and the number of pairs moved by rebuildings so far (Amort.v).  [std_policy]: the size
    stays if at most half of the room is taken by pairs, and doubles otherwise. *)
From Verif Require Import Base Ints Ops ByteMap Coll HashGen HashGenCor Probe ProbeCor Amort AmortCor.

(** ** C78 Whatever is put in and taken out, at most two pairs are moved for each insertion *)
Theorem C78_moves : forall w Seed Hi T (eq : Hi -> Hi -> bool) (hash : Seed -> Hi -> N) tag (draw : Hi -> T -> Seed) bits0, (forall a b, eq a b = true <-> a = b) ->
  forall h t os, let l := lg_run w eq hash tag draw bits0 std_policy h t os in lg_moved l <= 2 * lg_calls l.
Proof. exact (fun w Seed Hi T eq hash tag draw bits0 Heq h t os => proj1 (ledger w eq Heq hash tag draw bits0 h t os)). Qed.
Print Assumptions C78_moves.
(** ** and no table has more than eight slots for each pair of the most there ever were at once, unless it is the first one *)
Theorem C78_sizes : forall w Seed Hi T (eq : Hi -> Hi -> bool) (hash : Seed -> Hi -> N) tag (draw : Hi -> T -> Seed) bits0, (forall a b, eq a b = true <-> a = b) ->
  forall h t os p, (forall os1 os2, os = os1 ++ os2 -> length (pairs_of (sw_slots (lg_table (lg_run w eq hash tag draw bits0 std_policy h t os1)))) <= p) ->
  let m := lg_table (lg_run w eq hash tag draw bits0 std_policy h t os) in
  length (sw_slots m) = 2 ^ S bits0 \/ length (sw_slots m) + 4 <= 8 * p.
Proof. exact (fun w Seed Hi T eq hash tag draw bits0 Heq => slots_sizes w eq Heq hash tag draw bits0). Qed.
Print Assumptions C78_sizes.
(** ** What is counted: the insertions are those of keys that are absent, the first pair's included; a call that moves nothing changes one slot at
    the most, and a call that changes more is counted as a move of all pairs *)
Theorem C78_calls : forall w Seed Hi T (eq : Hi -> Hi -> bool) (hash : Seed -> Hi -> N) tag (draw : Hi -> T -> Seed) bits0 (policy : Swiss Seed Hi T -> nat),
  (forall a b, eq a b = true <-> a = b) -> forall h t os, let l := lg_run w eq hash tag draw bits0 policy h t os in
  lg_calls l = S (absent_puts eq [h] os) /\ forall k, In k (map fst (pairs_of (sw_slots (lg_table l)))) <-> In k (keys_after eq [h] os).
Proof. exact (fun w Seed Hi T eq hash tag draw bits0 policy Heq => counted w eq Heq hash tag draw bits0 policy). Qed.
Print Assumptions C78_calls.
Theorem C78_moved : forall w Seed Hi T (eq : Hi -> Hi -> bool) (hash : Seed -> Hi -> N) tag (draw : Hi -> T -> Seed) bits0 (policy : Swiss Seed Hi T -> nat),
  (forall a b, eq a b = true <-> a = b) -> forall h t os,
  let lg := lg_run w eq hash tag draw bits0 policy h t in lg_moved (lg []) = 0 /\
  forall o, (lg_moved (lg (os ++ [o])) = lg_moved (lg os) /\ exists i s, sw_slots (lg_table (lg (os ++ [o]))) = list_set (sw_slots (lg_table (lg os))) i s) \/
    lg_moved (lg (os ++ [o])) = lg_moved (lg os) + length (pairs_of (sw_slots (lg_table (lg os)))).
Proof. exact (fun w Seed Hi T eq hash tag draw bits0 policy Heq h t os => conj eq_refl (moved_counted w eq Heq hash tag draw bits0 policy h t os)). Qed.
Print Assumptions C78_moved.
(** ** These are the tables of C75, under any policy *)
Theorem C78_tables : forall w Seed Hi T (eq : Hi -> Hi -> bool) (hash : Seed -> Hi -> N) tag (draw : Hi -> T -> Seed) bits0 (policy : Swiss Seed Hi T -> nat),
  (forall a b, eq a b = true <-> a = b) -> forall m, sw_made w eq hash tag draw bits0 policy m <->
  exists h t os, lg_table (lg_run w eq hash tag draw bits0 policy h t os) = m.
Proof. exact (fun w Seed Hi T eq hash tag draw bits0 policy Heq => tables w eq Heq hash tag draw bits0 policy). Qed.
Print Assumptions C78_tables.

(** *** Keys that are their own hashes, groups of one slot, a first table of [2 ^ S b] slots *)
Definition own (b : nat) (policy : Swiss unit N N -> nat) (os : list (hop N N)) : Ledger unit N N :=
  lg_run 0 N.eqb (fun _ h => h) (fun _ => 0%N) (fun _ _ => tt) b policy 0%N 0%N os.
(** the keys from [1] to [n]; and [n] times one key taken out and another put in, in turn *)
Definition rising (n : nat) : list (hop N N) := map (fun i => HPut (N.of_nat i) 0%N) (seq 1 n).
Fixpoint swaps (n : nat) (a b : N) : list (hop N N) := match n with O => [] | S n => HDel a :: HPut b 0%N :: swaps n b a end.
Definition tally (l : Ledger unit N N) : nat * nat * nat * nat := (lg_calls l, lg_moved l, length (sw_slots (lg_table l)), sw_items (lg_table l)).
(** rising keys come near to two moves each; the same keys put in again cost nothing; swaps in a half filled table make it rebuild at its size *)
Example C78_case : tally (own 0 std_policy (rising 56)) = (57, 109, 128, 57) /\
  tally (own 0 std_policy (rising 56 ++ rising 56)) = (57, 109, 128, 57) /\
  tally (own 3 std_policy (rising 5 ++ swaps 40 5 6)) = (46, 0, 16, 6) /\
  tally (own 3 std_policy (rising 5 ++ concat (map (fun i => [HDel (N.of_nat i); HPut (N.of_nat (i + 5)) 0%N]) (seq 1 40)))) = (46, 20, 16, 6).
Proof. vm_compute. repeat split. Qed.
(** right after a table has grown only five moves are missing to two for each insertion *)
Example C78_tight_case : forall c, In c [53; 109; 221]%nat -> exists n, lg_moved (own 0 std_policy (rising n)) = c /\ 2 * lg_calls (own 0 std_policy (rising n)) = c + 5.
Proof. intros c [<-|[<-|[<-|[]]]]; [exists 28|exists 56|exists 112]; vm_compute; split; reflexivity. Qed.
(** ** To keep the size whenever the pairs fit is not enough: each insertion into a nearly full table can then move almost all pairs *)
Theorem C78_same_size_refuted : exists os, let l := own 3 (fun m => sw_bits m) os in 10 * lg_calls l < lg_moved l /\ length (sw_slots (lg_table l)) = 16.
Proof. exists (rising 13 ++ swaps 100 13 14). vm_compute. split; [repeat constructor|reflexivity]. Qed.
Print Assumptions C78_same_size_refuted.
