(** C80: what the rebuildings of all the hash tables inside a tree cost.

    [rehashed B' (probed ..) T]: the tree type [T] with probed tables (C75) for its hash collections, rebuilt under [std_policy] (C78); [moves_type]: the
    same with counts, where [slots] counts the pairs that tables move when they are rebuilt and the slots of new arrays (Moves.v).  [crun]: a history of
    calls, from nothing (C50).  [insertions cs]: the calls of [insert] in it. *)
From Verif Require Import Base Ints Ops Spec Key ByteSet ByteMap Coll Boxed BTree SizedT Tree Markers Laws KeyProofs Hist Types Concrete Cost CostIter HashGen Probe Amort
  Moves MovesCor.
Local Open Scope N_scope.

(** ** C80 Whatever the history, each insertion has paid for a fixed number of moves; the number depends on the type alone *)
Theorem C80_history : forall (B' : Build) w Seed (hash : forall Hi T, (Hi -> Hi -> bool) -> Seed Hi T -> Hi -> N) tag (draw : forall Hi T, Hi -> T -> Seed Hi T) bits0,
  forall (B : Build) fixed K V cmp (O : VebOps K V) (T : @VebType B fixed K V cmp O) cs,
  let r := crun (moves_type B' w hash tag draw bits0 T) cs None in
  outcome r = run (rehashed B' (probed w hash tag draw bits0) T) cs None /\ slots r <= insertions cs * moves_each T.
Proof. exact history_moves. Qed.
Print Assumptions C80_history.
(** ** with hash collections only, two for each level of trees *)
Theorem C80_tables : forall (B' : Build) w Seed (hash : forall Hi T, (Hi -> Hi -> bool) -> Seed Hi T -> Hi -> N) tag (draw : forall Hi T, Hi -> T -> Seed Hi T) bits0,
  forall (B : Build) fixed K V cmp (O : VebOps K V) (T : @VebType B fixed K V cmp O) cs, tables_only T = true ->
  slots (crun (moves_type B' w hash tag draw bits0 T) cs None) <= insertions cs * (2 * depth T).
Proof. exact history_tables. Qed.
Print Assumptions C80_tables.
(** ** Only an insertion moves pairs or makes arrays, on any tree *)
Theorem C80_only_insertions : forall (B' : Build) w Seed (hash : forall Hi T, (Hi -> Hi -> bool) -> Seed Hi T -> Hi -> N) tag (draw : forall Hi T, Hi -> T -> Seed Hi T) bits0,
  forall (B : Build) fixed K V cmp (O : VebOps K V) (T : @VebType B fixed K V cmp O) c ot, (forall k v, c <> Insert k v) ->
  slots (cstep (moves_type B' w hash tag draw bits0 T) c ot) = 0.
Proof. exact (fun B' w Seed hash tag draw bits0 B fixed K V cmp O T => step_calm B' w hash tag draw bits0 T). Qed.
Print Assumptions C80_only_insertions.
(** ** What a hash collection counts are the moves of C78 at the insertion of an absent key, and what is counted below *)
Theorem C80_counted : forall (B : Build) Seed Hi Lo V (Tr : VebOps Lo V) w eq (hash : Seed -> Hi -> N) tag draw bits0 (CT : CVeb Tr) (m : Swiss Seed Hi (vt Tr)) h lv,
  slots (cc_insert_key (probe_cost w eq hash tag draw bits0 CT) m h lv) =
  match sw_lookup w eq hash tag m h with
  | None => match outcome (cv_from_monad CT (fst lv) (snd lv)) with Ret _ => N.of_nat (sw_moves w hash m h) | Panic => 0 end + slots (cv_from_monad CT (fst lv) (snd lv))
  | Some (_, t) => slots (cv_insert CT t (fst lv) (snd lv))
  end.
Proof. exact moves_counted. Qed.
Print Assumptions C80_counted.

(** *** Keys of 16 bits over one level of hash collections and of 32 bits over two, as the markers of src/markers.rs but with HashMapMarker
    (src/collection/hash.rs 13-31); keys that are their own hashes, groups of one slot, first tables of two *)
Definition TB16 {B : Build} (fixed : bool) (V : Type) : VebType fixed (u 16) V u_cmp _ :=
  VT_Tree fixed _ _ _ _ u16_key u16_laws _ _ _ (T8E fixed) (T8 fixed V) (CT_Hash _ _ u_eqb u_eqb_eq).
Definition TB32 {B : Build} (fixed : bool) (V : Type) : VebType fixed (u 32) V u_cmp _ :=
  VT_Tree fixed _ _ _ _ u32_key u32_laws _ _ _ (TB16 fixed unit) (TB16 fixed V) (CT_Hash _ _ u_eqb u_eqb_eq).
Definition plain16 (fixed : bool) := moves_type debug_build 0 (Seed := fun _ _ => unit) (fun _ _ _ _ _ => 0) (fun _ => 0) (fun _ _ _ _ => tt) 0 (TB16 fixed N).
Definition plain32 (fixed : bool) := moves_type debug_build 0 (Seed := fun _ _ => unit) (fun _ _ _ _ _ => 0) (fun _ => 0) (fun _ _ _ _ => tt) 0 (TB32 fixed N).
(** [n] keys that differ in their upper bits *)
Definition rising16 (n : nat) : list (op (u 16) N) := map (fun i => Insert (b16 (256 * N.of_nat i)) (N.of_nat i)) (seq 0 n).
Definition rising32 (n : nat) : list (op (u 32) N) := map (fun i => Insert (b32 (16777216 * N.of_nat i)) (N.of_nat i)) (seq 0 n).
Definition bill {K V T} (r : cres (option T * list (out K V))) : bool * N := (match outcome r with Ret _ => true | Panic => false end, slots r).
(** one level allows two moves for each insertion, two levels four; keys put in again or taken out cost nothing.  When all but three are taken out and
    put in again, the table of the tree has kept its size, but the one of its summary was given up with its last member and grows anew *)
Definition emptied (n : nat) : list (op (u 32) N) := repeat RemoveMax n.
Example C80_case : tables_only (TB32 false N) = true /\ depth (TB32 false N) = 2 /\ moves_each (TB16 false N) = 2 /\ moves_each (TB32 false N) = 4 /\
  moves_each (TH32 false N) = 258 /\ insertions (rising32 33) = 33 /\
  bill (crun (plain16 false) (rising16 31) None) = (true, 53) /\ bill (crun (plain16 true) (rising16 31) None) = (true, 53) /\
  bill (crun (plain32 false) (rising32 33) None) = (true, 106) /\
  bill (crun (plain32 true) (rising32 33 ++ rising32 33) None) = (true, 106) /\
  bill (crun (plain32 true) (rising32 33 ++ emptied 30) None) = (true, 106) /\
  bill (crun (plain32 true) (rising32 33 ++ emptied 30 ++ rising32 33) None) = (true, 159).
Proof. vm_compute. repeat split. Qed.
(** ** No smaller number will do, for one level of tables or for two *)
Theorem C80_fewer_refuted : (exists cs, insertions cs * (moves_each (TB16 false N) - 1) < slots (crun (plain16 false) cs None)) /\
  (exists cs, insertions cs * (moves_each (TB32 false N) - 1) < slots (crun (plain32 false) cs None)).
Proof. split; [exists (rising16 31)|exists (rising32 33)]; vm_compute; reflexivity. Qed.
Print Assumptions C80_fewer_refuted.
(** ** A single insertion may move more than it pays for: the last of these moves 28 pairs *)
Theorem C80_single_refuted : exists cs c, slots (crun (plain16 false) cs None) + 28 = slots (crun (plain16 false) (cs ++ [c]) None) /\ moves_each (TB16 false N) < 28.
Proof. exists (rising16 30), (Insert (b16 7680) 30). vm_compute. split; reflexivity. Qed.
Print Assumptions C80_single_refuted.
