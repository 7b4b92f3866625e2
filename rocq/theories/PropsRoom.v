(** C57: trees over small keys never run out of room, on any history.
    [room T n] (Room.v): by the sizes of its key types a tree of type [T] can hold at most [n] pairs; [at_most K n]: there are at most
    [n] keys.  [fitting] (Hist.v) is the condition of C01-C03 that insertions happen with fewer than [usize::MAX] pairs stored.  [permitted] is
    the condition [admissible] of C04-C06, C38 without that condition.
    [Wide n] (Base.v): [n] is a [usize]; so [Wide (2 ^ 16)] says that pointers have more than 16 bits.  For the rest of the notation see the head of PropsMap.v. *)
From Verif Require Import Base Ints Ops Spec Key ByteSet ByteMap Coll Boxed BTree SizedT Tree Markers Laws Lists CollProofs
  KeyProofs Hist Types HistProofs TypesProofs HistCor Concrete ByteSetProofs Room RoomCor RoomEx Fits FitsCor.
Local Open Scope N_scope.

(** ** C57 A tree never holds more than its keys leave room for, whatever the history, defect included ... *)
Theorem C57_holds : forall (B : Build) fixed K V cmp (O : VebOps K V) (T : VebType (B := B) fixed K V cmp O) n t d,
  room T n -> reachable O t -> contents O t d -> N.of_nat (length d) <= n.
Proof. exact (fun b fixed K V cmp O T n t d H => @room_contents b fixed K V cmp O T n H t d). Qed.
Print Assumptions C57_holds.
(** ... so that, if that is less than [usize::MAX], no history at all panics, in no build, and all of them satisfy the condition of C01-C03 ... *)
Theorem C57_no_panic : forall (B : Build) fixed K V cmp (O : VebOps K V) (T : VebType (B := B) fixed K V cmp O) n,
  room T n -> n < usize_max -> forall cs, exists ot os, run O cs None = Ret (ot, os) /\ fitting cs os 0.
Proof. exact (fun b => @room_always b). Qed.
Print Assumptions C57_no_panic.
(** ... and every sequence of permitted calls is answered as by a sorted list, if there are fewer keys than [usize::MAX] ... *)
Theorem C57_sorted_map : forall (B : Build) fixed K V cmp (O : VebOps K V) (T : VebType (B := B) fixed K V cmp O) adm n cs,
  allowed T adm -> at_most K n -> n < usize_max -> permitted cmp adm cs [] ->
  exists ot, run O cs None = Ret (ot, snd (sp_run cmp cs [])) /\ (ot = None <-> fst (sp_run cmp cs []) = []).
Proof. exact (fun b => @room_sorted b). Qed.
Print Assumptions C57_sorted_map.
(** ... which is so for the markers of 8 bits everywhere, of 16 bits if pointers have more than 16, and of 32 bits if they have more than 32,
    with or without values, of the code as it is and corrected, in any box and with any count around them *)
Theorem C57_markers : forall (B : Build) fixed V,
  (room (T8E fixed) 256 /\ room (T8 fixed V) 256 /\ room (T16E fixed) 65538 /\ room (T16 fixed V) 65538) /\
  (forall W : Wide (2 ^ 16), room (T32E fixed) 4295098370 /\ room (T32 fixed V) 4295098370) /\
  256 < usize_max /\ (Wide (2 ^ 16) -> 65538 < usize_max) /\ (Wide (2 ^ 32) -> 4295098370 < usize_max) /\
  (forall w, at_most (u w) (2 ^ w)) /\ (Wide (2 ^ 32) -> 2 ^ 32 < usize_max).
Proof. exact marker_room. Qed.
Print Assumptions C57_markers.
Theorem C57_never : forall (B : Build) fixed V,
  (forall cs, run (Sized_ops (M8 V)) cs None <> Panic) /\
  (Wide (2 ^ 16) -> forall cs, run (Sized_ops (M16 fixed V)) cs None <> Panic) /\
  (Wide (2 ^ 32) -> forall cs, run (M32 fixed V) cs None <> Panic /\ run (Sized_ops (Box_ops (M32 fixed V))) cs None <> Panic /\
    run (H32 fixed V) cs None <> Panic).
Proof. exact never. Qed.
Print Assumptions C57_never.
(** ... That there are more places than keys is needed: [Tree] as it is can hold a key twice *)
Theorem C57_no_key_twice_refuted : exists t d, reachable (M16 false N) t /\ contents (M16 false N) t d /\ ~ NoDup (map fst d).
Proof. exact twice. Qed.
Print Assumptions C57_no_key_twice_refuted.
(** a byte set that is full, and a history over 32-bit keys that the sorted list is asked to follow *)
Example C57_case :
  run (M8E) (map (fun n => Insert (b8 n) tt) (map N.of_nat (seq 0 256))) None <> Panic /\
  match final (run M8E (map (fun n => Insert (b8 n) tt) (map N.of_nat (seq 0 256))) None) with
  | Some s => array_len (words s) | None => 0 end = 256 /\
  permitted u_cmp (adm_ascending u_cmp) tame [] /\ allowed (TH32 false N) (adm_ascending u_cmp).
Proof.
  split; [|split; [vm_compute; reflexivity|split; [|apply AL_ascending]]].
  - destruct (C57_no_panic debug_build false _ _ _ _ (T8E false) 256 (N.le_refl 256) eq_refl (map (fun n => Insert (b8 n) tt) (map N.of_nat (seq 0 256))))
      as [ot [os [E _]]]. intros E'. assert (X := eq_trans (eq_sym E) E'). discriminate X.
  - apply admissible_permitted. apply (admissible_b_ok u_cmp (ascending_b u_cmp)); [apply (ascending_b_ok u_cmp (u_cmp_laws _))|vm_compute; reflexivity].
Qed.
