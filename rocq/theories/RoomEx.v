(** The markers of src/markers.rs have room. *)
From Verif Require Import Base Ints Ops Spec Key ByteSet ByteMap Coll Boxed BTree SizedT Tree Markers Laws Lists CollProofs
  KeyProofs Hist Types HistProofs TypesProofs HistCor Concrete Room RoomCor.
Local Open Scope N_scope.

(** a pointer of more bits than another has twice as many at least *)
Lemma wide_next {B : Build} : (Wide (2 ^ 16) -> 2 ^ 32 - 1 <= usize_max) /\ (Wide (2 ^ 32) -> 2 ^ 64 - 1 <= usize_max) /\ 65535 <= usize_max.
Proof.
  unfold Wide, usize_max, usize_bits. split; [|split]; destruct ptr; cbn; intros; lia.
Qed.
Lemma marker_room (B : Build) fixed V :
  (room (T8E fixed) 256 /\ room (T8 fixed V) 256 /\ room (T16E fixed) 65538 /\ room (T16 fixed V) 65538) /\
  (forall W : Wide (2 ^ 16), room (T32E fixed) 4295098370 /\ room (T32 fixed V) 4295098370) /\
  256 < usize_max /\ (Wide (2 ^ 16) -> 65538 < usize_max) /\ (Wide (2 ^ 32) -> 4295098370 < usize_max) /\
  (forall w, at_most (u w) (2 ^ w)) /\ (Wide (2 ^ 32) -> 2 ^ 32 < usize_max).
Proof.
  assert (H8 : at_most (u 8) 256) by exact (u_at_most 8). assert (H16 : at_most (u 16) 65536) by exact (u_at_most 16).
  assert (R16E : room (T16E fixed) 65538).
  { exists 256, 256. split; [exact H8|]. split; [apply N.le_refl|]. vm_compute. discriminate. }
  assert (R16 : room (T16 fixed V) 65538).
  { exists 256, 256. split; [exact H8|]. split; [apply N.le_refl|]. vm_compute. discriminate. }
  destruct wide_next as [N1 [N2 N3]].
  split; [split; [apply N.le_refl|split; [apply N.le_refl|split; [exact R16E|exact R16]]]|]. split.
  - intros W. split.
    + exists 65536, 65538. split; [exact H16|]. split; [exact R16E|]. vm_compute. discriminate.
    + exists 65536, 65538. split; [exact H16|]. split; [exact R16|]. vm_compute. discriminate.
  - split; [eapply N.lt_le_trans; [|exact N3]; reflexivity|]. split; [intros W; eapply N.lt_le_trans; [|exact (N1 W)]; reflexivity|].
    split; [intros W; eapply N.lt_le_trans; [|exact (N2 W)]; reflexivity|]. split; [exact u_at_most|].
    intros W; eapply N.lt_le_trans; [|exact (N2 W)]; reflexivity.
Qed.
Lemma never_panic {B : Build} {fixed K V cmp O} (T : VebType fixed K V cmp O) n cs : room T n -> n < usize_max -> run O cs None <> Panic.
Proof. intros H Hn E. destruct (room_always T n H Hn cs) as [ot [os [E' _]]]. rewrite E in E'. discriminate E'. Qed.
Lemma never (B : Build) fixed V :
  (forall cs, run (Sized_ops (M8 V)) cs None <> Panic) /\
  (Wide (2 ^ 16) -> forall cs, run (Sized_ops (M16 fixed V)) cs None <> Panic) /\
  (Wide (2 ^ 32) -> forall cs, run (M32 fixed V) cs None <> Panic /\ run (Sized_ops (Box_ops (M32 fixed V))) cs None <> Panic /\
    run (H32 fixed V) cs None <> Panic).
Proof.
  destruct (marker_room B fixed V) as [[R8E [R8 [R16E R16]]] [R32 [N8 [N16 [N32 _]]]]].
  split; [intros cs; exact (never_panic (VT_Sized fixed _ _ _ _ (T8 fixed V)) 256 cs R8 N8)|].
  split; [intros W cs; exact (never_panic (VT_Sized fixed _ _ _ _ (T16 fixed V)) 65538 cs R16 (N16 W))|].
  intros W cs. assert (W16 : Wide (2 ^ 16)) by (apply (wide_le _ _ W); vm_compute; discriminate). destruct (R32 W16) as [R32E' R32'].
  split; [exact (never_panic (T32 fixed V) _ cs R32' (N32 W))|].
  split; [exact (never_panic (VT_Sized fixed _ _ _ _ (VT_Box fixed _ _ _ _ (T32 fixed V))) _ cs R32' (N32 W))|].
  exact (never_panic (TH32 fixed V) _ cs R32' (N32 W)).
Qed.

(** a key held twice *)
Definition twice_calls : list (op (u 16) N) := [Insert (b16 10) 1; Insert (b16 20) 2; Insert (b16 5) 3; Insert (b16 20) 4].
Definition twice_tree : vt (M16 false N) := tree_of (M16 false N) twice_calls (v_from_monad (M16 false N) (b16 0) 0).
Definition twice_held : list (u 16 * N) :=
  match drain (v_remove_min (M16 false N)) 4 (Some twice_tree) with Ret (_, d) => d | Panic => [] end.
Lemma twice_drained : match drain (v_remove_min (M16 false N)) 4 (Some twice_tree) with Ret (None, _) => true | _ => false end = true.
Proof. vm_compute. reflexivity. Qed.
Lemma twice_reachable : reachable (M16 false N) twice_tree.
Proof. apply reachable_ex with twice_calls; [apply tree_of_ok; vm_compute; reflexivity|vm_compute; reflexivity]. Qed.
Lemma twice_contents : contents (M16 false N) twice_tree twice_held.
Proof.
  exists 4%nat. assert (H := twice_drained). unfold twice_held. destruct (drain _ _ _) as [[[t|] d]|]; try discriminate H. reflexivity.
Qed.
Lemma twice_listed : twice_held = [(b16 5, 3); (b16 10, 1); (b16 20, 2); (b16 20, 4)].
Proof. apply look_inj. vm_compute. reflexivity. Qed.
Lemma twice : exists t d, reachable (M16 false N) t /\ contents (M16 false N) t d /\ ~ NoDup (map fst d).
Proof.
  exists twice_tree, twice_held. split; [exact twice_reachable|]. split; [exact twice_contents|]. rewrite twice_listed.
  cbn [map fst]. intros H. inversion H as [|? ? _ H1]; subst. inversion H1 as [|? ? _ H2]; subst. inversion H2 as [|? ? H3 _]; subst.
  apply H3. left. reflexivity.
Qed.
