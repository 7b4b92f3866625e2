(** Which calls a [Tree] cannot answer if its children are in an array with too few slots.  Specification only, but for [Guard], a device of
    the proof.

    [ArrayTreeCollection] takes the slot of a half from [SizedVebKey::index] (src/key.rs 121-125), which nothing keeps below the number of
    slots: [index] of a signed half sign-extends (key.rs 188-190 and the like), the number of slots may be truncated (src/collection/array.rs
    51), a user's [index] may be anything.  Such a half has no slot, and each use of its slot panics (array.rs 104, 113, 117, 121, 145-149,
    176). *)
From Verif Require Import Base Spec Ops Hist Fits.

(** [far k]: the high half of [k] has no slot.  [needs_slot l c]: the call [c] on the pairs [l] uses such a slot.  The children hold what is
    between the minimum and the maximum.  A query looks into them, if there are any, when its key is between the two; [find] (tree.rs 153-164)
    also when it is above the maximum, and [remove] (tree.rs 594-619) also when it is below the minimum.  An insertion puts there the key, if
    it is between the two, or else the old minimum or maximum it replaces. *)
Section Needs.
  Context {K V : Type} (cmp : K -> K -> comparison) (far : K -> bool).
  Definition needs_slot (l : list (K * V)) (c : op K V) : bool :=
    match ends l with
    | None => false
    | Some ((mn, _), m, (mx, _)) =>
        let looks k := match m with [] => false | _ => far k end in
        match c with
        | Insert k _ =>
            match cmp k mn, cmp k mx with
            | Eq, _ => false
            | Lt, _ => far mn
            | Gt, Eq => false
            | Gt, Lt => far k
            | Gt, Gt => far mx
            end
        | Remove k => negb (eqb cmp k mn) && negb (eqb cmp k mx) && looks k
        | Find k | FindMut k _ => ltb cmp mn k && negb (eqb cmp k mx) && looks k
        | Pred k | PredMut k _ | Succ k | SuccMut k _ => ltb cmp mn k && ltb cmp k mx && looks k
        | _ => false
        end
    end.
End Needs.

(** The collection [C] that panics on the halves that are not [good] *)
Definition Guard {Hi Lo V} (good : Hi -> bool) {Tr : VebOps Lo V} (C : CollOps Hi Lo V Tr) : CollOps Hi Lo V Tr :=
  {| ct := ct C;
     c_create := fun h t => if good h then c_create C h t else Panic;
     c_get := fun c h => if good h then c_get C c h else Panic;
     c_get_mut := fun c h => if good h then c_get_mut C c h else Panic;
     c_insert_key := fun c h lv => if good h then c_insert_key C c h lv else Panic;
     c_remove_key := fun c h f => if good h then c_remove_key C c h f else Panic;
     c_maybe_remove_key := fun c h f => if good h then c_maybe_remove_key C c h f else Panic |}.
