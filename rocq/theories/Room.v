(** How many pairs a tree can hold at all, from the sizes of its key types.  Specification. *)
From Verif Require Import Base Ints Ops Spec ByteSet ByteMap Coll Boxed BTree SizedT Tree Types Hist.

(** There are at most [n] values of [K]. *)
Definition at_most (K : Type) (n : N) : Prop := forall l : list K, NoDup l -> (N.of_nat (length l) <= n)%N.

(** A byte set or byte map has room for 256 keys (set.rs 5-6, map/mod.rs 13-18), a [BTreeMap] for all keys; a [Tree] for its
    minimum, its maximum and what its collection has room for (src/tree.rs 29-47). *)
Fixpoint room {B : Build} {fixed K V cmp O} (T : VebType fixed K V cmp O) (n : N) : Prop :=
  match T with
  | VT_ByteSet _ | VT_ByteMap _ _ => (256 <= n)%N
  | VT_BTree _ K _ _ _ => at_most K n
  | VT_Tree _ _ Hi _ _ _ _ _ _ _ _ TT _ => exists h m, at_most Hi h /\ room TT m /\ (2 + h * m <= n)%N
  | VT_Box _ _ _ _ _ T' | VT_Sized _ _ _ _ _ T' => room T' n
  end.

(** Histories whose every insertion satisfies [adm], whatever the number of pairs stored ([admissible] of Hist.v asks for
    fewer than [usize::MAX] of them) *)
Fixpoint permitted {K V} (cmp : K -> K -> comparison) (adm : list (K * V) -> K -> Prop) (cs : list (op K V)) (l : list (K * V)) : Prop :=
  match cs with
  | [] => True
  | c :: cs' => match c with Insert k _ => adm l k | _ => True end /\ permitted cmp adm cs' (fst (sp_step cmp c l))
  end.
