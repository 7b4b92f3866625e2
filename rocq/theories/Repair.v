(** What a user of the library can do about the defect of [Tree::insert] (src/tree.rs 524-531; C04, C43, C65) without touching the library.

    Inserting a key below the minimum of a [Tree] of two pairs or more puts the old minimum where the maximum belongs and the old maximum between.
    [remove_max] then takes the old minimum out and puts the maximum back where it was, so that the old minimum can be inserted again. *)
From Verif Require Import Base Ops Spec Hist Laws Types Boxed SizedT Tree.

(** *** A wrapper written by a user: public trait methods only (src/lib.rs 46, 67, 143, 160).
    In Rust it is a [struct Careful<T>(Option<T>)], the option being empty only while [remove_max] consumes the tree (src/lib.rs 160);
    every method but [insert] is that of the tree inside.  It panics should [remove_max] leave no tree: C69 shows that it never does. *)
Definition careful_insert {K V : Type} (cmp : K -> K -> comparison) (O : VebOps K V) (t : vt O) (k : K) (v : V) : res (vt O * option (K * V)) :=
  m <- v_min_val O t ;;
  b <- v_is_monad O t ;;
  if negb b && ltb cmp k (fst m) then
    ' (t1, _) <- v_insert O t k v ;;
    ' (ot, p) <- v_remove_max O t1 ;;
    match ot with
    | Some t2 => v_insert O t2 (fst p) (snd p)
    | None => Panic
    end
  else v_insert O t k v.
Definition careful {K V : Type} (cmp : K -> K -> comparison) (O : VebOps K V) : VebOps K V :=
  {| vt := vt O;
     v_from_monad := v_from_monad O;
     v_is_monad := v_is_monad O;
     v_len_hint := v_len_hint O;
     v_into_monad := v_into_monad O;
     v_min_val := v_min_val O;
     v_min_val_mut := v_min_val_mut O;
     v_max_val := v_max_val O;
     v_max_val_mut := v_max_val_mut O;
     v_find := v_find O;
     v_find_mut := v_find_mut O;
     v_predecessor := v_predecessor O;
     v_predecessor_mut := v_predecessor_mut O;
     v_successor := v_successor O;
     v_successor_mut := v_successor_mut O;
     v_insert := careful_insert cmp O;
     v_remove := v_remove O;
     v_remove_min := v_remove_min O;
     v_remove_max := v_remove_max O |}.

(** *** Types in which every [Tree] is wrapped; the [Tree]s are the library's as they are ([fixed] false) *)
Inductive MendType {B : Build} : forall K V : Type, (K -> K -> comparison) -> VebOps K V -> Type :=
| MT_plain (K V : Type) cmp (O : VebOps K V) (T : VebType false K V cmp O) (Hp : plain T = true) : MendType K V cmp O
| MT_Tree (K Hi Lo V : Type) (ko : KeyOps K Hi Lo) (KL : KeyLaws ko) (S : VebOps Hi unit) (Tr : VebOps Lo V) (C : CollOps Hi Lo V Tr)
    (TS : MendType Hi unit (hi_cmp ko) S) (TT : MendType Lo V (lo_cmp ko) Tr) (CT : CollType Tr Hi C) :
    MendType K V (k_cmp ko) (careful (k_cmp ko) (Tree_ops false ko S Tr C))
| MT_Box (K V : Type) cmp (O : VebOps K V) (T : MendType K V cmp O) : MendType K V cmp (Box_ops O)
| MT_Sized (K V : Type) cmp (O : VebOps K V) (T : MendType K V cmp O) : MendType K V cmp (Sized_ops O).
