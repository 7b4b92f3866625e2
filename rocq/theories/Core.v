(** What is left of a tree type when the choice of leaves, collections, boxes and size counters is forgotten: every leaf
    becomes a BTreeMap, every collection a HashMap, Box and SizedVebTree are dropped.  Only the nesting of [Tree] and the keys remain. *)
From Verif Require Import Base Ints Ops Coll Boxed BTree SizedT Tree Types.

Fixpoint core {B : Build} {fixed K V cmp O} (T : VebType fixed K V cmp O) : VebOps K V :=
  match T in VebType _ K V _ _ return VebOps K V with
  | VT_ByteSet _ => BTree_ops unit u_cmp
  | VT_ByteMap _ V => BTree_ops V u_cmp
  | VT_BTree _ _ V cmp _ => BTree_ops V cmp
  | VT_Tree _ _ _ _ _ ko _ _ _ _ TS TT _ => Tree_ops fixed ko (core TS) (core TT) (Hash_coll (eqb (hi_cmp ko)) (core TT))
  | VT_Box _ _ _ _ _ T' | VT_Sized _ _ _ _ _ T' => core T'
  end.
