(** All the tree types the library can build, as an inductive family of dictionaries:
    the impls of VebTree are src/lib.rs 183, 327, 433, src/bitset/set.rs 110, src/bitset/map/mod.rs 131,
    src/tree.rs 80; those of TreeCollection src/collection/array.rs 93, hash.rs 33, mod.rs 108,
    src/bitset/map/mod.rs 36.  Keys are assumed lawful: a total order whose equality is identity
    ([OrdLaws]), split compatibly with the order ([KeyLaws]; C61 shows that less does not do), indexed injectively below the
    cardinality ([IdxLaws]), compared correctly by the hash map. *)
From Verif Require Import Base Ints Ops Spec ByteSet ByteMap Coll Boxed BTree SizedT Tree Laws CollProofs Hist.

(** One collection of trees of the dictionary [Tr]. *)
Inductive CollType {B : Build} {Lo V : Type} (Tr : VebOps Lo V) : forall Hi : Type, CollOps Hi Lo V Tr -> Type :=
| CT_Array (Hi : Type) (ix : IdxOps Hi) (IL : IdxLaws ix) : CollType Tr Hi (Array_coll ix Tr)
| CT_Hash (Hi : Type) (eq : Hi -> Hi -> bool) (Heq : forall a b, eq a b = true <-> a = b) :
    CollType Tr Hi (Hash_coll eq Tr)
| CT_ByteMap : CollType Tr (u 8) (ByteMap_coll Tr)
| CT_Box (Hi : Type) (C : CollOps Hi Lo V Tr) (CT : CollType Tr Hi C) : CollType Tr Hi (Box_coll C).

(** The tree types.  [fixed] is the parameter of the model of [Tree::insert]: [VebType false] are the
    types of the library as it is. *)
Inductive VebType {B : Build} (fixed : bool) : forall K V : Type, (K -> K -> comparison) -> VebOps K V -> Type :=
| VT_ByteSet : VebType fixed (u 8) unit u_cmp ByteSet_ops
| VT_ByteMap (V : Type) : VebType fixed (u 8) V u_cmp (ByteMap_ops V)
| VT_BTree (K V : Type) (cmp : K -> K -> comparison) (OL : OrdLaws cmp) :
    VebType fixed K V cmp (BTree_ops V cmp)
| VT_Tree (K Hi Lo V : Type) (ko : KeyOps K Hi Lo) (KL : KeyLaws ko)
    (S : VebOps Hi unit) (Tr : VebOps Lo V) (C : CollOps Hi Lo V Tr)
    (TS : VebType fixed Hi unit (hi_cmp ko) S) (TT : VebType fixed Lo V (lo_cmp ko) Tr)
    (CT : CollType Tr Hi C) : VebType fixed K V (k_cmp ko) (Tree_ops fixed ko S Tr C)
| VT_Box (K V : Type) cmp (O : VebOps K V) (T : VebType fixed K V cmp O) :
    VebType fixed K V cmp (Box_ops O)
| VT_Sized (K V : Type) cmp (O : VebOps K V) (T : VebType fixed K V cmp O) :
    VebType fixed K V cmp (Sized_ops O).

(** No [Tree] inside *)
Fixpoint plain {B : Build} {fixed K V cmp O} (T : VebType fixed K V cmp O) : bool :=
  match T with
  | VT_ByteSet _ | VT_ByteMap _ _ | VT_BTree _ _ _ _ _ => true
  | VT_Tree _ _ _ _ _ _ _ _ _ _ _ _ _ => false
  | VT_Box _ _ _ _ _ T' | VT_Sized _ _ _ _ _ T' => plain T'
  end.
(** At most one level of [Tree] *)
Fixpoint shallow {B : Build} {fixed K V cmp O} (T : VebType fixed K V cmp O) : bool :=
  match T with
  | VT_ByteSet _ | VT_ByteMap _ _ | VT_BTree _ _ _ _ _ => true
  | VT_Tree _ _ _ _ _ _ _ _ _ _ TS TT _ => plain TS && plain TT
  | VT_Box _ _ _ _ _ T' | VT_Sized _ _ _ _ _ T' => shallow T'
  end.
