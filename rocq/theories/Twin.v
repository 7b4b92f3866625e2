(** When two trees of one type are built alike: the same records, the same keys and values in the same places.
    Specification, by recursion over how the type is built.  The only freedom is where a hash map keeps its entries
    (hash.rs 33-121), which the library never looks at. *)
From Verif Require Import Base Ints Ops ByteSet ByteMap Coll Boxed BTree SizedT Tree Types.

Definition twin_opt {A} (R : A -> A -> Prop) (o o' : option A) : Prop :=
  match o, o' with
  | Some a, Some a' => R a a'
  | None, None => True
  | _, _ => False
  end.

(** Collections: slot by slot (array.rs 87-91), key by key in any order (hash.rs 33), the byte set and the list
    (src/bitset/map/mod.rs 13-18), behind the box (collection/mod.rs 108) *)
Fixpoint twin_coll {B : Build} {Lo V} {Tr : VebOps Lo V} {Hi C} (CT : CollType Tr Hi C) (R : vt Tr -> vt Tr -> Prop) :
  ct C -> ct C -> Prop :=
  match CT in CollType _ Hi C return ct C -> ct C -> Prop with
  | CT_Array _ _ _ _ => fun c c' => ac_count c = ac_count c' /\ Forall2 (twin_opt R) (ac_array c) (ac_array c')
  | CT_Hash _ _ _ _ => fun m m' => exists m1, Permutation m' m1 /\
      Forall2 (fun x y => fst x = fst y /\ R (snd x) (snd y)) m m1
  | CT_ByteMap _ => fun m m' => bm_set m = bm_set m' /\ Forall2 R (bm_list m) (bm_list m')
  | CT_Box _ _ _ CT' => fun b b' => twin_coll CT' R (unbox b) (unbox b')
  end.

(** Trees: leaves are equal; a [Tree] record by record (src/tree.rs 29-47); the tree and its size (lib.rs 169-172) *)
Fixpoint twin {B : Build} {fixed K V cmp O} (T : VebType fixed K V cmp O) : vt O -> vt O -> Prop :=
  match T in VebType _ K V cmp O return vt O -> vt O -> Prop with
  | VT_ByteSet _ => eq
  | VT_ByteMap _ _ => eq
  | VT_BTree _ _ _ _ _ => eq
  | VT_Tree _ _ _ _ _ _ _ _ _ _ TS TT CT => fun t t' =>
      t_min t = t_min t' /\
      twin_opt (fun d d' =>
        d_max d = d_max d' /\
        twin_opt (fun x x' => twin TS (fst x) (fst x') /\ twin_coll CT (twin TT) (snd x) (snd x'))
          (d_children d) (d_children d')) (t_data t) (t_data t')
  | VT_Box _ _ _ _ _ T' => fun b b' => twin T' (unbox b) (unbox b')
  | VT_Sized _ _ _ _ _ T' => fun t t' => twin T' (sz_tree t) (sz_tree t') /\ sz_size t = sz_size t'
  end.

(** No hash map inside *)
Fixpoint coll_no_hash {B : Build} {Lo V} {Tr : VebOps Lo V} {Hi C} (CT : CollType Tr Hi C) : bool :=
  match CT with
  | CT_Hash _ _ _ _ => false
  | CT_Box _ _ _ CT' => coll_no_hash CT'
  | _ => true
  end.
Fixpoint no_hash {B : Build} {fixed K V cmp O} (T : VebType fixed K V cmp O) : bool :=
  match T with
  | VT_Tree _ _ _ _ _ _ _ _ _ _ TS TT CT => no_hash TS && no_hash TT && coll_no_hash CT
  | VT_Box _ _ _ _ _ T' | VT_Sized _ _ _ _ _ T' => no_hash T'
  | _ => true
  end.
