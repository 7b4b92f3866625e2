(** The same tree type compiled differently: [recompiled B' T] is the dictionary of the type [T] (of a build with all checks) in the
    build [B'].  Which checks a build has is in Base.v ([debug_assert], [checked_sub], [usize_add]); the uses are
    src/bitset/set.rs 35, 44, 45, 47, src/bitset/map/list.rs 73, 100, src/bitset/map/mod.rs 76, 84, 112, 150, 169, 173, 273,
    src/collection/array.rs 124, 154, 187, src/collection/hash.rs 44-45, src/tree.rs 280, src/lib.rs 196, 291, 304, 316,
    src/iter.rs 99, 119, 186 and the counting of items there. *)
From Verif Require Import Base Ints Ops ByteSet ByteMap Coll Boxed BTree SizedT Tree Types.

Section Rel.
  Context (B' : Build).
  Fixpoint recompiled_coll {B : Build} {Lo V Tr Hi C} (CT : @CollType B Lo V Tr Hi C) (Tr' : VebOps Lo V) : CollOps Hi Lo V Tr' :=
    match CT in CollType _ Hi _ return CollOps Hi Lo V Tr' with
    | CT_Array _ _ ix _ => Array_coll (B := B') ix Tr'
    | CT_Hash _ _ eq _ => Hash_coll (B := B') eq Tr'
    | CT_ByteMap _ => ByteMap_coll (B := B') Tr'
    | CT_Box _ _ _ CT' => Box_coll (recompiled_coll CT' Tr')
    end.
  Fixpoint recompiled {B : Build} {fixed K V cmp O} (T : @VebType B fixed K V cmp O) : VebOps K V :=
    match T in VebType _ K V _ _ return VebOps K V with
    | VT_ByteSet _ => ByteSet_ops (B := B')
    | VT_ByteMap _ V => ByteMap_ops (B := B') V
    | VT_BTree _ _ V cmp _ => BTree_ops V cmp
    | VT_Tree _ _ _ _ _ ko _ _ _ _ TS TT CT =>
        Tree_ops (B := B') fixed ko (recompiled TS) (recompiled TT) (recompiled_coll CT (recompiled TT))
    | VT_Box _ _ _ _ _ T' => Box_ops (recompiled T')
    | VT_Sized _ _ _ _ _ T' => Sized_ops (B := B') (recompiled T')
    end.
End Rel.
