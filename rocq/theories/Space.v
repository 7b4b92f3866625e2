(** How much a tree holds: the records of src/tree.rs 29-47 and the leaves, the keys in them, and the arrays of
    src/collection/array.rs 9-18.  Specification: read off the state of a tree by recursion over how its type is built. *)
From Verif Require Import Base Ints Ops ByteSet ByteMap Coll Boxed BTree SizedT Tree Types.

Definition sum_of {A} (f : A -> N) (l : list A) : N := fold_right (fun a n => f a + n)%N 0%N l.
Definition some_of {A} (o : option A) : list A := match o with Some a => [a] | None => [] end.

(** The trees in a collection: array.rs 9-18, hash.rs 33, src/bitset/map/mod.rs 36, collection/mod.rs 108 *)
Fixpoint trees {B : Build} {Lo V} {Tr : VebOps Lo V} {Hi C} (CT : CollType Tr Hi C) : ct C -> list (vt Tr) :=
  match CT in CollType _ Hi C return ct C -> list (vt Tr) with
  | CT_Array _ _ _ _ => fun c => flat_map some_of (ac_array c)
  | CT_Hash _ _ _ _ => map snd
  | CT_ByteMap _ => bm_list
  | CT_Box _ _ _ CT' => fun b => trees CT' (unbox b)
  end.
(** The slots of its array, empty or not *)
Fixpoint slots_in {B : Build} {Lo V} {Tr : VebOps Lo V} {Hi C} (CT : CollType Tr Hi C) : ct C -> N :=
  match CT in CollType _ Hi C return ct C -> N with
  | CT_Array _ _ _ _ => fun c => N.of_nat (length (ac_array c))
  | CT_Hash _ _ _ _ | CT_ByteMap _ => fun _ => 0%N
  | CT_Box _ _ _ CT' => fun b => slots_in CT' (unbox b)
  end.

(** A tree as a whole: [leaf] for every byte set, byte map and BTreeMap, given the number of its keys; for every [Tree],
    [node] given its number of keys that are not in children, and [arr] for its collection *)
Section Measure.
  Context {B : Build} (leaf : N -> N) (node : N -> N) (arr : N -> N).
  Fixpoint measure {fixed K V cmp O} (T : VebType fixed K V cmp O) : vt O -> N :=
    match T in VebType _ K V cmp O return vt O -> N with
    | VT_ByteSet _ => fun s => leaf (array_len (words s))
    | VT_ByteMap _ _ => fun m => leaf (N.of_nat (length (bm_list m)))
    | VT_BTree _ _ _ _ _ => fun l => leaf (N.of_nat (length l))
    | VT_Tree _ _ _ _ _ _ _ _ _ _ TS TT CT => fun t =>
        match t_data t with
        | None => node 1
        | Some d => node 2 +
            match d_children d with
            | None => 0
            | Some (s, c) => arr (slots_in CT c) + measure TS s + sum_of (measure TT) (trees CT c)
            end
        end
    | VT_Box _ _ _ _ _ T' => fun b => measure T' (unbox b)
    | VT_Sized _ _ _ _ _ T' => fun t => measure T' (sz_tree t)
    end%N.
End Measure.
(** the [Tree]s and leaves, at every level *)
Definition nodes {B : Build} {fixed K V cmp O} (T : VebType fixed K V cmp O) : vt O -> N := measure (fun _ => 1%N) (fun _ => 1%N) (fun _ => 0%N) T.
(** the keys stored in them, those of summaries included *)
Definition keys_held {B : Build} {fixed K V cmp O} (T : VebType fixed K V cmp O) : vt O -> N := measure (fun n => n) (fun n => n) (fun _ => 0%N) T.
(** the collections *)
Definition collections {B : Build} {fixed K V cmp O} (T : VebType fixed K V cmp O) : vt O -> N := measure (fun _ => 0%N) (fun _ => 0%N) (fun _ => 1%N) T.
(** the slots of arrays *)
Definition slots_held {B : Build} {fixed K V cmp O} (T : VebType fixed K V cmp O) : vt O -> N := measure (fun _ => 0%N) (fun _ => 0%N) (fun s => s) T.

(** Types without arrays (array.rs 9-18) anywhere in them *)
Fixpoint no_array {B : Build} {Lo V} {Tr : VebOps Lo V} {Hi C} (X : CollType Tr Hi C) : bool :=
  match X with
  | CT_Array _ _ _ _ => false
  | CT_Hash _ _ _ _ | CT_ByteMap _ => true
  | CT_Box _ _ _ X' => no_array X'
  end.
Fixpoint without_arrays {B : Build} {fixed K V cmp O} (T : VebType fixed K V cmp O) : bool :=
  match T with
  | VT_Tree _ _ _ _ _ _ _ _ _ _ TS TT X => no_array X && (without_arrays TS && without_arrays TT)
  | VT_Box _ _ _ _ _ T' | VT_Sized _ _ _ _ _ T' => without_arrays T'
  | _ => true
  end.
