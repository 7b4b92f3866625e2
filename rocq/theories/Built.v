(** How a tree has to be built to hold given pairs: which records hold what, and how they agree with each other.
    Specification, read off the state of a tree by recursion over how its type is built.  In [built o T t l], [l] is what [t] holds,
    in any order, and [o] asks for the order of keys as well. *)
From Verif Require Import Base Spec Ops Ints ByteSet BitSpec ByteMap Coll Boxed BTree SizedT Tree Types.

(** The values of a byte map stand in the order of the bytes in its set (src/bitset/map/mod.rs 13-18), and there are some
    (src/bitset/map/list.rs 148: "List invariant - all lists are non-empty") *)
Definition at_bytes {A} (s : ByteSet) (vs : list A) (m : list (u 8 * A)) : Prop :=
  m <> [] /\ ascending u_cmp m /\ (forall k, In k (map fst m) <-> has s (uval k) = true) /\ map snd m = vs.

(** The trees of a collection and the high halves they are filed under.  An array has a slot for every high half and counts the
    occupied ones (src/collection/array.rs 87-91); a hash map has one entry for a key (src/collection/hash.rs 33).  None is ever empty *)
Fixpoint filed {B : Build} {Lo V} {Tr : VebOps Lo V} {Hi C} (CT : CollType Tr Hi C) : ct C -> list (Hi * vt Tr) -> Prop :=
  match CT in CollType _ Hi C return ct C -> list (Hi * vt Tr) -> Prop with
  | CT_Array _ _ ix _ => fun c m =>
      m <> [] /\ NoDup (map fst m) /\ N.of_nat (length (ac_array c)) = i_card ix /\ ac_count c = N.of_nat (length m) /\
      forall n t, nth_error (ac_array c) n = Some (Some t) <-> exists h, In (h, t) m /\ i_index ix h = N.of_nat n
  | CT_Hash _ _ _ _ => fun c m => m <> [] /\ NoDup (map fst m) /\ Permutation m c
  | CT_ByteMap _ => fun c m => exists m', Permutation m m' /\ at_bytes (bm_set c) (bm_list c) m'
  | CT_Box _ _ _ CT' => fun c m => filed CT' (unbox c) m
  end.

(** A byte set or map and a [BTreeMap] are never empty.  A [Tree] (src/tree.rs 29-47) holds its minimum and, unless that is all, its maximum
    and what its children hold.  The summary lists the high halves there are children for, each once, and a child the low halves under its own,
    [m] being the children with what they hold.  In order, the minimum is least and the maximum greatest.  A [SizedVebTree] counts (lib.rs 169-172) *)
Fixpoint built {B : Build} (o : bool) {fixed K V cmp O} (T : VebType fixed K V cmp O) : vt O -> list (K * V) -> Prop :=
  match T in VebType _ K V cmp O return vt O -> list (K * V) -> Prop with
  | VT_ByteSet _ => fun s l => exists l', Permutation l l' /\ at_bytes s (map (fun _ => tt) l) l'
  | VT_ByteMap _ _ => fun t l => exists l', Permutation l l' /\ at_bytes (bm_set t) (bm_list t) l'
  | VT_BTree _ _ _ cmp _ => fun t l => Permutation l t /\ t <> [] /\ ascending cmp t
  | VT_Tree _ _ _ _ _ ko _ _ _ _ TS TT CT => fun t l =>
      match t_data t with
      | None => l = [t_min t]
      | Some d => exists rest,
          Permutation l (t_min t :: d_max d :: rest) /\
          match d_children d with
          | None => rest = []
          | Some (s, c) => exists ls m,
              built o TS s ls /\ filed CT c (map (fun x => (fst x, fst (snd x))) m) /\ Permutation (map fst ls) (map fst m) /\
              (forall h t' l', In (h, (t', l')) m -> built o TT t' l' /\
                 forall lo v, In (lo, v) l' -> k_split_val ko (k_join ko h lo) = (h, lo)) /\
              rest = flat_map (fun x => map (fun p => (k_join ko (fst x) (fst p), snd p)) (snd (snd x))) m
          end /\
          (o = true -> k_cmp ko (fst (t_min t)) (fst (d_max d)) = Lt /\
             forall q, In q rest -> k_cmp ko (fst (t_min t)) (fst q) = Lt /\ k_cmp ko (fst q) (fst (d_max d)) = Lt)
      end
  | VT_Box _ _ _ _ _ T' => fun t l => built o T' (unbox t) l
  | VT_Sized _ _ _ _ _ T' => fun t l => built o T' (sz_tree t) l /\ sz_size t = N.of_nat (length l)
  end.
