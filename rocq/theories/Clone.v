(** Cloning.  The clone function of every tree type that has one: ByteSet derives Clone (src/bitset/set.rs 5), Tree has an impl
    (src/tree.rs 49-78), Box, BTreeMap and HashMap have those of their crates, modelled by contract: the parts are cloned in place.
    ByteMap, SizedVebTree and ArrayTreeCollection have none.  Clones of keys are taken to be the keys themselves; the clone
    function of the values, [cv], is arbitrary. *)
From Verif Require Import Base Ints Ops ByteSet ByteMap Coll Boxed BTree SizedT Tree Types Hist.

Definition on_value {K V} (cv : V -> V) (p : K * V) : K * V := (fst p, cv (snd p)).

Fixpoint coll_clone {B : Build} {Lo V} {Tr : VebOps Lo V} {Hi C} (CT : CollType Tr Hi C) (ct1 : vt Tr -> vt Tr) : option (ct C -> ct C) :=
  match CT in CollType _ Hi C return option (ct C -> ct C) with
  | CT_Array _ _ _ _ | CT_ByteMap _ => None
  | CT_Hash _ _ _ _ => Some (map (on_value ct1))
  | CT_Box _ _ _ CT' => match coll_clone CT' ct1 with Some c => Some (fun b => mkbox (c (unbox b))) | None => None end
  end.
Fixpoint clone_of {B : Build} {fixed K V cmp O} (T : VebType fixed K V cmp O) : (V -> V) -> option (vt O -> vt O) :=
  match T in VebType _ K V cmp O return (V -> V) -> option (vt O -> vt O) with
  | VT_ByteSet _ => fun _ => Some (fun s => s)
  | VT_ByteMap _ _ => fun _ => None
  | VT_BTree _ _ _ _ _ => fun cv => Some (map (on_value cv))
  | VT_Tree _ _ _ _ _ _ _ Su Tr C TS TT CT => fun cv =>
      match clone_of TS (fun u => u), clone_of TT cv with
      | Some cs, Some ct1 =>
          match coll_clone CT ct1 with
          | Some cc => Some (clone_tree Su Tr C (fun k => k) cv (fun x => (cs (fst x), cc (snd x))))
          | None => None
          end
      | _, _ => None
      end
  | VT_Box _ _ _ _ _ T' => fun cv => match clone_of T' cv with Some c => Some (fun b => mkbox (c (unbox b))) | None => None end
  | VT_Sized _ _ _ _ _ _ => fun _ => None
  end.

(** A history, and its answers, with the values cloned *)
Definition clone_op {K V} (cv : V -> V) (c : op K V) : op K V :=
  match c with
  | Insert k v => Insert k (cv v)
  | MinMut w => MinMut (cv w)
  | MaxMut w => MaxMut (cv w)
  | FindMut k w => FindMut k (cv w)
  | PredMut k w => PredMut k (cv w)
  | SuccMut k w => SuccMut k (cv w)
  | _ => c
  end.
Definition clone_out {K V} (cv : V -> V) (o : out K V) : out K V :=
  match o with
  | OP (Some p) => OP (Some (on_value cv p))
  | _ => o
  end.
