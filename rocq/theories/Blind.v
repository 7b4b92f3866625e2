(** Values are never looked at: the type of a tree with its values forgotten, and histories that differ in their values only. *)
From Verif Require Import Base Ints Ops Coll Boxed BTree SizedT Tree Types Hist.

(** The core of a type (Core.v: BTreeMaps for leaves, HashMaps for collections, no boxes or counters), with values in [W] *)
Fixpoint core_at {B : Build} {fixed K V cmp O} (T : VebType fixed K V cmp O) (W : Type) : VebOps K W :=
  match T in VebType _ K _ _ _ return VebOps K W with
  | VT_ByteSet _ => BTree_ops W u_cmp
  | VT_ByteMap _ _ => BTree_ops W u_cmp
  | VT_BTree _ _ _ cmp _ => BTree_ops W cmp
  | VT_Tree _ _ _ _ _ ko _ _ _ _ TS TT _ =>
      Tree_ops fixed ko (core_at TS unit) (core_at TT W) (Hash_coll (eqb (hi_cmp ko)) (core_at TT W))
  | VT_Box _ _ _ _ _ T' | VT_Sized _ _ _ _ _ T' => core_at T' W
  end.
(** Two types over the same keys nest [Tree] alike *)
Definition nested_alike {B : Build} {fixed K V W cmp cmp'} {O : VebOps K V} {O' : VebOps K W} (T : VebType fixed K V cmp O) (T' : VebType fixed K W cmp' O') : Prop :=
  forall X, core_at T X = core_at T' X.

(** The same calls, with values related by [R]; the same answers, up to [R] *)
Inductive op_rel {K V W} (R : V -> W -> Prop) : op K V -> op K W -> Prop :=
| or_insert k v w : R v w -> op_rel R (Insert k v) (Insert k w)
| or_remove k : op_rel R (Remove k) (Remove k)
| or_remove_min : op_rel R RemoveMin RemoveMin
| or_remove_max : op_rel R RemoveMax RemoveMax
| or_into_monad : op_rel R IntoMonad IntoMonad
| or_is_monad : op_rel R IsMonad IsMonad
| or_min : op_rel R Min Min
| or_max : op_rel R Max Max
| or_find k : op_rel R (Find k) (Find k)
| or_pred k : op_rel R (Pred k) (Pred k)
| or_succ k : op_rel R (Succ k) (Succ k)
| or_min_mut v w : R v w -> op_rel R (MinMut v) (MinMut w)
| or_max_mut v w : R v w -> op_rel R (MaxMut v) (MaxMut w)
| or_find_mut k v w : R v w -> op_rel R (FindMut k v) (FindMut k w)
| or_pred_mut k v w : R v w -> op_rel R (PredMut k v) (PredMut k w)
| or_succ_mut k v w : R v w -> op_rel R (SuccMut k v) (SuccMut k w).
Inductive out_rel {K V W} (R : V -> W -> Prop) : out K V -> out K W -> Prop :=
| ou_pair k v w : R v w -> out_rel R (OP (Some (k, v))) (OP (Some (k, w)))
| ou_none : out_rel R (OP None) (OP None)
| ou_bool b : out_rel R (OB b) (OB b).

(** Calls and answers with every value replaced *)
Definition op_map {K V W} (f : V -> W) (c : op K V) : op K W :=
  match c with
  | Insert k v => Insert k (f v)
  | Remove k => Remove k
  | RemoveMin => RemoveMin
  | RemoveMax => RemoveMax
  | IntoMonad => IntoMonad
  | IsMonad => IsMonad
  | Min => Min
  | Max => Max
  | Find k => Find k
  | Pred k => Pred k
  | Succ k => Succ k
  | MinMut w => MinMut (f w)
  | MaxMut w => MaxMut (f w)
  | FindMut k w => FindMut k (f w)
  | PredMut k w => PredMut k (f w)
  | SuccMut k w => SuccMut k (f w)
  end.
Definition out_map {K V W} (f : V -> W) (o : out K V) : out K W :=
  match o with
  | OP (Some (k, v)) => OP (Some (k, f v))
  | OP None => OP None
  | OB b => OB b
  end.
(** The values a history hands over *)
Definition given {K V} (c : op K V) : list V :=
  match c with
  | Insert _ v | MinMut v | MaxMut v | FindMut _ v | PredMut _ v | SuccMut _ v => [v]
  | _ => []
  end.
