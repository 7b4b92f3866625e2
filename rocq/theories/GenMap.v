(** [ByteMap<L>] over a list written by a user of the library: [List] and [TreeList] are public traits
    (src/bitset/map/list.rs 16-30, 113-124).  The traits as records, [ByteMap] over them, and what such a list must do. *)
From Verif Require Import Base Ints Ops ByteSet ByteMap.

(** [trait List] (src/bitset/map/list.rs 113-124).  [is_empty] has a default body and is not used. *)
Record ListOps (V : Type) : Type := mkList {
  lty : Type;
  l_from_monad : V -> lty;                          (* list.rs 115 *)
  l_len : lty -> res N;                             (* list.rs 116 *)
  l_get : lty -> N -> res V;                        (* list.rs 120 *)
  l_get_mut : lty -> N -> res (V * (V -> lty));      (* list.rs 121 *)
  l_insert_value : lty -> N -> V -> res lty;         (* list.rs 122 *)
  l_remove_value : lty -> N -> res (option lty * V)  (* list.rs 123 *)
}.
Arguments lty {V}.
Arguments l_from_monad {V}.
Arguments l_len {V}.
Arguments l_get {V}.
Arguments l_get_mut {V}.
Arguments l_insert_value {V}.
Arguments l_remove_value {V}.

(** [trait TreeList] (src/bitset/map/list.rs 16-30).  [len] is not used by the library. *)
Record TreeListOps {Lo V : Type} (Tr : VebOps Lo V) : Type := mkTreeList {
  tlty : Type;
  tl_from : vt Tr -> tlty;                                   (* list.rs 18 *)
  tl_get : tlty -> N -> res (vt Tr);                         (* list.rs 21 *)
  tl_get_mut : tlty -> N -> res (vt Tr * (vt Tr -> tlty));    (* list.rs 22 *)
  tl_insert_tree : tlty -> N -> vt Tr -> res tlty;            (* list.rs 23 *)
  tl_remove : tlty -> N -> (vt Tr -> res (option (vt Tr) * (Lo * V))) ->
    res (option (tlty * bool) * (Lo * V));                   (* list.rs 24-26 *)
  tl_maybe_remove : tlty -> N -> (vt Tr -> res (result (option (vt Tr) * (Lo * V)) (vt Tr))) ->
    res (result (option (tlty * bool) * (Lo * V)) tlty)       (* list.rs 27-29 *)
}.
Arguments tlty {Lo V Tr}.
Arguments tl_from {Lo V Tr}.
Arguments tl_get {Lo V Tr}.
Arguments tl_get_mut {Lo V Tr}.
Arguments tl_insert_tree {Lo V Tr}.
Arguments tl_remove {Lo V Tr}.
Arguments tl_maybe_remove {Lo V Tr}.

(** *** [impl<L: list::List> VebTree for ByteMap<L>] (src/bitset/map/mod.rs 131-300) *)
Section Map.
  Context {B : Build} {V : Type} (L : ListOps V).
  Notation M := (ByteMap (lty L)).

  Definition gm_put (m : M) (put : V -> lty L) : V -> M := fun v => BM (bm_set m) (put v).
  Definition gm_from_monad (k : u 8) (v : V) : M := BM (bs_from_monad k tt) (l_from_monad L v).   (* mod.rs 135-140 *)
  Definition gm_is_monad (m : M) : res bool :=                        (* mod.rs 142-144 *)
    n <- l_len L (bm_list m) ;; Ret (n =? 1)%N.
  Definition gm_into_monad (m : M) : res (result (u 8 * V) M) :=      (* mod.rs 146-158 *)
    r <- bs_into_monad (bm_set m) ;;
    match r with
    | Ok (k, tt) =>
        ' (rest, v) <- l_remove_value L (bm_list m) 0 ;;
        _ <- debug_assert (is_none rest) ;;
        Ret (Ok (k, v))
    | Err set => Ret (Err (BM set (bm_list m)))
    end.
  Definition gm_min_val (m : M) : res (u 8 * V) :=                    (* mod.rs 160-162 *)
    ' (k, _) <- bs_min_val (bm_set m) ;;
    v <- l_get L (bm_list m) 0 ;;
    Ret (k, v).
  Definition gm_min_val_mut (m : M) : res (u 8 * V * (V -> M)) :=     (* mod.rs 164-166 *)
    ' (k, _) <- bs_min_val (bm_set m) ;;
    ' (v, put) <- l_get_mut L (bm_list m) 0 ;;
    Ret (k, v, gm_put m put).
  Definition gm_max_val (m : M) : res (u 8 * V) :=                    (* mod.rs 168-170 *)
    ' (k, _) <- bs_max_val (bm_set m) ;;
    len <- l_len L (bm_list m) ;;
    n <- checked_sub len 1 ;;
    v <- l_get L (bm_list m) n ;;
    Ret (k, v).
  Definition gm_max_val_mut (m : M) : res (u 8 * V * (V -> M)) :=     (* mod.rs 172-174 *)
    ' (k, _) <- bs_max_val (bm_set m) ;;
    len <- l_len L (bm_list m) ;;
    n <- checked_sub len 1 ;;
    ' (v, put) <- l_get_mut L (bm_list m) n ;;
    Ret (k, v, gm_put m put).
  (** The tail common to find, predecessor and successor *)
  Definition gm_at (m : M) (o : option (u 8 * unit)) : res (option (u 8 * V)) :=
    match o with
    | None => Ret None
    | Some (k, _) =>
        v <- l_get L (bm_list m) (count_below (bm_set m) k) ;;
        Ret (Some (k, v))
    end.
  Definition gm_at_mut (m : M) (o : option (u 8 * unit)) : res (option (u 8 * V * (V -> M))) :=
    match o with
    | None => Ret None
    | Some (k, _) =>
        ' (v, put) <- l_get_mut L (bm_list m) (count_below (bm_set m) k) ;;
        Ret (Some (k, v, gm_put m put))
    end.
  Definition gm_find (m : M) (k : u 8) : res (option (u 8 * V)) :=    (* mod.rs 176-184 *)
    o <- bs_find (bm_set m) k ;; gm_at m o.
  Definition gm_find_mut (m : M) (k : u 8) : res (option (u 8 * V * (V -> M))) :=  (* mod.rs 186-194 *)
    o <- bs_find (bm_set m) k ;; gm_at_mut m o.
  Definition gm_predecessor (m : M) (k : u 8) : res (option (u 8 * V)) :=   (* mod.rs 196-204 *)
    o <- bs_predecessor (bm_set m) k ;; gm_at m o.
  Definition gm_predecessor_mut (m : M) (k : u 8) : res (option (u 8 * V * (V -> M))) :=  (* mod.rs 206-217 *)
    o <- bs_predecessor (bm_set m) k ;; gm_at_mut m o.
  Definition gm_successor (m : M) (k : u 8) : res (option (u 8 * V)) :=     (* mod.rs 219-227 *)
    o <- bs_successor (bm_set m) k ;; gm_at m o.
  Definition gm_successor_mut (m : M) (k : u 8) : res (option (u 8 * V * (V -> M))) :=  (* mod.rs 229-237 *)
    o <- bs_successor (bm_set m) k ;; gm_at_mut m o.
  Definition gm_insert (m : M) (k : u 8) (v : V) : res (M * option (u 8 * V)) :=  (* mod.rs 239-252 *)
    ' (set, r) <- bs_insert (bm_set m) k tt ;;
    match r with
    | Some (k', _) =>
        let i := count_below set k' in
        ' (old, put) <- l_get_mut L (bm_list m) i ;;
        Ret (BM set (put v), Some (k', old))
    | None =>
        let i := count_below set k in
        l <- l_insert_value L (bm_list m) i v ;;
        Ret (BM set l, None)
    end.
  Definition gm_remove (m : M) (k : u 8) : res (result (option M * (u 8 * V)) M) :=  (* mod.rs 254-277 *)
    let i := count_below (bm_set m) k in
    r <- bs_remove (bm_set m) k ;;
    match r with
    | Err set => Ret (Err (BM set (bm_list m)))
    | Ok (Some set, (k', _)) =>
        ' (ol, v) <- l_remove_value L (bm_list m) i ;;
        l <- expect ol ;;
        Ret (Ok (Some (BM set l), (k', v)))
    | Ok (None, (k', _)) =>
        ' (ol, v) <- l_remove_value L (bm_list m) i ;;
        _ <- debug_assert (is_none ol) ;;
        Ret (Ok (None, (k', v)))
    end.
  (** The final match of remove_min and remove_max (mod.rs 283-287, 294-298) *)
  Definition gm_rebuild (oset : option ByteSet) (ol : option (lty L)) (k : u 8) (v : V) : res (option M * (u 8 * V)) :=
    match oset, ol with
    | Some set, Some l => Ret (Some (BM set l), (k, v))
    | None, None => Ret (None, (k, v))
    | _, _ => Panic
    end.
  Definition gm_remove_min (m : M) : res (option M * (u 8 * V)) :=    (* mod.rs 279-288 *)
    ' (k0, _) <- bs_min_val (bm_set m) ;;
    let i := count_below (bm_set m) k0 in
    ' (oset, (k, _)) <- bs_remove_min (bm_set m) ;;
    ' (ol, v) <- l_remove_value L (bm_list m) i ;;
    gm_rebuild oset ol k v.
  Definition gm_remove_max (m : M) : res (option M * (u 8 * V)) :=    (* mod.rs 290-299 *)
    ' (k0, _) <- bs_max_val (bm_set m) ;;
    let i := count_below (bm_set m) k0 in
    ' (oset, (k, _)) <- bs_remove_max (bm_set m) ;;
    ' (ol, v) <- l_remove_value L (bm_list m) i ;;
    gm_rebuild oset ol k v.

  Definition ByteMapOf_ops : VebOps (u 8) V :=
    {| vt := M;
       v_from_monad := gm_from_monad;
       v_is_monad := gm_is_monad;
       v_len_hint := default_len_hint gm_is_monad;
       v_into_monad := gm_into_monad;
       v_min_val := gm_min_val;
       v_min_val_mut := gm_min_val_mut;
       v_max_val := gm_max_val;
       v_max_val_mut := gm_max_val_mut;
       v_find := gm_find;
       v_find_mut := gm_find_mut;
       v_predecessor := gm_predecessor;
       v_predecessor_mut := gm_predecessor_mut;
       v_successor := gm_successor;
       v_successor_mut := gm_successor_mut;
       v_insert := gm_insert;
       v_remove := gm_remove;
       v_remove_min := gm_remove_min;
       v_remove_max := gm_remove_max |}.
End Map.

(** *** [impl<L: list::TreeList> TreeCollection for ByteMap<L>] (src/bitset/map/mod.rs 36-119) *)
Section Coll.
  Context {B : Build} {Lo V : Type} {Tr : VebOps Lo V} (L : TreeListOps Tr).
  Notation T := (vt Tr).
  Notation M := (ByteMap (tlty L)).

  Definition gc_put (m : M) (put : T -> tlty L) : T -> M := fun t => BM (bm_set m) (put t).
  Definition gc_create (h : u 8) (t : T) : res M :=                   (* mod.rs 40-45 *)
    Ret (BM (bs_from_monad h tt) (tl_from L t)).
  Definition gc_get (m : M) (h : u 8) : res (option T) :=             (* mod.rs 47-52 *)
    if negb (is_present (bm_set m) h) then Ret None
    else
      t <- tl_get L (bm_list m) (count_below (bm_set m) h) ;;
      Ret (Some t).
  Definition gc_get_mut (m : M) (h : u 8) : res (option (T * (T -> M))) :=  (* mod.rs 53-58 *)
    if negb (is_present (bm_set m) h) then Ret None
    else
      ' (t, put) <- tl_get_mut L (bm_list m) (count_below (bm_set m) h) ;;
      Ret (Some (t, gc_put m put)).
  Definition gc_insert_key (m : M) (h : u 8) (lv : Lo * V) :
    res (M * result (u 8) (u 8 * option (Lo * V))) :=                 (* mod.rs 60-69 *)
    let i := count_below (bm_set m) h in
    ' (set, r) <- bs_insert (bm_set m) h tt ;;
    match r with
    | Some _ =>
        ' (t, put) <- tl_get_mut L (bm_list m) i ;;
        ' (t', o) <- v_insert Tr t (fst lv) (snd lv) ;;
        Ret (BM set (put t'), Err (h, o))
    | None =>
        l <- tl_insert_tree L (bm_list m) i (v_from_monad Tr (fst lv) (snd lv)) ;;
        Ret (BM set l, Ok h)
    end.
  (** The update of the set after a removal from the list (mod.rs 82-87, 110-115) *)
  Definition gc_after (m : M) (k : u 8) (l : tlty L) (removed : bool) : res (M * bool) :=
    if removed then
      _ <- debug_assert (is_present (bm_set m) k) ;;
      Ret (BM (unset_bit (bm_set m) k) l, removed)
    else Ret (BM (bm_set m) l, removed).
  Definition gc_remove_key (m : M) (k : u 8) (f : T -> res (option T * (Lo * V))) :
    res (option (M * bool) * (Lo * V)) :=                             (* mod.rs 70-90 *)
    o <- bs_find (bm_set m) k ;;
    _ <- debug_assert (negb (is_none o)) ;;
    let i := count_below (bm_set m) k in
    ' (r, v) <- tl_remove L (bm_list m) i f ;;
    match r with
    | None => Ret (None, v)
    | Some (l, removed) =>
        mb <- gc_after m k l removed ;;
        Ret (Some mb, v)
    end.
  Definition gc_maybe_remove_key (m : M) (k : u 8)
    (f : T -> res (result (option T * (Lo * V)) T)) :
    res (result (option (M * bool) * (Lo * V)) M) :=                  (* mod.rs 92-118 *)
    o <- bs_find (bm_set m) k ;;
    if is_none o then Ret (Err m)
    else
      let i := count_below (bm_set m) k in
      r <- tl_maybe_remove L (bm_list m) i f ;;
      match r with
      | Err l => Ret (Err (BM (bm_set m) l))
      | Ok (None, v) => Ret (Ok (None, v))
      | Ok (Some (l, removed), v) =>
          mb <- gc_after m k l removed ;;
          Ret (Ok (Some mb, v))
      end.

  Definition ByteMapOf_coll : CollOps (u 8) Lo V Tr :=
    {| ct := M;
       c_create := gc_create;
       c_get := gc_get;
       c_get_mut := gc_get_mut;
       c_insert_key := gc_insert_key;
       c_remove_key := gc_remove_key;
       c_maybe_remove_key := gc_maybe_remove_key |}.
End Coll.

(** *** The impls for [VecDeque] (src/bitset/map/list.rs 130-152, 36-107), with the functions of ByteMap.v *)
Definition VecDeque_list (V : Type) : ListOps V :=
  {| lty := list V;
     l_from_monad := li_from_monad;
     l_len := fun l => Ret (li_len l);
     l_get := vd_get;
     l_get_mut := vd_get_mut;
     l_insert_value := vd_insert;
     l_remove_value := li_remove_value |}.
(** [List::is_empty] (list.rs 117-119) and [TreeList::len] of [VecDeque] (list.rs 42-44); the library calls neither *)
Definition list_is_empty {V : Type} (L : ListOps V) (l : lty L) : res bool := n <- l_len L l ;; Ret (n =? 0)%N.
Definition tree_list_len {A : Type} (l : list A) : res N :=
  if (li_len l =? 0)%N then Panic else Ret (li_len l).  (* expect("VecDeque should never be empty") *)
Definition VecDeque_trees {B : Build} {Lo V : Type} (Tr : VebOps Lo V) : TreeListOps Tr :=
  {| tlty := list (vt Tr);
     tl_from := tl_from_monad;
     tl_get := vd_get;
     tl_get_mut := vd_get_mut;
     tl_insert_tree := vd_insert;
     tl_remove := tl_remove_key;
     tl_maybe_remove := tl_maybe_remove_key |}.

(** *** What a list must do: every one stands for a non-empty sequence; positions count from 0 and are in range *)
Record ListContract {V : Type} (L : ListOps V) : Type := mkLC {
  lc_inv : lty L -> Prop;
  lc_abs : lty L -> list V;
  lc_nonempty : forall l, lc_inv l -> lc_abs l <> [];
  lc_from_monad : forall v, lc_inv (l_from_monad L v) /\ lc_abs (l_from_monad L v) = [v];
  lc_len : forall l, lc_inv l -> l_len L l = Ret (N.of_nat (length (lc_abs l)));
  lc_get : forall l a v b, lc_inv l -> lc_abs l = a ++ v :: b -> l_get L l (N.of_nat (length a)) = Ret v;
  lc_get_mut : forall l a v b, lc_inv l -> lc_abs l = a ++ v :: b ->
    exists put, l_get_mut L l (N.of_nat (length a)) = Ret (v, put) /\ forall w, lc_inv (put w) /\ lc_abs (put w) = a ++ w :: b;
  lc_insert : forall l a b v, lc_inv l -> lc_abs l = a ++ b ->
    exists l', l_insert_value L l (N.of_nat (length a)) v = Ret l' /\ lc_inv l' /\ lc_abs l' = a ++ v :: b;
  (** no list is left exactly when the sequence is empty *)
  lc_remove : forall l a v b, lc_inv l -> lc_abs l = a ++ v :: b ->
    exists ol, l_remove_value L l (N.of_nat (length a)) = Ret (ol, v) /\
      match ol with Some l' => lc_inv l' /\ lc_abs l' = a ++ b | None => a ++ b = [] end
}.
Arguments lc_inv {V L}.
Arguments lc_abs {V L}.
Arguments lc_nonempty {V L}.
Arguments lc_from_monad {V L}.
Arguments lc_len {V L}.
Arguments lc_get {V L}.
Arguments lc_get_mut {V L}.
Arguments lc_insert {V L}.
Arguments lc_remove {V L}.

(** the position holds [t], then the tree [ot] or nothing *)
Definition spot {T} (ot : option T) : list T := match ot with Some t => [t] | None => [] end.
Record TreeListContract {Lo V : Type} {Tr : VebOps Lo V} (L : TreeListOps Tr) : Type := mkTLC {
  tlc_inv : tlty L -> Prop;
  tlc_abs : tlty L -> list (vt Tr);
  tlc_nonempty : forall l, tlc_inv l -> tlc_abs l <> [];
  tlc_from : forall t, tlc_inv (tl_from L t) /\ tlc_abs (tl_from L t) = [t];
  tlc_get : forall l a t b, tlc_inv l -> tlc_abs l = a ++ t :: b -> tl_get L l (N.of_nat (length a)) = Ret t;
  tlc_get_mut : forall l a t b, tlc_inv l -> tlc_abs l = a ++ t :: b ->
    exists put, tl_get_mut L l (N.of_nat (length a)) = Ret (t, put) /\ forall w, tlc_inv (put w) /\ tlc_abs (put w) = a ++ w :: b;
  tlc_insert : forall l a b t, tlc_inv l -> tlc_abs l = a ++ b ->
    exists l', tl_insert_tree L l (N.of_nat (length a)) t = Ret l' /\ tlc_inv l' /\ tlc_abs l' = a ++ t :: b;
  (** the flag says whether the tree is gone; no list is left exactly when the sequence is empty *)
  tlc_remove : forall l a t b f ot p, tlc_inv l -> tlc_abs l = a ++ t :: b -> f t = Ret (ot, p) ->
    exists r, tl_remove L l (N.of_nat (length a)) f = Ret (r, p) /\
      match r with
      | Some (l', gone) => tlc_inv l' /\ tlc_abs l' = a ++ spot ot ++ b /\ gone = is_none ot
      | None => a ++ spot ot ++ b = []
      end;
  tlc_remove_panic : forall l a t b f, tlc_inv l -> tlc_abs l = a ++ t :: b -> f t = Panic ->
    tl_remove L l (N.of_nat (length a)) f = Panic;
  tlc_maybe_ok : forall l a t b f ot p, tlc_inv l -> tlc_abs l = a ++ t :: b -> f t = Ret (Ok (ot, p)) ->
    exists r, tl_maybe_remove L l (N.of_nat (length a)) f = Ret (Ok (r, p)) /\
      match r with
      | Some (l', gone) => tlc_inv l' /\ tlc_abs l' = a ++ spot ot ++ b /\ gone = is_none ot
      | None => a ++ spot ot ++ b = []
      end;
  (** a removal that fails gives back the list with the tree that was given back; the same list, if it is the same tree *)
  tlc_maybe_err : forall l a t b f t', tlc_inv l -> tlc_abs l = a ++ t :: b -> f t = Ret (Err t') ->
    exists l', tl_maybe_remove L l (N.of_nat (length a)) f = Ret (Err l') /\ tlc_inv l' /\ tlc_abs l' = a ++ t' :: b /\ (t' = t -> l' = l);
  tlc_maybe_panic : forall l a t b f, tlc_inv l -> tlc_abs l = a ++ t :: b -> f t = Panic ->
    tl_maybe_remove L l (N.of_nat (length a)) f = Panic
}.
Arguments tlc_inv {Lo V Tr L}.
Arguments tlc_abs {Lo V Tr L}.
Arguments tlc_nonempty {Lo V Tr L}.
Arguments tlc_from {Lo V Tr L}.
Arguments tlc_get {Lo V Tr L}.
Arguments tlc_get_mut {Lo V Tr L}.
Arguments tlc_insert {Lo V Tr L}.
Arguments tlc_remove {Lo V Tr L}.
Arguments tlc_remove_panic {Lo V Tr L}.
Arguments tlc_maybe_ok {Lo V Tr L}.
Arguments tlc_maybe_err {Lo V Tr L}.
Arguments tlc_maybe_panic {Lo V Tr L}.

(** *** A user's list, for the examples: a counted stack, the last item on top *)
Section Stack.
  Context {A : Type}.
  Definition stack : Type := (N * list A)%type.
  (** position [i] from the bottom is [n - 1 - i] from the top *)
  Definition st_split (s : stack) (i : N) : option (list A * A * list A) :=
    let d := N.to_nat (fst s - 1 - i) in
    match nth_error (snd s) d with
    | Some x => if (i <? fst s)%N then Some (firstn d (snd s), x, skipn (S d) (snd s)) else None
    | None => None
    end.
  Definition st_get (s : stack) (i : N) : res A :=
    match st_split s i with Some (_, x, _) => Ret x | None => Panic end.
  Definition st_get_mut (s : stack) (i : N) : res (A * (A -> stack)) :=
    match st_split s i with Some (top, x, bot) => Ret (x, fun w => (fst s, top ++ w :: bot)) | None => Panic end.
  Definition st_insert (s : stack) (i : N) (x : A) : res stack :=
    if (i <=? fst s)%N
    then let d := N.to_nat (fst s - i) in Ret ((fst s + 1)%N, firstn d (snd s) ++ x :: skipn d (snd s))
    else Panic.
  Definition st_left (s : stack) : option stack := if (fst s =? 0)%N then None else Some s.
  Definition st_remove (s : stack) (i : N) : res (option stack * A) :=
    match st_split s i with
    | Some (top, x, bot) => Ret (st_left ((fst s - 1)%N, top ++ bot), x)
    | None => Panic
    end.
  (** what is left when [x] was replaced by [o] *)
  Definition st_store (s : stack) (top bot : list A) (o : option A) : option (stack * bool) :=
    match o with
    | Some x => Some ((fst s, top ++ x :: bot), false)
    | None => match st_left ((fst s - 1)%N, top ++ bot) with Some s' => Some (s', true) | None => None end
    end.
End Stack.
Arguments stack : clear implicits.
Definition Stack_list (V : Type) : ListOps V :=
  {| lty := stack V;
     l_from_monad := fun v => (1%N, [v]);
     l_len := fun s => Ret (fst s);
     l_get := st_get;
     l_get_mut := st_get_mut;
     l_insert_value := st_insert;
     l_remove_value := st_remove |}.
Definition Stack_trees {Lo V : Type} (Tr : VebOps Lo V) : TreeListOps Tr :=
  {| tlty := stack (vt Tr);
     tl_from := fun t => (1%N, [t]);
     tl_get := st_get;
     tl_get_mut := st_get_mut;
     tl_insert_tree := st_insert;
     tl_remove := fun s i f =>
       match st_split s i with
       | Some (top, t, bot) => ' (o, p) <- f t ;; Ret (st_store s top bot o, p)
       | None => Panic
       end;
     tl_maybe_remove := fun s i f =>
       match st_split s i with
       | Some (top, t, bot) =>
           r <- f t ;;
           match r with
           | Ok (o, p) => Ret (Ok (st_store s top bot o, p))
           | Err t' => Ret (Err (fst s, top ++ t' :: bot))
           end
       | None => Panic
       end |}.
