(** Model of src/bitset/map/mod.rs and src/bitset/map/list.rs *)
From Verif Require Import Base Ints Ops ByteSet.

(** *** The list underneath: [VecDeque] (external, by contract: a list).  Indices are [usize]. *)

(** [&self[i]] *)
Definition vd_get {A} (l : list A) (n : N) : res A := expect (nth_error l (N.to_nat n)).
Fixpoint list_set {A} (l : list A) (n : nat) (a : A) : list A :=
  match l, n with
  | [], _ => []
  | _ :: l', O => a :: l'
  | x :: l', S n' => x :: list_set l' n' a
  end.
(** [&mut self[i]] *)
Definition vd_get_mut {A} (l : list A) (n : N) : res (A * (A -> list A)) :=
  a <- vd_get l n ;; Ret (a, list_set l (N.to_nat n)).
(** [VecDeque::insert]: panics beyond the end *)
Definition vd_insert {A} (l : list A) (n : N) (a : A) : res (list A) :=
  if (n <=? N.of_nat (length l))%N
  then Ret (firstn (N.to_nat n) l ++ a :: skipn (N.to_nat n) l)
  else Panic.
Definition list_del {A} (l : list A) (n : nat) : list A := firstn n l ++ skipn (S n) l.
(** [VecDeque::remove] *)
Definition vd_remove {A} (l : list A) (n : N) : option A * list A :=
  match nth_error l (N.to_nat n) with
  | Some a => (Some a, list_del l (N.to_nat n))
  | None => (None, l)
  end.
(** [vec_entry]'s [OccupiedEntry::replace_entry_with]: replace, or remove and close the gap *)
Definition replace_at {A} (l : list A) (n : nat) (o : option A) : list A :=
  match o with
  | Some a => list_set l n a
  | None => list_del l n
  end.

Definition is_nil {A} (l : list A) : bool := match l with [] => true | _ => false end.
Definition is_none {A} (o : option A) : bool := match o with None => true | _ => false end.

(** *** [impl List for VecDeque] (src/bitset/map/list.rs 130-152) *)
Definition li_from_monad {V} (v : V) : list V := [v].                 (* list.rs 132-134 *)
Definition li_len {V} (l : list V) : N := N.of_nat (length l).        (* list.rs 135-137 *)
Definition li_remove_value {V} (l : list V) (n : N) : res (option (list V) * V) :=  (* list.rs 147-151 *)
  let (o, l') := vd_remove l n in
  v <- expect o ;;
  Ret (if is_nil l' then None else Some l', v).

(** *** [impl TreeList for VecDeque] (src/bitset/map/list.rs 36-107) *)
Definition tl_from_monad {T} (t : T) : list T := [t].                 (* list.rs 39-41 *)
(** list.rs 55-78 *)
Definition tl_remove_key {B : Build} {T P} (l : list T) (n : N) (f : T -> res (option T * P)) :
  res (option (list T * bool) * P) :=
  t <- vd_get l n ;;
  ' (ot, val) <- f t ;;
  let removed := is_none ot in
  let l' := replace_at l (N.to_nat n) ot in
  if is_nil l' then
    _ <- debug_assert removed ;; Ret (None, val)
  else Ret (Some (l', removed), val).
(** list.rs 79-106 *)
Definition tl_maybe_remove_key {B : Build} {T P} (l : list T) (n : N) (f : T -> res (result (option T * P) T)) :
  res (result (option (list T * bool) * P) (list T)) :=
  t <- vd_get l n ;;
  r <- f t ;;
  match r with
  | Err t' => Ret (Err (list_set l (N.to_nat n) t'))
  | Ok (ot, val) =>
      let removed := is_none ot in
      let l' := replace_at l (N.to_nat n) ot in
      if is_nil l' then
        _ <- debug_assert removed ;; Ret (Ok (None, val))
      else Ret (Ok (Some (l', removed), val))
  end.

(** [pub struct ByteMap<L>] (src/bitset/map/mod.rs 30-33) *)
Record ByteMap (L : Type) : Type := BM { bm_set : ByteSet; bm_list : L }.
Arguments BM {L}.
Arguments bm_set {L}.
Arguments bm_list {L}.

(** *** [impl VebTree for ByteMap] (src/bitset/map/mod.rs 131-300) *)
Section Map.
  Context {B : Build} {V : Type}.
  Let M := ByteMap (list V).

  (** The write through [self.list.get_mut(i)] *)
  Definition bm_put (m : M) (put : V -> list V) : V -> M := fun v => BM (bm_set m) (put v).

  Definition bm_from_monad (k : u 8) (v : V) : M :=                   (* mod.rs 135-140 *)
    BM (bs_from_monad k tt) (li_from_monad v).
  Definition bm_is_monad (m : M) : res bool :=                        (* mod.rs 142-144 *)
    Ret (li_len (bm_list m) =? 1)%N.
  Definition bm_into_monad (m : M) : res (result (u 8 * V) M) :=      (* mod.rs 146-158 *)
    r <- bs_into_monad (bm_set m) ;;
    match r with
    | Ok (k, tt) =>
        ' (rest, v) <- li_remove_value (bm_list m) 0 ;;
        _ <- debug_assert (is_none rest) ;;
        Ret (Ok (k, v))
    | Err set => Ret (Err (BM set (bm_list m)))
    end.
  Definition bm_min_val (m : M) : res (u 8 * V) :=                    (* mod.rs 160-162 *)
    ' (k, _) <- bs_min_val (bm_set m) ;;
    v <- vd_get (bm_list m) 0 ;;
    Ret (k, v).
  Definition bm_min_val_mut (m : M) : res (u 8 * V * (V -> M)) :=     (* mod.rs 164-166 *)
    ' (k, _) <- bs_min_val (bm_set m) ;;
    ' (v, put) <- vd_get_mut (bm_list m) 0 ;;
    Ret (k, v, bm_put m put).
  Definition bm_max_val (m : M) : res (u 8 * V) :=                    (* mod.rs 168-170 *)
    ' (k, _) <- bs_max_val (bm_set m) ;;
    n <- checked_sub (li_len (bm_list m)) 1 ;;
    v <- vd_get (bm_list m) n ;;
    Ret (k, v).
  Definition bm_max_val_mut (m : M) : res (u 8 * V * (V -> M)) :=     (* mod.rs 172-174 *)
    ' (k, _) <- bs_max_val (bm_set m) ;;
    n <- checked_sub (li_len (bm_list m)) 1 ;;
    ' (v, put) <- vd_get_mut (bm_list m) n ;;
    Ret (k, v, bm_put m put).
  (** The tail common to find, predecessor and successor: the value at [count_below] of the key found *)
  Definition bm_at (m : M) (o : option (u 8 * unit)) : res (option (u 8 * V)) :=
    match o with
    | None => Ret None
    | Some (k, _) =>
        v <- vd_get (bm_list m) (count_below (bm_set m) k) ;;
        Ret (Some (k, v))
    end.
  Definition bm_at_mut (m : M) (o : option (u 8 * unit)) : res (option (u 8 * V * (V -> M))) :=
    match o with
    | None => Ret None
    | Some (k, _) =>
        ' (v, put) <- vd_get_mut (bm_list m) (count_below (bm_set m) k) ;;
        Ret (Some (k, v, bm_put m put))
    end.
  Definition bm_find (m : M) (k : u 8) : res (option (u 8 * V)) :=    (* mod.rs 176-184 *)
    o <- bs_find (bm_set m) k ;; bm_at m o.
  Definition bm_find_mut (m : M) (k : u 8) : res (option (u 8 * V * (V -> M))) :=  (* mod.rs 186-194 *)
    o <- bs_find (bm_set m) k ;; bm_at_mut m o.
  Definition bm_predecessor (m : M) (k : u 8) : res (option (u 8 * V)) :=   (* mod.rs 196-204 *)
    o <- bs_predecessor (bm_set m) k ;; bm_at m o.
  Definition bm_predecessor_mut (m : M) (k : u 8) : res (option (u 8 * V * (V -> M))) :=  (* mod.rs 206-217 *)
    o <- bs_predecessor (bm_set m) k ;; bm_at_mut m o.
  Definition bm_successor (m : M) (k : u 8) : res (option (u 8 * V)) :=     (* mod.rs 219-227 *)
    o <- bs_successor (bm_set m) k ;; bm_at m o.
  Definition bm_successor_mut (m : M) (k : u 8) : res (option (u 8 * V * (V -> M))) :=  (* mod.rs 229-237 *)
    o <- bs_successor (bm_set m) k ;; bm_at_mut m o.
  Definition bm_insert (m : M) (k : u 8) (v : V) : res (M * option (u 8 * V)) :=  (* mod.rs 239-252 *)
    ' (set, r) <- bs_insert (bm_set m) k tt ;;
    match r with
    | Some (k', _) =>
        let i := count_below set k' in
        ' (old, put) <- vd_get_mut (bm_list m) i ;;
        Ret (BM set (put v), Some (k', old))
    | None =>
        let i := count_below set k in
        l <- vd_insert (bm_list m) i v ;;
        Ret (BM set l, None)
    end.
  Definition bm_remove (m : M) (k : u 8) :
    res (result (option M * (u 8 * V)) M) :=                          (* mod.rs 254-277 *)
    let i := count_below (bm_set m) k in
    r <- bs_remove (bm_set m) k ;;
    match r with
    | Err set => Ret (Err (BM set (bm_list m)))
    | Ok (Some set, (k', _)) =>
        ' (ol, v) <- li_remove_value (bm_list m) i ;;
        l <- expect ol ;;
        Ret (Ok (Some (BM set l), (k', v)))
    | Ok (None, (k', _)) =>
        ' (ol, v) <- li_remove_value (bm_list m) i ;;
        _ <- debug_assert (is_none ol) ;;
        Ret (Ok (None, (k', v)))
    end.
  (** The final match of remove_min and remove_max (mod.rs 283-287, 294-298) *)
  Definition bm_rebuild (oset : option ByteSet) (ol : option (list V)) (k : u 8) (v : V) :
    res (option M * (u 8 * V)) :=
    match oset, ol with
    | Some set, Some l => Ret (Some (BM set l), (k, v))
    | None, None => Ret (None, (k, v))
    | _, _ => Panic
    end.
  Definition bm_remove_min (m : M) : res (option M * (u 8 * V)) :=    (* mod.rs 279-288 *)
    ' (k0, _) <- bs_min_val (bm_set m) ;;
    let i := count_below (bm_set m) k0 in
    ' (oset, (k, _)) <- bs_remove_min (bm_set m) ;;
    ' (ol, v) <- li_remove_value (bm_list m) i ;;
    bm_rebuild oset ol k v.
  Definition bm_remove_max (m : M) : res (option M * (u 8 * V)) :=    (* mod.rs 290-299 *)
    ' (k0, _) <- bs_max_val (bm_set m) ;;
    let i := count_below (bm_set m) k0 in
    ' (oset, (k, _)) <- bs_remove_max (bm_set m) ;;
    ' (ol, v) <- li_remove_value (bm_list m) i ;;
    bm_rebuild oset ol k v.

  Definition ByteMap_ops : VebOps (u 8) V :=
    {| vt := M;
       v_from_monad := bm_from_monad;
       v_is_monad := bm_is_monad;
       v_len_hint := default_len_hint bm_is_monad;
       v_into_monad := bm_into_monad;
       v_min_val := bm_min_val;
       v_min_val_mut := bm_min_val_mut;
       v_max_val := bm_max_val;
       v_max_val_mut := bm_max_val_mut;
       v_find := bm_find;
       v_find_mut := bm_find_mut;
       v_predecessor := bm_predecessor;
       v_predecessor_mut := bm_predecessor_mut;
       v_successor := bm_successor;
       v_successor_mut := bm_successor_mut;
       v_insert := bm_insert;
       v_remove := bm_remove;
       v_remove_min := bm_remove_min;
       v_remove_max := bm_remove_max |}.
End Map.
Arguments ByteMap_ops {B} V.

(** *** [impl TreeCollection for ByteMap] (src/bitset/map/mod.rs 36-119) *)
Section Coll.
  Context {B : Build} {Lo V : Type} (Tr : VebOps Lo V).
  Let T := vt Tr.
  Let M := ByteMap (list T).

  Definition bc_create (h : u 8) (t : T) : res M :=                   (* mod.rs 40-45 *)
    Ret (BM (bs_from_monad h tt) (tl_from_monad t)).
  Definition bc_get (m : M) (h : u 8) : res (option T) :=             (* mod.rs 47-52 *)
    if negb (is_present (bm_set m) h) then Ret None
    else
      t <- vd_get (bm_list m) (count_below (bm_set m) h) ;;
      Ret (Some t).
  Definition bc_get_mut (m : M) (h : u 8) : res (option (T * (T -> M))) :=  (* mod.rs 53-58 *)
    if negb (is_present (bm_set m) h) then Ret None
    else
      ' (t, put) <- vd_get_mut (bm_list m) (count_below (bm_set m) h) ;;
      Ret (Some (t, bm_put m put)).
  Definition bc_insert_key (m : M) (h : u 8) (lv : Lo * V) :
    res (M * result (u 8) (u 8 * option (Lo * V))) :=                 (* mod.rs 60-69 *)
    let i := count_below (bm_set m) h in
    ' (set, r) <- bs_insert (bm_set m) h tt ;;
    match r with
    | Some _ =>
        ' (t, put) <- vd_get_mut (bm_list m) i ;;
        ' (t', o) <- v_insert Tr t (fst lv) (snd lv) ;;
        Ret (BM set (put t'), Err (h, o))
    | None =>
        l <- vd_insert (bm_list m) i (v_from_monad Tr (fst lv) (snd lv)) ;;
        Ret (BM set l, Ok h)
    end.
  (** The update of the set after a removal from the list (mod.rs 82-87, 110-115) *)
  Definition bc_after (m : M) (k : u 8) (l : list T) (removed : bool) : res (M * bool) :=
    if removed then
      _ <- debug_assert (is_present (bm_set m) k) ;;
      Ret (BM (unset_bit (bm_set m) k) l, removed)
    else Ret (BM (bm_set m) l, removed).
  Definition bc_remove_key (m : M) (k : u 8) (f : T -> res (option T * (Lo * V))) :
    res (option (M * bool) * (Lo * V)) :=                             (* mod.rs 70-90 *)
    o <- bs_find (bm_set m) k ;;
    _ <- debug_assert (negb (is_none o)) ;;
    let i := count_below (bm_set m) k in
    ' (r, v) <- tl_remove_key (bm_list m) i f ;;
    match r with
    | None => Ret (None, v)
    | Some (l, removed) =>
        mb <- bc_after m k l removed ;;
        Ret (Some mb, v)
    end.
  Definition bc_maybe_remove_key (m : M) (k : u 8)
    (f : T -> res (result (option T * (Lo * V)) T)) :
    res (result (option (M * bool) * (Lo * V)) M) :=                  (* mod.rs 92-118 *)
    o <- bs_find (bm_set m) k ;;
    if is_none o then Ret (Err m)
    else
      let i := count_below (bm_set m) k in
      r <- tl_maybe_remove_key (bm_list m) i f ;;
      match r with
      | Err l => Ret (Err (BM (bm_set m) l))
      | Ok (None, v) => Ret (Ok (None, v))
      | Ok (Some (l, removed), v) =>
          mb <- bc_after m k l removed ;;
          Ret (Ok (Some mb, v))
      end.

  Definition ByteMap_coll : CollOps (u 8) Lo V Tr :=
    {| ct := M;
       c_create := bc_create;
       c_get := bc_get;
       c_get_mut := bc_get_mut;
       c_insert_key := bc_insert_key;
       c_remove_key := bc_remove_key;
       c_maybe_remove_key := bc_maybe_remove_key |}.
End Coll.
