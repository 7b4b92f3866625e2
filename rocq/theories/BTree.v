(** Model of [impl VebTree for BTreeMap] (src/lib.rs 433-580).
    [alloc::collections::BTreeMap] is external and represented by its contract: an association list in
    strictly ascending key order with the functions below. *)
From Verif Require Import Base Ops ByteMap.

Section BTreeMap.
  Context {K V : Type} (cmp : K -> K -> comparison).
  Let M := list (K * V).

  (** [BTreeMap::get_key_value], [get_mut] *)
  Fixpoint map_get (m : M) (k : K) : option (K * V) :=
    match m with
    | [] => None
    | (k', v) :: m' =>
        match cmp k k' with
        | Lt => None
        | Eq => Some (k', v)
        | Gt => map_get m' k
        end
    end.
  (** [BTreeMap::insert]: an equal key keeps the stored key *)
  Fixpoint map_insert (m : M) (k : K) (v : V) : M :=
    match m with
    | [] => [(k, v)]
    | (k', v') :: m' =>
        match cmp k k' with
        | Lt => (k, v) :: (k', v') :: m'
        | Eq => (k', v) :: m'
        | Gt => (k', v') :: map_insert m' k v
        end
    end.
  (** [BTreeMap::remove_entry] (what is left of the map) *)
  Fixpoint map_del (m : M) (k : K) : M :=
    match m with
    | [] => []
    | (k', v') :: m' =>
        match cmp k k' with
        | Lt => (k', v') :: m'
        | Eq => m'
        | Gt => (k', v') :: map_del m' k
        end
    end.
  (** [range(..k).next_back()] *)
  Fixpoint map_range_to_back (m : M) (k : K) : option (K * V) :=
    match m with
    | [] => None
    | (k', v') :: m' =>
        match cmp k' k with
        | Lt =>
            match map_range_to_back m' k with
            | Some p => Some p
            | None => Some (k', v')
            end
        | _ => None
        end
    end.
  (** [range((Excluded(k), Unbounded)).next()] *)
  Fixpoint map_range_from (m : M) (k : K) : option (K * V) :=
    match m with
    | [] => None
    | (k', v') :: m' =>
        match cmp k k' with
        | Lt => Some (k', v')
        | _ => map_range_from m' k
        end
    end.
  (** [range_mut(k..=k).next()] *)
  Fixpoint map_range_incl (m : M) (k : K) : option (K * V) :=
    match m with
    | [] => None
    | (k', v') :: m' =>
        match cmp k' k with
        | Lt => map_range_incl m' k
        | Eq => Some (k', v')
        | Gt => None
        end
    end.
  (** The write through a [&mut V] to the entry of key [k] *)
  Fixpoint map_put (m : M) (k : K) (v : V) : M :=
    match m with
    | [] => []
    | (k', v') :: m' =>
        match cmp k k' with
        | Eq => (k', v) :: m'
        | _ => (k', v') :: map_put m' k v
        end
    end.
  (** [iter().next_back()] *)
  Fixpoint map_last (m : M) : option (K * V) :=
    match m with
    | [] => None
    | p :: m' => match map_last m' with Some q => Some q | None => Some p end
    end.
  (** What [pop_last] leaves *)
  Fixpoint map_init (m : M) : M :=
    match m with
    | [] => []
    | [_] => []
    | p :: m' => p :: map_init m'
    end.

  Definition with_put (m : M) (p : K * V) : K * V * (V -> M) := (p, fun v => map_put m (fst p) v).
  Definition opt_put (m : M) (o : option (K * V)) : option (K * V * (V -> M)) :=
    match o with Some p => Some (with_put m p) | None => None end.

  Definition bt_from_monad (k : K) (v : V) : M := map_insert [] k v.   (* lib.rs 437-441 *)
  Definition bt_is_monad (m : M) : res bool :=                         (* lib.rs 442-444 *)
    Ret (N.of_nat (length m) =? 1)%N.
  Definition bt_len_hint (m : M) : res (N * option N) :=               (* lib.rs 445-447 *)
    Ret (N.of_nat (length m), Some (N.of_nat (length m))).
  Definition bt_into_monad (m : M) : res (result (K * V) M) :=         (* lib.rs 448-458 *)
    b <- bt_is_monad m ;;
    if b then p <- expect (hd_error m) ;; Ret (Ok p) else Ret (Err m).
  Definition bt_min_val (m : M) : res (K * V) := expect (hd_error m).  (* lib.rs 459-463 *)
  Definition bt_min_val_mut (m : M) : res (K * V * (V -> M)) :=        (* lib.rs 464-468 *)
    p <- expect (hd_error m) ;; Ret (with_put m p).
  Definition bt_max_val (m : M) : res (K * V) := expect (map_last m).  (* lib.rs 469-473 *)
  Definition bt_max_val_mut (m : M) : res (K * V * (V -> M)) :=        (* lib.rs 474-481 *)
    p <- expect (map_last m) ;; Ret (with_put m p).
  Definition bt_find (m : M) (k : K) : res (option (K * V)) := Ret (map_get m k).   (* lib.rs 482-488 *)
  Definition bt_find_mut (m : M) (k : K) : res (option (K * V * (V -> M))) :=       (* lib.rs 489-498 *)
    Ret (opt_put m (map_range_incl m k)).
  Definition bt_predecessor (m : M) (k : K) : res (option (K * V)) :=  (* lib.rs 499-507 *)
    Ret (map_range_to_back m k).
  Definition bt_predecessor_mut (m : M) (k : K) : res (option (K * V * (V -> M))) :=  (* lib.rs 511-522 *)
    Ret (opt_put m (map_range_to_back m k)).
  Definition bt_successor (m : M) (k : K) : res (option (K * V)) :=    (* lib.rs 523-531 *)
    Ret (map_range_from m k).
  Definition bt_successor_mut (m : M) (k : K) : res (option (K * V * (V -> M))) :=  (* lib.rs 532-540 *)
    Ret (opt_put m (map_range_from m k)).
  Definition bt_insert (m : M) (k : K) (v : V) : res (M * option (K * V)) :=        (* lib.rs 541-550 *)
    Ret (match map_get m k with
         | None => (map_insert m k v, None)
         | Some (k', old) => (map_put m k' v, Some (k, old))
         end).
  Definition bt_remove (m : M) (k : K) : res (result (option M * (K * V)) M) :=     (* lib.rs 551-564 *)
    b <- bt_is_monad m ;;
    Ret (match b, map_get m k with
         | _, None => Err m
         | true, Some p => Ok (None, p)
         | false, Some p => Ok (Some (map_del m k), p)
         end).
  Definition bt_remove_min (m : M) : res (option M * (K * V)) :=       (* lib.rs 565-571 *)
    p <- expect (hd_error m) ;;
    let m' := tl m in
    Ret (if is_nil m' then None else Some m', p).
  Definition bt_remove_max (m : M) : res (option M * (K * V)) :=       (* lib.rs 573-579 *)
    p <- expect (map_last m) ;;
    let m' := map_init m in
    Ret (if is_nil m' then None else Some m', p).

  Definition BTree_ops : VebOps K V :=
    {| vt := M;
       v_from_monad := bt_from_monad;
       v_is_monad := bt_is_monad;
       v_len_hint := bt_len_hint;
       v_into_monad := bt_into_monad;
       v_min_val := bt_min_val;
       v_min_val_mut := bt_min_val_mut;
       v_max_val := bt_max_val;
       v_max_val_mut := bt_max_val_mut;
       v_find := bt_find;
       v_find_mut := bt_find_mut;
       v_predecessor := bt_predecessor;
       v_predecessor_mut := bt_predecessor_mut;
       v_successor := bt_successor;
       v_successor_mut := bt_successor_mut;
       v_insert := bt_insert;
       v_remove := bt_remove;
       v_remove_min := bt_remove_min;
       v_remove_max := bt_remove_max |}.
End BTreeMap.
Arguments BTree_ops {K} V cmp.
