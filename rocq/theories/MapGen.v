(** [impl VebTree for BTreeMap] (src/lib.rs 433-580) over any ordered map: the operations of [BTreeMap] as a record, the implementation over
    them, and what such a map must do.  BTree.v has the same code over a sorted list; here the tree behind the map is left open. *)
From Verif Require Import Base Ops Spec.

(** [core::ops::Bound] *)
Inductive Bound (K : Type) : Type := Included (k : K) | Excluded (k : K) | Unbounded.
Arguments Included {K}.
Arguments Excluded {K}.
Arguments Unbounded {K}.

(** The operations of [BTreeMap] that lib.rs uses.  A reference [&mut V] is the value and what a write through it leaves.  None panics on
    the ranges asked for: external, by contract. *)
Record MapOps (K V : Type) : Type := mkMap {
  mty : Type;
  m_new : mty;                                                                (* lib.rs 438 *)
  m_insert : mty -> K -> V -> mty;                                            (* lib.rs 439, 545; the answer is not used *)
  m_len : mty -> N;                                                           (* lib.rs 443, 446 *)
  m_is_empty : mty -> bool;                                                   (* lib.rs 568, 576 *)
  m_into_first : mty -> option (K * V);                                       (* [into_iter().next()]: lib.rs 451-453 *)
  m_first : mty -> option (K * V);                                            (* [iter().next()]: lib.rs 461 *)
  m_last : mty -> option (K * V);                                             (* [iter().next_back()]: lib.rs 471 *)
  m_first_mut : mty -> option (K * V * (V -> mty));                           (* [iter_mut().next()]: lib.rs 466 *)
  m_last_mut : mty -> option (K * V * (V -> mty));                            (* [iter_mut().next_back()]: lib.rs 476-478 *)
  m_get_key_value : mty -> K -> option (K * V);                               (* lib.rs 487 *)
  m_get_mut : mty -> K -> option (V * (V -> mty));                            (* lib.rs 543 *)
  m_range_first : mty -> Bound K -> Bound K -> option (K * V);                (* [range(..).next()]: lib.rs 528-529 *)
  m_range_last : mty -> Bound K -> Bound K -> option (K * V);                 (* [range(..).next_back()]: lib.rs 504-505 *)
  m_range_first_mut : mty -> Bound K -> Bound K -> option (K * V * (V -> mty)); (* [range_mut(..).next()]: lib.rs 495-496, 537-538 *)
  m_range_last_mut : mty -> Bound K -> Bound K -> option (K * V * (V -> mty));  (* [range_mut(..).next_back()]: lib.rs 519-520 *)
  m_remove_entry : mty -> K -> mty * option (K * V);                          (* lib.rs 558 *)
  m_pop_first : mty -> mty * option (K * V);                                  (* lib.rs 567 *)
  m_pop_last : mty -> mty * option (K * V)                                    (* lib.rs 575 *)
}.
Arguments mty {K V}.
Arguments m_new {K V}.
Arguments m_insert {K V}.
Arguments m_len {K V}.
Arguments m_is_empty {K V}.
Arguments m_into_first {K V}.
Arguments m_first {K V}.
Arguments m_last {K V}.
Arguments m_first_mut {K V}.
Arguments m_last_mut {K V}.
Arguments m_get_key_value {K V}.
Arguments m_get_mut {K V}.
Arguments m_range_first {K V}.
Arguments m_range_last {K V}.
Arguments m_range_first_mut {K V}.
Arguments m_range_last_mut {K V}.
Arguments m_remove_entry {K V}.
Arguments m_pop_first {K V}.
Arguments m_pop_last {K V}.

(** *** [impl<K: Ord, V> VebTree for BTreeMap<K, V>] (src/lib.rs 433-580) *)
Section BTreeOf.
  Context {K V : Type} (M : MapOps K V).
  Notation T := (mty M).
  Definition bo_is_monad (m : T) : res bool := Ret (m_len M m =? 1)%N.      (* lib.rs 442-444 *)
  Definition bo_into_monad (m : T) : res (result (K * V) T) :=              (* lib.rs 448-458 *)
    b <- bo_is_monad m ;;
    if b then p <- expect (m_into_first M m) ;; Ret (Ok p) else Ret (Err m).
  Definition bo_insert (m : T) (k : K) (v : V) : res (T * option (K * V)) := (* lib.rs 541-550 *)
    Ret (match m_get_mut M m k with
         | None => (m_insert M m k v, None)
         | Some (old, put) => (put v, Some (k, old))
         end).
  Definition bo_remove (m : T) (k : K) : res (result (option T * (K * V)) T) := (* lib.rs 551-564 *)
    b <- bo_is_monad m ;;
    let (m', o) := m_remove_entry M m k in
    Ret (match b, o with
         | _, None => Err m'
         | true, Some p => Ok (None, p)
         | false, Some p => Ok (Some m', p)
         end).
  (** The tail common to [remove_min] and [remove_max] *)
  Definition bo_popped (r : T * option (K * V)) : res (option T * (K * V)) :=
    let (m', o) := r in
    p <- expect o ;;
    Ret (if m_is_empty M m' then None else Some m', p).
  Definition BTreeOf : VebOps K V :=
    {| vt := T;
       v_from_monad := fun k v => m_insert M (m_new M) k v;                   (* lib.rs 437-441 *)
       v_is_monad := bo_is_monad;
       v_len_hint := fun m => Ret (m_len M m, Some (m_len M m));              (* lib.rs 445-447 *)
       v_into_monad := bo_into_monad;
       v_min_val := fun m => expect (m_first M m);                            (* lib.rs 459-463 *)
       v_min_val_mut := fun m => expect (m_first_mut M m);                    (* lib.rs 464-468 *)
       v_max_val := fun m => expect (m_last M m);                             (* lib.rs 469-473 *)
       v_max_val_mut := fun m => expect (m_last_mut M m);                     (* lib.rs 474-481 *)
       v_find := fun m k => Ret (m_get_key_value M m k);                      (* lib.rs 482-488 *)
       v_find_mut := fun m k => Ret (m_range_first_mut M m (Included k) (Included k));      (* lib.rs 489-498 *)
       v_predecessor := fun m k => Ret (m_range_last M m Unbounded (Excluded k));           (* lib.rs 499-507 *)
       v_predecessor_mut := fun m k => Ret (m_range_last_mut M m Unbounded (Excluded k));   (* lib.rs 511-522 *)
       v_successor := fun m k => Ret (m_range_first M m (Excluded k) Unbounded);            (* lib.rs 523-531 *)
       v_successor_mut := fun m k => Ret (m_range_first_mut M m (Excluded k) Unbounded);    (* lib.rs 532-540 *)
       v_insert := bo_insert;
       v_remove := bo_remove;
       v_remove_min := fun m => bo_popped (m_pop_first M m);                  (* lib.rs 565-571 *)
       v_remove_max := fun m => bo_popped (m_pop_last M m) |}.                (* lib.rs 573-579 *)
End BTreeOf.

(** *** What the map must do (specification): it is the sorted list [mk_abs] *)
Section Contract.
  Context {K V : Type} (cmp : K -> K -> comparison).
  Definition after (lo : Bound K) (k : K) : bool :=
    match lo with Included a => leb cmp a k | Excluded a => ltb cmp a k | Unbounded => true end.
  Definition before (hi : Bound K) (k : K) : bool :=
    match hi with Included b => leb cmp k b | Excluded b => ltb cmp k b | Unbounded => true end.
  Definition within (lo hi : Bound K) (l : list (K * V)) : list (K * V) := filter (fun p => after lo (fst p) && before hi (fst p))%bool l.
  (** ranges for which [range] does not panic: it does if the lower end is above the upper, or both are excluded and the same *)
  Definition proper (lo hi : Bound K) : Prop :=
    match lo, hi with
    | Unbounded, _ | _, Unbounded => True
    | Excluded a, Excluded b => cmp a b = Lt
    | Included a, Included b | Included a, Excluded b | Excluded a, Included b => cmp a b <> Gt
    end.
  Record MapContract (M : MapOps K V) : Type := {
    mk_inv : mty M -> Prop;
    mk_abs : mty M -> list (K * V);
    (** a reference to the value of the pair [p]: a write through it changes that value and nothing else *)
    mk_ref := fun (m : mty M) (k : K) (put : V -> mty M) => forall w, mk_inv (put w) /\ mk_abs (put w) = sp_write cmp k w (mk_abs m);
    mk_refs := fun (m : mty M) (o : option (K * V * (V -> mty M))) (o' : option (K * V)) =>
      match o with
      | Some (p, put) => o' = Some p /\ mk_ref m (fst p) put
      | None => o' = None
      end;
    mk_asc : forall m, mk_inv m -> ascending cmp (mk_abs m);
    mk_new : mk_inv (m_new M) /\ mk_abs (m_new M) = [];
    mk_insert : forall m k v, mk_inv m -> mk_inv (m_insert M m k v) /\ mk_abs (m_insert M m k v) = sp_insert cmp k v (mk_abs m);
    mk_len : forall m, mk_inv m -> m_len M m = N.of_nat (length (mk_abs m));
    mk_is_empty : forall m, mk_inv m -> m_is_empty M m = true <-> mk_abs m = [];
    mk_into_first : forall m, mk_inv m -> m_into_first M m = sp_min (mk_abs m);
    mk_first : forall m, mk_inv m -> m_first M m = sp_min (mk_abs m);
    mk_last : forall m, mk_inv m -> m_last M m = sp_max (mk_abs m);
    mk_first_mut : forall m, mk_inv m -> mk_refs m (m_first_mut M m) (sp_min (mk_abs m));
    mk_last_mut : forall m, mk_inv m -> mk_refs m (m_last_mut M m) (sp_max (mk_abs m));
    mk_get_key_value : forall m k, mk_inv m -> m_get_key_value M m k = sp_find cmp k (mk_abs m);
    mk_get_mut : forall m k, mk_inv m ->
      match m_get_mut M m k with
      | Some (v, put) => sp_find cmp k (mk_abs m) = Some (k, v) /\ mk_ref m k put
      | None => sp_find cmp k (mk_abs m) = None
      end;
    mk_range_first : forall m lo hi, mk_inv m -> proper lo hi -> m_range_first M m lo hi = sp_min (within lo hi (mk_abs m));
    mk_range_last : forall m lo hi, mk_inv m -> proper lo hi -> m_range_last M m lo hi = sp_max (within lo hi (mk_abs m));
    mk_range_first_mut : forall m lo hi, mk_inv m -> proper lo hi -> mk_refs m (m_range_first_mut M m lo hi) (sp_min (within lo hi (mk_abs m)));
    mk_range_last_mut : forall m lo hi, mk_inv m -> proper lo hi -> mk_refs m (m_range_last_mut M m lo hi) (sp_max (within lo hi (mk_abs m)));
    (** a key that is not there leaves the map as it is *)
    mk_remove_entry : forall m k, mk_inv m -> snd (m_remove_entry M m k) = sp_find cmp k (mk_abs m) /\
      mk_inv (fst (m_remove_entry M m k)) /\ mk_abs (fst (m_remove_entry M m k)) = sp_remove cmp k (mk_abs m) /\
      (sp_find cmp k (mk_abs m) = None -> fst (m_remove_entry M m k) = m);
    mk_pop_first : forall m, mk_inv m -> snd (m_pop_first M m) = sp_min (mk_abs m) /\
      mk_inv (fst (m_pop_first M m)) /\ mk_abs (fst (m_pop_first M m)) = tl (mk_abs m);
    mk_pop_last : forall m, mk_inv m -> snd (m_pop_last M m) = sp_max (mk_abs m) /\
      mk_inv (fst (m_pop_last M m)) /\ mk_abs (fst (m_pop_last M m)) = removelast (mk_abs m)
  }.
End Contract.
Arguments mk_inv {K V cmp M}.
Arguments mk_abs {K V cmp M}.
Arguments mk_ref {K V cmp M}.
Arguments mk_refs {K V cmp M}.

(** *** Two maps: a sorted list, and an unbalanced search tree *)
From Verif Require Import BTree ByteMap.
Section SortedList.
  Context {K : Type} (V : Type) (cmp : K -> K -> comparison).
  Definition List_map : MapOps K V :=
    {| mty := list (K * V);
       m_new := [];
       m_insert := map_insert cmp;
       m_len := fun m => N.of_nat (length m);
       m_is_empty := is_nil;
       m_into_first := @hd_error _;
       m_first := @hd_error _;
       m_last := map_last;
       m_first_mut := fun m => opt_put cmp m (hd_error m);
       m_last_mut := fun m => opt_put cmp m (map_last m);
       m_get_key_value := map_get cmp;
       m_get_mut := fun m k => match map_get cmp m k with Some (k', v) => Some (v, map_put cmp m k') | None => None end;
       m_range_first := fun m lo hi => hd_error (within cmp lo hi m);
       m_range_last := fun m lo hi => map_last (within cmp lo hi m);
       m_range_first_mut := fun m lo hi => opt_put cmp m (hd_error (within cmp lo hi m));
       m_range_last_mut := fun m lo hi => opt_put cmp m (map_last (within cmp lo hi m));
       m_remove_entry := fun m k => match map_get cmp m k with Some p => (map_del cmp m k, Some p) | None => (m, None) end;
       m_pop_first := fun m => (tl m, hd_error m);
       m_pop_last := fun m => (map_init m, map_last m) |}.
  (** the same list, but on the ranges for which [BTreeMap::range] panics it answers with the first pair of all: no caller may ask for them *)
  Definition properb (lo hi : Bound K) : bool :=
    match lo, hi with
    | Unbounded, _ | _, Unbounded => true
    | Excluded a, Excluded b => ltb cmp a b
    | Included a, Included b | Included a, Excluded b | Excluded a, Included b => leb cmp a b
    end.
  Definition Picky_map : MapOps K V :=
    {| mty := list (K * V);
       m_new := [];
       m_insert := map_insert cmp;
       m_len := fun m => N.of_nat (length m);
       m_is_empty := is_nil;
       m_into_first := @hd_error _;
       m_first := @hd_error _;
       m_last := map_last;
       m_first_mut := m_first_mut List_map;
       m_last_mut := m_last_mut List_map;
       m_get_key_value := map_get cmp;
       m_get_mut := m_get_mut List_map;
       m_range_first := fun m lo hi => if properb lo hi then m_range_first List_map m lo hi else hd_error m;
       m_range_last := fun m lo hi => if properb lo hi then m_range_last List_map m lo hi else hd_error m;
       m_range_first_mut := fun m lo hi => if properb lo hi then m_range_first_mut List_map m lo hi else m_first_mut List_map m;
       m_range_last_mut := fun m lo hi => if properb lo hi then m_range_last_mut List_map m lo hi else m_first_mut List_map m;
       m_remove_entry := m_remove_entry List_map;
       m_pop_first := m_pop_first List_map;
       m_pop_last := m_pop_last List_map |}.
End SortedList.

(** A search tree without balancing.  A tree with nodes as the standard library's is in Nodes.v. *)
Inductive STree (K V : Type) : Type := Leaf | Node (l : STree K V) (p : K * V) (r : STree K V).
Arguments Leaf {K V}.
Arguments Node {K V}.
Section SearchTree.
  Context {K V : Type} (cmp : K -> K -> comparison).
  Notation T := (STree K V).
  Fixpoint st_list (t : T) : list (K * V) := match t with Leaf => [] | Node l p r => st_list l ++ p :: st_list r end.
  Fixpoint st_size (t : T) : N := match t with Leaf => 0 | Node l _ r => st_size l + 1 + st_size r end.
  Fixpoint st_insert (t : T) (k : K) (v : V) : T :=
    match t with
    | Leaf => Node Leaf (k, v) Leaf
    | Node l p r =>
        match cmp k (fst p) with
        | Lt => Node (st_insert l k v) p r
        | Eq => Node l (fst p, v) r
        | Gt => Node l p (st_insert r k v)
        end
    end.
  Fixpoint st_get (t : T) (k : K) : option (K * V) :=
    match t with
    | Leaf => None
    | Node l p r => match cmp k (fst p) with Lt => st_get l k | Eq => Some p | Gt => st_get r k end
    end.
  (** the write to the value of a key that is there *)
  Fixpoint st_put (t : T) (k : K) (v : V) : T :=
    match t with
    | Leaf => Leaf
    | Node l p r =>
        match cmp k (fst p) with
        | Lt => Node (st_put l k v) p r
        | Eq => Node l (fst p, v) r
        | Gt => Node l p (st_put r k v)
        end
    end.
  Fixpoint st_first (t : T) : option (K * V) :=
    match t with
    | Leaf => None
    | Node l p _ => match st_first l with Some q => Some q | None => Some p end
    end.
  Fixpoint st_last (t : T) : option (K * V) :=
    match t with
    | Leaf => None
    | Node _ p r => match st_last r with Some q => Some q | None => Some p end
    end.
  Fixpoint st_pop_first (t : T) : T :=
    match t with
    | Leaf => Leaf
    | Node l p r => match l with Leaf => r | Node _ _ _ => Node (st_pop_first l) p r end
    end.
  Fixpoint st_pop_last (t : T) : T :=
    match t with
    | Leaf => Leaf
    | Node l p r => match r with Leaf => l | Node _ _ _ => Node l p (st_pop_last r) end
    end.
  (** two trees side by side: the least pair of the right one becomes the root *)
  Definition st_join (l r : T) : T := match st_first r with None => l | Some p => Node l p (st_pop_first r) end.
  Fixpoint st_remove (t : T) (k : K) : T :=
    match t with
    | Leaf => Leaf
    | Node l p r =>
        match cmp k (fst p) with
        | Lt => Node (st_remove l k) p r
        | Eq => st_join l r
        | Gt => Node l p (st_remove r k)
        end
    end.
  (** the first pair after [lo], the last before [hi]: one way down *)
  Fixpoint st_lower (t : T) (lo : Bound K) : option (K * V) :=
    match t with
    | Leaf => None
    | Node l p r =>
        if after cmp lo (fst p) then match st_lower l lo with Some q => Some q | None => Some p end else st_lower r lo
    end.
  Fixpoint st_upper (t : T) (hi : Bound K) : option (K * V) :=
    match t with
    | Leaf => None
    | Node l p r =>
        if before cmp hi (fst p) then match st_upper r hi with Some q => Some q | None => Some p end else st_upper l hi
    end.
  Definition st_range_first (t : T) (lo hi : Bound K) : option (K * V) :=
    match st_lower t lo with Some p => if before cmp hi (fst p) then Some p else None | None => None end.
  Definition st_range_last (t : T) (lo hi : Bound K) : option (K * V) :=
    match st_upper t hi with Some p => if after cmp lo (fst p) then Some p else None | None => None end.
  Definition st_ref (t : T) (o : option (K * V)) : option (K * V * (V -> T)) :=
    match o with Some p => Some (p, st_put t (fst p)) | None => None end.
  Definition Tree_map : MapOps K V :=
    {| mty := T;
       m_new := Leaf;
       m_insert := st_insert;
       m_len := st_size;
       m_is_empty := fun t => match t with Leaf => true | Node _ _ _ => false end;
       m_into_first := st_first;
       m_first := st_first;
       m_last := st_last;
       m_first_mut := fun t => st_ref t (st_first t);
       m_last_mut := fun t => st_ref t (st_last t);
       m_get_key_value := st_get;
       m_get_mut := fun t k => match st_get t k with Some p => Some (snd p, st_put t k) | None => None end;
       m_range_first := st_range_first;
       m_range_last := st_range_last;
       m_range_first_mut := fun t lo hi => st_ref t (st_range_first t lo hi);
       m_range_last_mut := fun t lo hi => st_ref t (st_range_last t lo hi);
       m_remove_entry := fun t k => match st_get t k with Some p => (st_remove t k, Some p) | None => (t, None) end;
       m_pop_first := fun t => (st_pop_first t, st_first t);
       m_pop_last := fun t => (st_pop_last t, st_last t) |}.
End SearchTree.
Arguments Tree_map {K} V cmp.

(** *** The library's types with their ordered and hash maps exchanged *)
From Verif Require Import Ints Boxed ByteSet Coll SizedT Tree Types HashGen.
(** An ordered map for every type of keys with its order, and of values *)
Definition MapFamily : Type := forall K V : Type, (K -> K -> comparison) -> MapOps K V.
Section Rebuilt.
  Context (B' : Build) (hf : HashFamily) (mf : MapFamily).
  Fixpoint rebuilt {B : Build} {fixed K V cmp O} (T : @VebType B fixed K V cmp O) : VebOps K V :=
    match T in VebType _ K V _ _ return VebOps K V with
    | VT_ByteSet _ => ByteSet_ops (B := B')
    | VT_ByteMap _ V => ByteMap_ops (B := B') V
    | VT_BTree _ K V cmp _ => BTreeOf (mf K V cmp)
    | VT_Tree _ _ _ _ _ ko _ _ _ _ TS TT CT =>
        Tree_ops (B := B') fixed ko (rebuilt TS) (rebuilt TT) (rehashed_coll B' hf CT (rebuilt TT))
    | VT_Box _ _ _ _ _ T' => Box_ops (rebuilt T')
    | VT_Sized _ _ _ _ _ T' => Sized_ops (B := B') (rebuilt T')
    end.
End Rebuilt.
