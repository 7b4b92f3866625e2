(** Model of src/collection: array.rs, hash.rs and the Box impl of mod.rs *)
From Verif Require Import Base Ints Ops ByteMap.

(** *** ArrayTreeCollection (src/collection/array.rs) *)

(** [trait OptionArray] (array.rs 40-45) and its two impls, [Box<[Option<V>]>] (array.rs 47-60) and
    [GenericArray<Option<V>, _>] (array.rs 72-85), both a list of [Cardinality] slots (external containers, by
    contract).  An index out of bounds panics. *)
(** [Cardinality::USIZE] (array.rs 51): typenum shifts the bits of the type-level number into a [usize] one by one, so those that do
    not fit are lost.  (An [ArrayLength] that does not fit does not compile.) *)
Definition card_usize {B : Build} (card : N) : N := (card mod 2 ^ usize_bits)%N.
Definition oa_create {B : Build} {T} (card : N) : list (option T) := repeat None (N.to_nat (card_usize card)).
Definition oa_get {T} (a : list (option T)) (n : N) : res (option T) :=
  expect (nth_error a (N.to_nat n)).
(** [*self.get_mut(i) = o] *)
Definition oa_set {T} (a : list (option T)) (n : N) (o : option T) : res (list (option T)) :=
  _ <- oa_get a n ;; Ret (list_set a (N.to_nat n) o).

(** array.rs 87-91 *)
Record ArrayColl (T : Type) : Type := AC { ac_array : list (option T); ac_count : N }.
Arguments AC {T}.
Arguments ac_array {T}.
Arguments ac_count {T}.

(** [impl TreeCollection for ArrayTreeCollection] (array.rs 93-198) *)
Section Array.
  Context {B : Build} {Hi Lo V : Type} (ix : IdxOps Hi) (Tr : VebOps Lo V).
  Let T := vt Tr.
  Let A := ArrayColl T.

  Definition ac_create (h : Hi) (t : T) : res A :=                    (* array.rs 102-110 *)
    a <- oa_set (oa_create (i_card ix)) (i_index ix h) (Some t) ;;
    Ret (AC a 1).
  Definition ac_get (c : A) (h : Hi) : res (option T) :=              (* array.rs 112-114 *)
    oa_get (ac_array c) (i_index ix h).
  Definition ac_get_mut (c : A) (h : Hi) : res (option (T * (T -> A))) :=   (* array.rs 116-118 *)
    o <- oa_get (ac_array c) (i_index ix h) ;;
    match o with
    | None => Ret None
    | Some t =>
        Ret (Some (t, fun t' => AC (list_set (ac_array c) (N.to_nat (i_index ix h)) (Some t'))
                                   (ac_count c)))
    end.
  Definition ac_insert_key (c : A) (h : Hi) (lv : Lo * V) :
    res (A * result Hi (Hi * option (Lo * V))) :=                     (* array.rs 120-132 *)
    o <- oa_get (ac_array c) (i_index ix h) ;;
    match o with
    | None =>
        a <- oa_set (ac_array c) (i_index ix h) (Some (v_from_monad Tr (fst lv) (snd lv))) ;;
        n <- usize_add (ac_count c) 1 ;;
        Ret (AC a n, Ok h)
    | Some t =>
        ' (t', v) <- v_insert Tr t (fst lv) (snd lv) ;;
        a <- oa_set (ac_array c) (i_index ix h) (Some t') ;;
        Ret (AC a (ac_count c), Err (h, v))
    end.
  (** The code common to remove_key and maybe_remove_key after the closure has answered
      (array.rs 152-161, 185-194) *)
  Definition ac_store (a : list (option T)) (n : N) (h : Hi) (ot : option T) :
    res (option (A * bool)) :=
    let removed := is_none ot in
    n' <- (if removed then checked_sub n 1 else Ret n) ;;
    a' <- oa_set a (i_index ix h) ot ;;
    Ret (if (n' =? 0)%N then None else Some (AC a' n', removed)).
  Definition ac_remove_key (c : A) (h : Hi) (f : T -> res (option T * (Lo * V))) :
    res (option (A * bool) * (Lo * V)) :=                             (* array.rs 139-162 *)
    o <- oa_get (ac_array c) (i_index ix h) ;;
    a <- oa_set (ac_array c) (i_index ix h) None ;;
    t <- expect o ;;
    ' (ot, val) <- f t ;;
    r <- ac_store a (ac_count c) h ot ;;
    Ret (r, val).
  Definition ac_maybe_remove_key (c : A) (h : Hi)
    (f : T -> res (result (option T * (Lo * V)) T)) :
    res (result (option (A * bool) * (Lo * V)) A) :=                  (* array.rs 169-197 *)
    o <- oa_get (ac_array c) (i_index ix h) ;;
    a <- oa_set (ac_array c) (i_index ix h) None ;;
    match o with
    | None => Ret (Err (AC a (ac_count c)))
    | Some t =>
        r <- f t ;;
        match r with
        | Err t' =>
            a' <- oa_set a (i_index ix h) (Some t') ;;
            Ret (Err (AC a' (ac_count c)))
        | Ok (ot, val) =>
            r' <- ac_store a (ac_count c) h ot ;;
            Ret (Ok (r', val))
        end
    end.

  Definition Array_coll : CollOps Hi Lo V Tr :=
    {| ct := A;
       c_create := ac_create;
       c_get := ac_get;
       c_get_mut := ac_get_mut;
       c_insert_key := ac_insert_key;
       c_remove_key := ac_remove_key;
       c_maybe_remove_key := ac_maybe_remove_key |}.
End Array.

(** *** hashbrown's HashMap (external, by contract): an association list; keys are compared by [==]
    (hashing consistent with [==] is part of the contract). *)
Section HashMap.
  Context {Hi T : Type} (eq : Hi -> Hi -> bool).
  Fixpoint hm_get (m : list (Hi * T)) (h : Hi) : option T :=
    match m with
    | [] => None
    | (h', t) :: m' => if eq h h' then Some t else hm_get m' h
    end.
  (** the write through an occupied entry *)
  Fixpoint hm_set (m : list (Hi * T)) (h : Hi) (t : T) : list (Hi * T) :=
    match m with
    | [] => []
    | (h', t') :: m' => if eq h h' then (h', t) :: m' else (h', t') :: hm_set m' h t
    end.
  Fixpoint hm_del (m : list (Hi * T)) (h : Hi) : list (Hi * T) :=
    match m with
    | [] => []
    | (h', t') :: m' => if eq h h' then m' else (h', t') :: hm_del m' h
    end.
  (** [OccupiedEntry::replace_entry_with] *)
  Definition hm_replace (m : list (Hi * T)) (h : Hi) (o : option T) : list (Hi * T) :=
    match o with
    | Some t => hm_set m h t
    | None => hm_del m h
    end.
End HashMap.

(** [impl TreeCollection for HashMap] (src/collection/hash.rs 33-124) *)
Section Hash.
  Context {B : Build} {Hi Lo V : Type} (eq : Hi -> Hi -> bool) (Tr : VebOps Lo V).
  Let T := vt Tr.
  Let M := list (Hi * T).

  Definition hc_create (h : Hi) (t : T) : res M :=                    (* hash.rs 42-48 *)
    let v := [(h, t)] in
    _ <- debug_assert (N.of_nat (length v) =? 1)%N ;;
    _ <- debug_assert (negb (is_none (hm_get eq v h))) ;;
    Ret v.
  Definition hc_get (m : M) (h : Hi) : res (option T) := Ret (hm_get eq m h).   (* hash.rs 50-52 *)
  Definition hc_get_mut (m : M) (h : Hi) : res (option (T * (T -> M))) :=   (* hash.rs 53-55 *)
    match hm_get eq m h with
    | None => Ret None
    | Some t => Ret (Some (t, hm_set eq m h))
    end.
  Definition hc_insert_key (m : M) (h : Hi) (lv : Lo * V) :
    res (M * result Hi (Hi * option (Lo * V))) :=                     (* hash.rs 57-67 *)
    match hm_get eq m h with
    | None => Ret ((h, v_from_monad Tr (fst lv) (snd lv)) :: m, Ok h)
    | Some t =>
        ' (t', v) <- v_insert Tr t (fst lv) (snd lv) ;;
        Ret (hm_set eq m h t', Err (h, v))
    end.
  Definition hc_remove_key (m : M) (h : Hi) (f : T -> res (option T * (Lo * V))) :
    res (option (M * bool) * (Lo * V)) :=                             (* hash.rs 69-95 *)
    match hm_get eq m h with
    | None => Panic
    | Some t =>
        ' (ot, val) <- f t ;;
        let m' := hm_replace eq m h ot in
        let removed := is_none ot in
        Ret (if is_nil m' then (None, val) else (Some (m', removed), val))
    end.
  Definition hc_maybe_remove_key (m : M) (h : Hi)
    (f : T -> res (result (option T * (Lo * V)) T)) :
    res (result (option (M * bool) * (Lo * V)) M) :=                  (* hash.rs 97-123 *)
    match hm_get eq m h with
    | None => Ret (Err m)
    | Some t =>
        r <- f t ;;
        let '(ot, oval) :=
          match r with
          | Err t' => (Some t', None)
          | Ok (ot, val) => (ot, Some val)
          end in
        let m' := hm_replace eq m h ot in
        let removed := is_none ot in
        match oval, is_nil m' with
        | Some val, true => Ret (Ok (None, val))
        | Some val, false => Ret (Ok (Some (m', removed), val))
        | None, false => Ret (Err m')
        | None, true => Panic
        end
    end.

  Definition Hash_coll : CollOps Hi Lo V Tr :=
    {| ct := M;
       c_create := hc_create;
       c_get := hc_get;
       c_get_mut := hc_get_mut;
       c_insert_key := hc_insert_key;
       c_remove_key := hc_remove_key;
       c_maybe_remove_key := hc_maybe_remove_key |}.
End Hash.
