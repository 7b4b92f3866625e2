(** [HashMap<Hi, Tree, S>] as a collection (src/collection/hash.rs 33-124) over any hash map: the operations of the map as a record, the
    collection over them, and what such a map must do.  Coll.v has the same code over an association list; here the hash function
    [S: BuildHasher + Default], a public parameter of [HashMapMarker] (hash.rs 22, 25-33), and the table are left open. *)
From Verif Require Import Base Ints Ops ByteMap Coll.

(** What [raw_entry_mut().from_key(h)] gives (hash.rs 59, 75, 103): a place that is free, which [insert] fills and which gives back the
    stored key (hash.rs 60-62), or one with a tree in it, which can be overwritten through [get_mut] (hash.rs 65) or handed to
    [replace_entry_with], whose closure's answer is stored, or empties the place (hash.rs 81-86, 109-115).  The boolean is
    [matches!(entry, RawEntryMut::Vacant(_))] of its result (hash.rs 87, 116).  The closure is called once, with the tree found:
    external, by contract. *)
Inductive Entry (Hi T M : Type) : Type :=
| Vacant (ins : Hi -> T -> M * Hi)
| Occupied (t : T) (put : T -> M) (replace : option T -> M * bool).
Arguments Vacant {Hi T M}.
Arguments Occupied {Hi T M}.

(** The operations of hashbrown's [HashMap] that hash.rs uses.  None of them panics: external, by contract. *)
Record HashOps (Hi T : Type) : Type := mkHash {
  hty : Type;
  h_one : Hi -> T -> hty;                             (* [from_iter] of one pair: hash.rs 43 *)
  h_len : hty -> N;                                   (* hash.rs 44 *)
  h_contains : hty -> Hi -> bool;                     (* hash.rs 45 *)
  h_get : hty -> Hi -> option T;                      (* hash.rs 51 *)
  h_get_mut : hty -> Hi -> option (T * (T -> hty));   (* hash.rs 54 *)
  h_entry : hty -> Hi -> Entry Hi T hty;              (* hash.rs 59, 75, 103 *)
  h_is_empty : hty -> bool                            (* hash.rs 91, 117 *)
}.
Arguments hty {Hi T}.
Arguments h_one {Hi T}.
Arguments h_len {Hi T}.
Arguments h_contains {Hi T}.
Arguments h_get {Hi T}.
Arguments h_get_mut {Hi T}.
Arguments h_entry {Hi T}.
Arguments h_is_empty {Hi T}.

(** *** [impl TreeCollection for HashMap<Hi, V, S>] (src/collection/hash.rs 33-124) *)
Section HashOf.
  Context {B : Build} {Hi Lo V : Type} {Tr : VebOps Lo V} (H : HashOps Hi (vt Tr)).
  Notation T := (vt Tr).
  Notation M := (hty H).
  Definition ho_create (h : Hi) (t : T) : res M :=                    (* hash.rs 42-48 *)
    let v := h_one H h t in
    _ <- debug_assert (h_len H v =? 1)%N ;;
    _ <- debug_assert (h_contains H v h) ;;
    Ret v.
  Definition ho_insert_key (m : M) (h : Hi) (lv : Lo * V) :
    res (M * result Hi (Hi * option (Lo * V))) :=                     (* hash.rs 57-67 *)
    match h_entry H m h with
    | Vacant ins => let (m', h') := ins h (v_from_monad Tr (fst lv) (snd lv)) in Ret (m', Ok h')
    | Occupied t put _ => ' (t', v) <- v_insert Tr t (fst lv) (snd lv) ;; Ret (put t', Err (h, v))
    end.
  Definition ho_remove_key (m : M) (h : Hi) (f : T -> res (option T * (Lo * V))) :
    res (option (M * bool) * (Lo * V)) :=                             (* hash.rs 69-95 *)
    match h_entry H m h with
    | Vacant _ => Panic
    | Occupied t _ replace =>
        ' (ot, val) <- f t ;;
        let (m', removed) := replace ot in
        Ret (if h_is_empty H m' then (None, val) else (Some (m', removed), val))
    end.
  Definition ho_maybe_remove_key (m : M) (h : Hi) (f : T -> res (result (option T * (Lo * V)) T)) :
    res (result (option (M * bool) * (Lo * V)) M) :=                  (* hash.rs 97-123 *)
    match h_entry H m h with
    | Vacant _ => Ret (Err m)
    | Occupied t _ replace =>
        r <- f t ;;
        let '(ot, oval) :=
          match r with
          | Err t' => (Some t', None)
          | Ok (ot, val) => (ot, Some val)
          end in
        let (m', removed) := replace ot in
        match oval, h_is_empty H m' with
        | Some val, true => Ret (Ok (None, val))
        | Some val, false => Ret (Ok (Some (m', removed), val))
        | None, false => Ret (Err m')
        | None, true => Panic
        end
    end.
  Definition HashOf : CollOps Hi Lo V Tr :=
    {| ct := M;
       c_create := ho_create;
       c_get := fun m h => Ret (h_get H m h);             (* hash.rs 50-52 *)
       c_get_mut := fun m h => Ret (h_get_mut H m h);     (* hash.rs 53-55 *)
       c_insert_key := ho_insert_key;
       c_remove_key := ho_remove_key;
       c_maybe_remove_key := ho_maybe_remove_key |}.
End HashOf.

(** *** What the map must do (specification): it holds pairs [hk_abs], in no particular order and each key once *)
Record HashContract {Hi T : Type} (H : HashOps Hi T) : Type := {
  hk_inv : hty H -> Prop;
  hk_abs : hty H -> list (Hi * T);
  hk_nodup : forall m, hk_inv m -> NoDup (map fst (hk_abs m));
  hk_one : forall h t, hk_inv (h_one H h t) /\ hk_abs (h_one H h t) = [(h, t)];
  hk_len : forall m, hk_inv m -> h_len H m = N.of_nat (length (hk_abs m));
  hk_contains : forall m h, hk_inv m -> h_contains H m h = true <-> In h (map fst (hk_abs m));
  hk_is_empty : forall m, hk_inv m -> h_is_empty H m = true <-> hk_abs m = [];
  hk_get : forall m h t, hk_inv m -> h_get H m h = Some t <-> In (h, t) (hk_abs m);
  hk_get_mut : forall m h, hk_inv m ->
    match h_get_mut H m h with
    | None => ~ In h (map fst (hk_abs m))
    | Some (t, put) => exists rest, Permutation (hk_abs m) ((h, t) :: rest) /\
        forall t', hk_inv (put t') /\ Permutation (hk_abs (put t')) ((h, t') :: rest)
    end;
  hk_entry : forall m h, hk_inv m ->
    match h_entry H m h with
    | Vacant ins => ~ In h (map fst (hk_abs m)) /\
        forall t, snd (ins h t) = h /\ hk_inv (fst (ins h t)) /\ Permutation (hk_abs (fst (ins h t))) ((h, t) :: hk_abs m)
    | Occupied t put replace => exists rest, Permutation (hk_abs m) ((h, t) :: rest) /\
        (forall t', hk_inv (put t') /\ Permutation (hk_abs (put t')) ((h, t') :: rest)) /\
        fst (replace (Some t)) = m /\
        (forall ot, hk_inv (fst (replace ot)) /\
           match ot with
           | Some t' => snd (replace ot) = false /\ Permutation (hk_abs (fst (replace ot))) ((h, t') :: rest)
           | None => snd (replace ot) = true /\ Permutation (hk_abs (fst (replace ot))) rest
           end)
    end
}.
Arguments hk_inv {Hi T H}.
Arguments hk_abs {Hi T H}.

(** *** Two maps: the association list of Coll.v, and a table of rows *)
Definition Assoc_hash {Hi : Type} (T : Type) (eq : Hi -> Hi -> bool) : HashOps Hi T :=
  {| hty := list (Hi * T);
     h_one := fun h t => [(h, t)];
     h_len := fun m => N.of_nat (length m);
     h_contains := fun m h => negb (is_none (hm_get eq m h));
     h_get := hm_get eq;
     h_get_mut := fun m h => match hm_get eq m h with None => None | Some t => Some (t, hm_set eq m h) end;
     h_entry := fun m h =>
       match hm_get eq m h with
       | None => Vacant (fun h t => ((h, t) :: m, h))
       | Some t => Occupied t (hm_set eq m h) (fun ot => (hm_replace eq m h ot, is_none ot))
       end;
     h_is_empty := is_nil |}.

(** A table: [seed] is what [S::default()] drew when the map was made (hash.rs 43), [hash seed h] the hash of a key, whose remainder by
    the number of rows is the row the key is kept in.  [draw] and [rows0] say with which seed and how many rows a map begins, [grow] when an
    insertion moves all pairs to a table of another size (and with which seed it goes on): all are free.  hashbrown's own layout (one array
    probed from the hash on, with a byte of the hash per slot) is not modelled here: see Probe.v. *)
Record Table (Seed Hi T : Type) : Type := TB { tb_seed : Seed; tb_rows : list (list (Hi * T)) }.
Arguments TB {Seed Hi T}.
Arguments tb_seed {Seed Hi T}.
Arguments tb_rows {Seed Hi T}.
Section Table.
  Context {Seed Hi T : Type} (eq : Hi -> Hi -> bool) (hash : Seed -> Hi -> N) (draw : Hi -> T -> Seed) (rows0 : nat)
    (grow : Table Seed Hi T -> option (Seed * nat)).
  Notation TB' := (Table Seed Hi T).
  Definition tb_slot (s : Seed) (n : nat) (h : Hi) : nat := N.to_nat (hash s h mod N.of_nat n).
  Definition tb_row (m : TB') (h : Hi) : list (Hi * T) := nth (tb_slot (tb_seed m) (length (tb_rows m)) h) (tb_rows m) [].
  Definition tb_put_row (m : TB') (h : Hi) (r : list (Hi * T)) : TB' :=
    TB (tb_seed m) (list_set (tb_rows m) (tb_slot (tb_seed m) (length (tb_rows m)) h) r).
  Definition tb_push (m : TB') (p : Hi * T) : TB' := tb_put_row m (fst p) (p :: tb_row m (fst p)).
  Definition tb_empty (s : Seed) (n : nat) : TB' := TB s (repeat [] (S n)).
  Definition tb_rehash (m : TB') (s : Seed) (n : nat) : TB' := fold_left tb_push (concat (tb_rows m)) (tb_empty s n).
  Definition tb_insert (m : TB') (h : Hi) (t : T) : TB' :=
    tb_push (match grow m with None => m | Some (s, n) => tb_rehash m s n end) (h, t).
  Definition tb_get (m : TB') (h : Hi) : option T := hm_get eq (tb_row m h) h.
  Definition tb_set (m : TB') (h : Hi) (t : T) : TB' := tb_put_row m h (hm_set eq (tb_row m h) h t).
  Definition tb_replace (m : TB') (h : Hi) (ot : option T) : TB' := tb_put_row m h (hm_replace eq (tb_row m h) h ot).
  Definition Table_hash : HashOps Hi T :=
    {| hty := TB';
       h_one := fun h t => tb_push (tb_empty (draw h t) rows0) (h, t);
       h_len := fun m => N.of_nat (length (concat (tb_rows m)));
       h_contains := fun m h => negb (is_none (tb_get m h));
       h_get := tb_get;
       h_get_mut := fun m h => match tb_get m h with None => None | Some t => Some (t, tb_set m h) end;
       h_entry := fun m h =>
         match tb_get m h with
         | None => Vacant (fun h t => (tb_insert m h t, h))
         | Some t => Occupied t (tb_set m h) (fun ot => (tb_replace m h ot, is_none ot))
         end;
       h_is_empty := fun m => forallb is_nil (tb_rows m) |}.
End Table.

(** *** The library's types with their hash maps exchanged *)
From Verif Require Import Boxed ByteSet BTree SizedT Tree Types.
(** A hash map for every type of keys with [==], and of trees: what [S] and the table make of it *)
Definition HashFamily : Type := forall Hi T : Type, (Hi -> Hi -> bool) -> HashOps Hi T.
Section Rehashed.
  Context (B' : Build) (fam : HashFamily).
  Fixpoint rehashed_coll {B : Build} {Lo V Tr Hi C} (CT : @CollType B Lo V Tr Hi C) (Tr' : VebOps Lo V) : CollOps Hi Lo V Tr' :=
    match CT in CollType _ Hi _ return CollOps Hi Lo V Tr' with
    | CT_Array _ _ ix _ => Array_coll (B := B') ix Tr'
    | CT_Hash _ Hi eq _ => HashOf (B := B') (fam Hi (vt Tr') eq)
    | CT_ByteMap _ => ByteMap_coll (B := B') Tr'
    | CT_Box _ _ _ CT' => Box_coll (rehashed_coll CT' Tr')
    end.
  Fixpoint rehashed {B : Build} {fixed K V cmp O} (T : @VebType B fixed K V cmp O) : VebOps K V :=
    match T in VebType _ K V _ _ return VebOps K V with
    | VT_ByteSet _ => ByteSet_ops (B := B')
    | VT_ByteMap _ V => ByteMap_ops (B := B') V
    | VT_BTree _ _ V cmp _ => BTree_ops V cmp
    | VT_Tree _ _ _ _ _ ko _ _ _ _ TS TT CT =>
        Tree_ops (B := B') fixed ko (rehashed TS) (rehashed TT) (rehashed_coll CT (rehashed TT))
    | VT_Box _ _ _ _ _ T' => Box_ops (rehashed T')
    | VT_Sized _ _ _ _ _ T' => Sized_ops (B := B') (rehashed T')
    end.
End Rehashed.
