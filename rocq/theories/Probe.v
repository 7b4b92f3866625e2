(** A hash map with one array of slots, probed group by group: the layout of hashbrown, the crate behind
    [use hashbrown::{hash_map::RawEntryMut, HashMap}] (src/collection/hash.rs 5).  The crate's text is not part of /repo: what follows is its
    published design (raw table: [probe_seq], [find], [find_insert_slot], [fix_insert_slot], [erase], [reserve_rehash]), not a reading of its code.
    The operations are the ones src/collection/hash.rs uses (33-124), as the record of HashGen.v. *)
From Verif Require Import Base Ints Ops ByteMap Coll HashGen.

(** A slot with its control byte: never filled since the last rebuilding, left by a removed pair, or filled.  The tag is the part of the hash
    that is kept in the control byte. *)
Inductive Slot (Hi T : Type) : Type :=
| SEmpty
| SDeleted
| SFull (tag : N) (h : Hi) (t : T).
Arguments SEmpty {Hi T}.
Arguments SDeleted {Hi T}.
Arguments SFull {Hi T}.
(** The table: [2 ^ sw_bits] slots, the number of pairs, and how many more empty slots may be filled before the table is rebuilt *)
Record Swiss (Seed Hi T : Type) : Type := SW { sw_seed : Seed; sw_bits : nat; sw_slots : list (Slot Hi T); sw_items : nat; sw_left : nat }.
Arguments SW {Seed Hi T}.
Arguments sw_seed {Seed Hi T}.
Arguments sw_bits {Seed Hi T}.
Arguments sw_slots {Seed Hi T}.
Arguments sw_items {Seed Hi T}.
Arguments sw_left {Seed Hi T}.

(** How many slots of [n] may be filled: all but one of at most eight, seven eighths of more *)
Definition room (n : nat) : nat := if n <=? 8 then n - 1 else n / 8 * 7.
Definition is_empty_slot {Hi T} (s : Slot Hi T) : bool := match s with SEmpty => true | _ => false end.
Definition is_full_slot {Hi T} (s : Slot Hi T) : bool := match s with SFull _ _ _ => true | _ => false end.
Definition is_tomb {Hi T} (s : Slot Hi T) : bool := match s with SDeleted => true | _ => false end.
(** The first of [j, j + 1, ...], [k] of them, that [p] holds of *)
Fixpoint first_of (p : nat -> bool) (k j : nat) : option nat :=
  match k with
  | O => None
  | S k => if p j then Some j else first_of p k (S j)
  end.
(** How many of them there are before the first that [p] holds of *)
Fixpoint zeros (p : nat -> bool) (k j : nat) : nat :=
  match k with
  | O => O
  | S k => if p j then O else S (zeros p k (S j))
  end.

Section Swiss.
  (** [2 ^ w] is the width of a group; [hash] the hash function, [tag] the part of a hash kept in a control byte; [draw] and [bits0] say with
      which seed and how many slots ([2 ^ S bits0]) a map begins; [policy] how many slots are wanted at a rebuilding: all are free. *)
  Context {Seed Hi T : Type} (w : nat) (eq : Hi -> Hi -> bool) (hash : Seed -> Hi -> N) (tag : N -> N) (draw : Hi -> T -> Seed) (bits0 : nat)
    (policy : Swiss Seed Hi T -> nat).
  Notation M := (Swiss Seed Hi T).
  Definition width : nat := 2 ^ w.
  Definition buckets (m : M) : nat := 2 ^ sw_bits m.
  (** The slot behind the control byte [p] of the array of [n + width] bytes.  A table with fewer slots than a group has bytes behind which
      there is none, and which read as empty; the last [n] (or [width]) bytes repeat the first. *)
  Definition slot_at (n p : nat) : option nat :=
    if n <? width then if p <? n then Some p else if p <? width then None else Some (p - width) else Some (p mod n).
  Definition slot (m : M) (i : nat) : Slot Hi T := nth i (sw_slots m) SEmpty.
  Definition ctrl (m : M) (p : nat) : Slot Hi T := match slot_at (buckets m) p with None => SEmpty | Some i => slot m i end.
  Definition set_slot (m : M) (i : nat) (s : Slot Hi T) : list (Slot Hi T) := list_set (sw_slots m) i s.
  Definition start (m : M) (h : Hi) : nat := N.to_nat (hash (sw_seed m) h mod N.of_nat (buckets m)).
  Definition tag_of (m : M) (h : Hi) : N := tag (hash (sw_seed m) h).

  (** [find]: in the group at [pos] the first slot with the tag and the key; if there is none and the group has an empty slot, the key is
      absent; otherwise the next group, one group further on than the last time.  The loop has no bound: [None] is a table on which it
      does not end within [fuel] rounds. *)
  Definition hit (m : M) (h : Hi) (pos j : nat) : bool :=
    match ctrl m (pos + j) with
    | SFull g _ _ => (g =? tag_of m h)%N && match slot m ((pos + j) mod buckets m) with SFull _ h' _ => eq h h' | _ => false end
    | _ => false
    end.
  Definition match_empty (m : M) (pos j : nat) : bool := is_empty_slot (ctrl m (pos + j)).
  Definition match_free (m : M) (pos j : nat) : bool := negb (is_full_slot (ctrl m (pos + j))).
  Fixpoint find_from (m : M) (h : Hi) (fuel pos stride : nat) : option (option nat) :=
    match fuel with
    | O => None
    | S fuel =>
        match first_of (hit m h pos) width 0 with
        | Some j => Some (Some ((pos + j) mod buckets m))
        | None =>
            match first_of (match_empty m pos) width 0 with
            | Some _ => Some None
            | None => find_from m h fuel ((pos + (stride + width)) mod buckets m) (stride + width)
            end
        end
    end.
  Definition sw_find (m : M) (h : Hi) : option (option nat) := find_from m h (buckets m) (start m h) 0.
  (** [find_insert_slot]: the first slot that is not filled, of the first group that has one.  In a small table that byte may have no slot
      behind it, and the slot of its index be filled: then the first free one of all. *)
  Fixpoint free_from (m : M) (fuel pos stride : nat) : option nat :=
    match fuel with
    | O => None
    | S fuel =>
        match first_of (match_free m pos) width 0 with
        | Some j => let i := (pos + j) mod buckets m in
                    if is_full_slot (slot m i) then first_of (match_free m 0) width 0 else Some i
        | None => free_from m fuel ((pos + (stride + width)) mod buckets m) (stride + width)
        end
    end.
  Definition sw_free (m : M) (h : Hi) : option nat := free_from m (buckets m) (start m h) 0.

  (** Filling a free slot: it costs one of [sw_left] if it was empty *)
  Definition sw_fill (m : M) (i : nat) (h : Hi) (t : T) : M :=
    SW (sw_seed m) (sw_bits m) (set_slot m i (SFull (tag_of m h) h t)) (S (sw_items m))
      (if is_empty_slot (slot m i) then sw_left m - 1 else sw_left m).
  Definition sw_place (m : M) (p : Hi * T) : M :=
    match sw_free m (fst p) with None => m | Some i => sw_fill m i (fst p) (snd p) end.
  Definition fresh (s : Seed) (b : nat) : M := SW s b (repeat SEmpty (2 ^ b)) 0 (room (2 ^ b)).
  Definition pairs_of (l : list (Slot Hi T)) : list (Hi * T) :=
    flat_map (fun s => match s with SFull _ h t => [(h, t)] | _ => [] end) l.
  (** [reserve_rehash]: all pairs go to a new table of the size that is wanted, or of twice the size if that has no room for them.  (The
      crate rebuilds a table of unchanged size in place.) *)
  Definition sw_rebuild (m : M) : M :=
    let b := policy m in
    fold_left sw_place (pairs_of (sw_slots m)) (fresh (sw_seed m) (if sw_items m <? room (2 ^ b) then b else S (sw_bits m))).
  (** [insert], of a key that is absent: an empty slot is filled only if one is left, a deleted one always *)
  Definition sw_insert (m : M) (h : Hi) (t : T) : M :=
    match sw_free m h with
    | None => m
    | Some i => if (sw_left m =? 0) && is_empty_slot (slot m i) then sw_place (sw_rebuild m) (h, t) else sw_fill m i h t
    end.
  (** [erase]: the slot becomes empty if every group it is in has another empty slot (then no search went past one of them because of it),
      and deleted otherwise.  The first count is of the bytes before the slot, backwards to the first empty one, the second of the slot's
      own and those behind it. *)
  Definition before (m : M) (i : nat) : nat := (i + width * (buckets m - 1)) mod buckets m.
  Definition sw_erase (m : M) (i : nat) : M :=
    let lead := zeros (fun j => match_empty m (before m i) (width - 1 - j)) width 0 in
    let trail := zeros (match_empty m i) width 0 in
    if width <=? lead + trail
    then SW (sw_seed m) (sw_bits m) (set_slot m i SDeleted) (sw_items m - 1) (sw_left m)
    else SW (sw_seed m) (sw_bits m) (set_slot m i SEmpty) (sw_items m - 1) (S (sw_left m)).
  (** writing through a reference to a filled slot *)
  Definition sw_put (m : M) (i : nat) (t : T) : M :=
    match slot m i with
    | SFull g h _ => SW (sw_seed m) (sw_bits m) (set_slot m i (SFull g h t)) (sw_items m) (sw_left m)
    | _ => m
    end.
  (** [replace_bucket_with]: the pair is removed; if the closure gives a tree back, the control byte and [sw_left] are put back *)
  Definition sw_replace (m : M) (i : nat) (ot : option T) : M * bool :=
    let m' := sw_erase m i in
    match ot, slot m i with
    | Some t, SFull g h _ => (SW (sw_seed m') (sw_bits m') (set_slot m' i (SFull g h t)) (S (sw_items m')) (sw_left m), false)
    | _, _ => (m', true)
    end.
  (** where a key is, with its tree *)
  Definition sw_lookup (m : M) (h : Hi) : option (nat * T) :=
    match sw_find m h with
    | Some (Some i) => match slot m i with SFull _ _ t => Some (i, t) | _ => None end
    | _ => None
    end.
  Definition Swiss_hash : HashOps Hi T :=
    {| hty := M;
       h_one := fun h t => sw_insert (fresh (draw h t) (S bits0)) h t;
       h_len := fun m => N.of_nat (sw_items m);
       h_contains := fun m h => negb (is_none (sw_lookup m h));
       h_get := fun m h => match sw_lookup m h with None => None | Some (_, t) => Some t end;
       h_get_mut := fun m h => match sw_lookup m h with None => None | Some (i, t) => Some (t, sw_put m i) end;
       h_entry := fun m h =>
         match sw_lookup m h with
         | None => Vacant (fun h t => (sw_insert m h t, h))
         | Some (i, t) => Occupied t (sw_put m i) (sw_replace m i)
         end;
       h_is_empty := fun m => sw_items m =? 0 |}.

  (** The tables that a program can come to: begun with one pair, then absent keys inserted, trees written and pairs removed *)
  Inductive sw_made : M -> Prop :=
  | SM_one h t : sw_made (h_one Swiss_hash h t)
  | SM_insert m h t : sw_made m -> sw_lookup m h = None -> sw_made (sw_insert m h t)
  | SM_put m h i t t' : sw_made m -> sw_lookup m h = Some (i, t) -> sw_made (sw_put m i t')
  | SM_replace m h i t ot : sw_made m -> sw_lookup m h = Some (i, t) -> sw_made (fst (sw_replace m i ot)).
End Swiss.
