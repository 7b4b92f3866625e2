(** What rebuilding the probed table of Probe.v costs over a whole history: pairs moved to a new table, and the size of the tables.  The
    collection of src/collection/hash.rs puts a tree in (43, 59-72) and takes one out (75-124) through these operations. *)
From Verif Require Import Base Ints Ops ByteMap Coll HashGen Probe.

(** [reserve_rehash] as hashbrown describes it: the size stays if the pairs and the new one take at most half of the room (the rest are
    tombstones), and doubles otherwise *)
Definition std_policy {Seed Hi T : Type} (m : Swiss Seed Hi T) : nat :=
  if 2 * S (sw_items m) <=? room (2 ^ sw_bits m) then sw_bits m else S (sw_bits m).

(** A tree put in, new or instead of another; a tree taken out *)
Inductive hop (Hi T : Type) : Type := HPut (h : Hi) (t : T) | HDel (h : Hi).
Arguments HPut {Hi T}.
Arguments HDel {Hi T}.
(** The table, how many keys were put in that were absent, and how many pairs were moved at rebuildings *)
Record Ledger (Seed Hi T : Type) : Type := LG { lg_table : Swiss Seed Hi T; lg_calls : nat; lg_moved : nat }.
Arguments LG {Seed Hi T}.
Arguments lg_table {Seed Hi T}.
Arguments lg_calls {Seed Hi T}.
Arguments lg_moved {Seed Hi T}.

Section Amort.
  Context {Seed Hi T : Type} (w : nat) (eq : Hi -> Hi -> bool) (hash : Seed -> Hi -> N) (tag : N -> N) (draw : Hi -> T -> Seed) (bits0 : nat)
    (policy : Swiss Seed Hi T -> nat).
  Notation M := (Swiss Seed Hi T).
  Notation L := (Ledger Seed Hi T).
  (** the pairs that [sw_insert] moves: all, if it rebuilds *)
  Definition sw_moves (m : M) (h : Hi) : nat :=
    match sw_free w hash m h with
    | Some i => if (sw_left m =? 0) && is_empty_slot (slot m i) then sw_items m else 0
    | None => 0
    end.
  Definition lg_step (l : L) (o : hop Hi T) : L :=
    let m := lg_table l in
    match o with
    | HPut h t =>
        match sw_lookup w eq hash tag m h with
        | None => LG (sw_insert w hash tag policy m h t) (S (lg_calls l)) (lg_moved l + sw_moves m h)
        | Some (i, _) => LG (sw_put m i t) (lg_calls l) (lg_moved l)
        end
    | HDel h =>
        match sw_lookup w eq hash tag m h with
        | None => l
        | Some (i, _) => LG (fst (sw_replace w m i None)) (lg_calls l) (lg_moved l)
        end
    end.
  (** a history, begun with one pair *)
  Definition lg_run (h : Hi) (t : T) (os : list (hop Hi T)) : L :=
    fold_left lg_step os (LG (h_one (Swiss_hash w eq hash tag draw bits0 policy) h t) 1 0).
End Amort.

(** *** Specification: the keys that are in after a history, and how often an absent one was put in *)
Fixpoint keys_after {Hi T : Type} (eq : Hi -> Hi -> bool) (ks : list Hi) (os : list (hop Hi T)) : list Hi :=
  match os with
  | [] => ks
  | HPut h _ :: os' => keys_after eq (if existsb (eq h) ks then ks else h :: ks) os'
  | HDel h :: os' => keys_after eq (filter (fun k => negb (eq h k)) ks) os'
  end.
Fixpoint absent_puts {Hi T : Type} (eq : Hi -> Hi -> bool) (ks : list Hi) (os : list (hop Hi T)) : nat :=
  match os with
  | [] => 0
  | HPut h _ :: os' => if existsb (eq h) ks then absent_puts eq ks os' else S (absent_puts eq (h :: ks) os')
  | HDel h :: os' => absent_puts eq (filter (fun k => negb (eq h k)) ks) os'
  end.
