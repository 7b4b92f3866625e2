(** What the ring buffer behind [VecDeque] writes.  The lists of a [ByteMap] put a value in at a place (src/bitset/map/list.rs 52-54, 144-146) and take
    one out (55-106, 147-151) through [d_insert], [d_entry] and [d_remove] of DequeGen.v.  Simplified: the library drops a list whose last value is taken out
    (72-77, 98-104, 150), the histories here may go on with the empty ring. *)
From Verif Require Import Base Ints Ops ByteMap Coll DequeGen.

(** A value put in at a place, one taken out (src/bitset/map/list.rs 144-151) *)
Inductive rop (A : Type) : Type := RIns (i : N) (v : A) | RDel (i : N).
Arguments RIns {A}.
Arguments RDel {A}.
(** (src/bitset/map/list.rs 144-151) The ring, and how many values were copied to a new buffer so far; a call that panics changes nothing *)
Record Copies (A : Type) : Type := CP { cp_ring : Ring A; cp_count : nat }.
Arguments CP {A}.
Arguments cp_ring {A}.
Arguments cp_count {A}.
Definition cp_step {A} (c : Copies A) (o : rop A) : Copies A :=
  let r := cp_ring c in
  match o with
  | RIns i v =>
      match d_insert (std_ring A) r i v with
      | Ret r' => CP r' (cp_count c + if rg_len r =? length (rg_buf r) then rg_len r else 0)
      | Panic => c
      end
  | RDel i => CP (fst (d_remove (std_ring A) r i)) (cp_count c)
  end.
(** a history, begun with one value (src/bitset/map/list.rs 132-134) *)
Definition cp_run {A} (v : A) (os : list (rop A)) : Copies A := fold_left cp_step os (CP (d_one (std_ring A) v) 0).

(** *** Specification: outside of these slots two buffers are alike *)
Definition only_in {A} (ss : list nat) (b b' : list (option A)) : Prop :=
  length b' = length b /\ forall s, ~ In s ss -> nth_error b' s = nth_error b s.
(** the ring writes no more slots than half of its values and one, or is full and its buffer is replaced by one of twice the slots *)
Definition writes {A} (r r' : Ring A) : Prop :=
  (exists ss, 2 * length ss <= rg_len r + 2 /\ only_in ss (rg_buf r) (rg_buf r')) \/
  (rg_len r = length (rg_buf r) /\ length (rg_buf r') = Nat.max 4 (2 * length (rg_buf r))).
(** how many slots differ *)
Fixpoint differ (b b' : list (option N)) : nat :=
  match b, b' with
  | x :: b, y :: b' => (match x, y with None, None => 0 | Some m, Some n => if (m =? n)%N then 0 else 1 | _, _ => 1 end) + differ b b'
  | _, _ => 0
  end.
(** the contents: a list, and what the calls do to it *)
Definition list_step {A} (l : list A) (o : rop A) : list A :=
  match o with
  | RIns i v => if (N.to_nat i <=? length l) then firstn (N.to_nat i) l ++ v :: skipn (N.to_nat i) l else l
  | RDel i => firstn (N.to_nat i) l ++ skipn (S (N.to_nat i)) l
  end.
