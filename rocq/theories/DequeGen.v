(** [impl List for VecDeque] and [impl TreeList for VecDeque] (src/bitset/map/list.rs 36-107, 130-152) over any double-ended queue: the
    operations of [VecDeque] as a record, the two implementations over them, what such a queue must do, and a ring buffer.
    ByteMap.v has the same code over a list; here the buffer behind the queue is left open. *)
From Verif Require Import Base Ints Ops ByteSet ByteMap GenMap.

(** The operations of [VecDeque], and of [vec_entry] on it, that list.rs uses.  A reference [&mut A] is the value and what a write through it
    leaves. *)
Record DequeOps (A : Type) : Type := mkDeque {
  dty : Type;
  d_one : A -> dty;                                    (* [VecDeque::from_iter([v])]: list.rs 40, 133 *)
  d_len : dty -> N;                                    (* list.rs 136 *)
  d_is_empty : dty -> bool;                            (* list.rs 72, 99, 150 *)
  d_index : dty -> N -> res A;                         (* [&self[i]]: list.rs 47, 139 *)
  d_index_mut : dty -> N -> res (A * (A -> dty));      (* [&mut self[i]]: list.rs 50, 142 *)
  d_insert : dty -> N -> A -> res dty;                 (* list.rs 53, 145 *)
  d_remove : dty -> N -> dty * option A;               (* list.rs 149 *)
  (** [vec_entry]: the value of an occupied entry and what [replace_entry_with] leaves: list.rs 61-70, 85-96 *)
  d_entry : dty -> N -> option (A * (option A -> dty))
}.
Arguments dty {A}.
Arguments d_one {A}.
Arguments d_len {A}.
Arguments d_is_empty {A}.
Arguments d_index {A}.
Arguments d_index_mut {A}.
Arguments d_insert {A}.
Arguments d_remove {A}.
Arguments d_entry {A}.

Section Over.
  Context {A : Type} (D : DequeOps A).
  (** list.rs 130-152 *)
  Definition do_remove_value (d : dty D) (i : N) : res (option (dty D) * A) :=   (* list.rs 147-151 *)
    let (d', o) := d_remove D d i in
    v <- expect o ;;
    Ret (if d_is_empty D d' then None else Some d', v).
  Definition DequeList : ListOps A :=
    {| lty := dty D;
       l_from_monad := d_one D;                            (* list.rs 132-134 *)
       l_len := fun d => Ret (d_len D d);                  (* list.rs 135-137 *)
       l_get := d_index D;                                 (* list.rs 138-140 *)
       l_get_mut := d_index_mut D;                         (* list.rs 141-143 *)
       l_insert_value := d_insert D;                       (* list.rs 144-146 *)
       l_remove_value := do_remove_value |}.
End Over.
Section OverTrees.
  Context {B : Build} {Lo V : Type} (Tr : VebOps Lo V) (D : DequeOps (vt Tr)).
  Notation T := (vt Tr).
  Notation P := (Lo * V)%type.
  Definition do_remove (d : dty D) (i : N) (f : T -> res (option T * P)) : res (option (dty D * bool) * P) :=   (* list.rs 55-78 *)
    match d_entry D d i with
    | None => Panic                                        (* unreachable! *)
    | Some (tree, replace) =>
        ' (tree', val) <- f tree ;;
        let removed := is_none tree' in
        let d' := replace tree' in
        if d_is_empty D d' then _ <- debug_assert removed ;; Ret (None, val)
        else Ret (Some (d', removed), val)
    end.
  Definition do_maybe_remove (d : dty D) (i : N) (f : T -> res (result (option T * P) T)) :
    res (result (option (dty D * bool) * P) (dty D)) :=    (* list.rs 79-106 *)
    match d_entry D d i with
    | None => Panic
    | Some (tree, replace) =>
        r <- f tree ;;
        let '(tree', removed) :=
          match r with
          | Err t => (Some t, None)
          | Ok (t, val) => (t, Some (val, is_none t))
          end in
        let d' := replace tree' in
        match removed with
        | Some (val, removed) =>
            if d_is_empty D d' then _ <- debug_assert removed ;; Ret (Ok (None, val)) else Ret (Ok (Some (d', removed), val))
        | None => Ret (Err d')
        end
    end.
  Definition DequeTrees : TreeListOps Tr :=
    {| tlty := dty D;
       tl_from := d_one D;                                 (* list.rs 39-41 *)
       tl_get := d_index D;                                (* list.rs 46-48 *)
       tl_get_mut := d_index_mut D;                        (* list.rs 49-51 *)
       tl_insert_tree := d_insert D;                       (* list.rs 52-54 *)
       tl_remove := do_remove;
       tl_maybe_remove := do_maybe_remove |}.
End OverTrees.

(** *** What the queue must do (specification): it is the sequence [dk_abs]; positions are in range, and beyond it anything may happen *)
Record DequeContract {A : Type} (D : DequeOps A) : Type := {
  dk_inv : dty D -> Prop;
  dk_abs : dty D -> list A;
  dk_one : forall v, dk_inv (d_one D v) /\ dk_abs (d_one D v) = [v];
  dk_len : forall d, dk_inv d -> d_len D d = N.of_nat (length (dk_abs d));
  dk_is_empty : forall d, dk_inv d -> d_is_empty D d = true <-> dk_abs d = [];
  dk_index : forall d a v b, dk_inv d -> dk_abs d = a ++ v :: b -> d_index D d (N.of_nat (length a)) = Ret v;
  dk_index_mut : forall d a v b, dk_inv d -> dk_abs d = a ++ v :: b ->
    exists put, d_index_mut D d (N.of_nat (length a)) = Ret (v, put) /\ forall w, dk_inv (put w) /\ dk_abs (put w) = a ++ w :: b;
  dk_insert : forall d a b v, dk_inv d -> dk_abs d = a ++ b ->
    exists d', d_insert D d (N.of_nat (length a)) v = Ret d' /\ dk_inv d' /\ dk_abs d' = a ++ v :: b;
  dk_remove : forall d a v b, dk_inv d -> dk_abs d = a ++ v :: b ->
    exists d', d_remove D d (N.of_nat (length a)) = (d', Some v) /\ dk_inv d' /\ dk_abs d' = a ++ b;
  (** a value put back where it was leaves the queue as it was, its buffer included *)
  dk_entry : forall d a v b, dk_inv d -> dk_abs d = a ++ v :: b ->
    exists put, d_entry D d (N.of_nat (length a)) = Some (v, put) /\ (forall o, dk_inv (put o) /\ dk_abs (put o) = a ++ spot o ++ b) /\ put (Some v) = d
}.
Arguments dk_inv {A D}.
Arguments dk_abs {A D}.

(** *** Two queues: a list, and a ring buffer *)
(** the list of ByteMap.v *)
Definition List_deque (A : Type) : DequeOps A :=
  {| dty := list A;
     d_one := fun v => [v];
     d_len := fun d => N.of_nat (length d);
     d_is_empty := is_nil;
     d_index := vd_get;
     d_index_mut := vd_get_mut;
     d_insert := vd_insert;
     d_remove := fun d i => let (o, d') := vd_remove d i in (d', o);
     d_entry := fun d i => match nth_error d (N.to_nat i) with Some v => Some (v, replace_at d (N.to_nat i)) | None => None end |}.

(** A buffer of slots, some of them empty, the slot of the first value, and how many there are.  The ring of the standard library works the
    same way, with its moves done block by block and its empty slots uninitialised. *)
Record Ring (A : Type) : Type := RB { rg_buf : list (option A); rg_head : nat; rg_len : nat }.
Arguments RB {A}.
Arguments rg_buf {A}.
Arguments rg_head {A}.
Arguments rg_len {A}.
Section RingBuffer.
  Context {A : Type}.
  Notation R := (Ring A).
  Notation buffer := (list (option A)).
  (** the slot of the [i]-th value *)
  Definition rg_wrap (cap i : nat) : nat := if cap <=? i then i - cap else i.
  Definition rg_slot (r : R) (i : nat) : nat := rg_wrap (length (rg_buf r)) (rg_head r + i).
  Definition rg_read (b : buffer) (s : nat) : option A := nth s b None.
  Definition rg_get (r : R) (i : nat) : option A := if i <? rg_len r then rg_read (rg_buf r) (rg_slot r i) else None.
  Definition rg_list (r : R) : list A := flat_map (fun i => spot (rg_get r i)) (seq 0 (rg_len r)).
  Definition rg_set (r : R) (i : nat) (v : A) : R := RB (list_set (rg_buf r) (rg_slot r i) (Some v)) (rg_head r) (rg_len r).
  (** [n] values from the [i]-th on, moved to the next slots, the last first *)
  Fixpoint rg_up (cap head i n : nat) (b : buffer) : buffer :=
    match n with
    | O => b
    | S n' => rg_up cap head i n' (list_set b (rg_wrap cap (head + (i + n' + 1))) (rg_read b (rg_wrap cap (head + (i + n')))))
    end.
  (** [n] values from the one after the [i]-th on, moved to the slots before, the first first *)
  Fixpoint rg_down (cap head i n : nat) (b : buffer) : buffer :=
    match n with
    | O => b
    | S n' => rg_down cap head (i + 1) n' (list_set b (rg_wrap cap (head + i)) (rg_read b (rg_wrap cap (head + (i + 1)))))
    end.
  (** a new buffer: [extra] slots more than values, the values from slot [head] on *)
  Fixpoint rg_fill (cap head i : nat) (l : list A) (b : buffer) : buffer :=
    match l with
    | [] => b
    | v :: l' => rg_fill cap head (S i) l' (list_set b (rg_wrap cap (head + i)) (Some v))
    end.
  Definition rg_of (extra head : nat) (l : list A) : R :=
    let cap := length l + extra in
    let head := head mod cap in
    RB (rg_fill cap head 0 l (repeat None cap)) head (length l).

  (** [plan], [first]: how much larger than needed a new buffer is, and the slot its values start at; [open], [shut]: whether the values behind a
      place make room, or close up, or those before it do *)
  Context (plan : R -> nat * nat) (first : A -> nat * nat) (open shut : R -> nat -> bool).
  Definition rg_room (r : R) : R :=
    if rg_len r <? length (rg_buf r) then r else let (extra, head) := plan r in rg_of (S extra) head (rg_list r).
  Definition rg_insert (r0 : R) (i : nat) (v : A) : R :=
    let r := rg_room r0 in
    let cap := length (rg_buf r) in
    if open r i
    then RB (list_set (rg_up cap (rg_head r) i (rg_len r - i) (rg_buf r)) (rg_slot r i) (Some v)) (rg_head r) (S (rg_len r))
    else
      let head := match rg_head r with O => cap - 1 | S h => h end in
      RB (list_set (rg_down cap head 0 i (rg_buf r)) (rg_wrap cap (head + i)) (Some v)) head (S (rg_len r)).
  Definition rg_del (r : R) (i : nat) : R :=
    let cap := length (rg_buf r) in
    if shut r i
    then RB (rg_down cap (rg_head r) i (rg_len r - i - 1) (rg_buf r)) (rg_head r) (rg_len r - 1)
    else RB (rg_up cap (rg_head r) 0 i (rg_buf r)) (rg_slot r 1) (rg_len r - 1).
  Definition Ring_deque : DequeOps A :=
    {| dty := R;
       d_one := fun v => let (extra, head) := first v in rg_of extra head [v];
       d_len := fun r => N.of_nat (rg_len r);
       d_is_empty := fun r => rg_len r =? 0;
       d_index := fun r i => expect (rg_get r (N.to_nat i));
       d_index_mut := fun r i => v <- expect (rg_get r (N.to_nat i)) ;; Ret (v, rg_set r (N.to_nat i));
       d_insert := fun r i v => if (i <=? N.of_nat (rg_len r))%N then Ret (rg_insert r (N.to_nat i) v) else Panic;
       d_remove := fun r i => match rg_get r (N.to_nat i) with Some v => (rg_del r (N.to_nat i), Some v) | None => (r, None) end;
       d_entry := fun r i =>
         match rg_get r (N.to_nat i) with
         | Some v => Some (v, fun o => match o with Some w => rg_set r (N.to_nat i) w | None => rg_del r (N.to_nat i) end)
         | None => None
         end |}.
End RingBuffer.
(** In the manner of the standard library: a full buffer is doubled, to four slots at least; the values stay where they are if they do not wrap
    around, or if the wrapped ones are the fewer, which then follow the others; else those before the wrap go to the end.  The shorter side moves. *)
Definition std_plan {A} (r : Ring A) : nat * nat :=
  let cap := length (rg_buf r) in
  let cap' := Nat.max 4 (2 * cap) in
  let upper := cap - rg_head r in
  (cap' - cap - 1, if rg_head r =? 0 then 0 else if rg_len r - upper <? upper then rg_head r else cap' - upper).
Definition std_ring : forall A : Type, DequeOps A :=
  fun A => Ring_deque std_plan (fun _ => (0, 0)) (fun r i => rg_len r - i <? i) (fun r i => rg_len r - i - 1 <? i).
(** A list that, out of range, does other things than [VecDeque]: it appends, forgets everything, and takes the first entry *)
Definition Loose_deque (A : Type) : DequeOps A :=
  {| dty := list A;
     d_one := fun v => [v];
     d_len := fun d => N.of_nat (length d);
     d_is_empty := is_nil;
     d_index := fun d i => expect (match nth_error d (N.to_nat i) with Some v => Some v | None => hd_error d end);
     d_index_mut := fun d i =>
       v <- expect (match nth_error d (N.to_nat i) with Some v => Some v | None => hd_error d end) ;; Ret (v, list_set d (N.to_nat i));
     d_insert := fun d i v => Ret (firstn (N.to_nat i) d ++ v :: skipn (N.to_nat i) d);
     d_remove := fun d i => match nth_error d (N.to_nat i) with Some v => (list_del d (N.to_nat i), Some v) | None => ([], hd_error d) end;
     d_entry := fun d i =>
       match nth_error d (N.to_nat i), d with
       | Some v, _ => Some (v, replace_at d (N.to_nat i))
       | None, v :: _ => Some (v, replace_at d 0)
       | None, [] => None
       end |}.

(** *** The library's types with all three containers exchanged *)
From Verif Require Import Boxed Coll SizedT Tree Types HashGen MapGen.
(** A queue for every type of values *)
Definition DequeFamily : Type := forall A : Type, DequeOps A.
Section Exchanged.
  Context (B' : Build) (hf : HashFamily) (mf : MapFamily) (df : DequeFamily).
  Fixpoint exchanged_coll {B : Build} {Lo V Tr Hi C} (CT : @CollType B Lo V Tr Hi C) (Tr' : VebOps Lo V) : CollOps Hi Lo V Tr' :=
    match CT in CollType _ Hi _ return CollOps Hi Lo V Tr' with
    | CT_Array _ _ ix _ => Array_coll (B := B') ix Tr'
    | CT_Hash _ Hi eq _ => HashOf (B := B') (hf Hi (vt Tr') eq)
    | CT_ByteMap _ => ByteMapOf_coll (B := B') (DequeTrees (B := B') Tr' (df (vt Tr')))
    | CT_Box _ _ _ CT' => Box_coll (exchanged_coll CT' Tr')
    end.
  Fixpoint exchanged {B : Build} {fixed K V cmp O} (T : @VebType B fixed K V cmp O) : VebOps K V :=
    match T in VebType _ K V _ _ return VebOps K V with
    | VT_ByteSet _ => ByteSet_ops (B := B')
    | VT_ByteMap _ V => ByteMapOf_ops (B := B') (DequeList (df V))
    | VT_BTree _ K V cmp _ => BTreeOf (mf K V cmp)
    | VT_Tree _ _ _ _ _ ko _ _ _ _ TS TT CT =>
        Tree_ops (B := B') fixed ko (exchanged TS) (exchanged TT) (exchanged_coll CT (exchanged TT))
    | VT_Box _ _ _ _ _ T' => Box_ops (exchanged T')
    | VT_Sized _ _ _ _ _ T' => Sized_ops (B := B') (exchanged T')
    end.
End Exchanged.
