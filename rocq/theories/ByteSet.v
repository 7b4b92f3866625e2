(** Model of src/bitset/set.rs *)
From Verif Require Import Base Ints Ops.

(** [u128::count_ones], [trailing_zeros], [leading_zeros], [checked_shr], [checked_shl] *)
Fixpoint pos_ones (p : positive) : N :=
  match p with
  | xH => 1
  | xO p => pos_ones p
  | xI p => 1 + pos_ones p
  end.
Definition count_ones (n : N) : N := match n with N0 => 0 | Npos p => pos_ones p end.
Fixpoint pos_tz (p : positive) : N :=
  match p with
  | xO p => 1 + pos_tz p
  | _ => 0
  end.
Definition trailing_zeros (n : N) : N := match n with N0 => 128 | Npos p => pos_tz p end.
Definition leading_zeros (n : N) : N := 128 - N.size n.
Definition U128_MAX : N := 2 ^ 128 - 1.
Definition checked_shr (n s : N) : option N := if (s <? 128)%N then Some (N.shiftr n s) else None.
Definition checked_shl (n s : N) : option N :=
  if (s <? 128)%N then Some (uval (wrap 128 (N.shiftl n s))) else None.
Definition unwrap_or_default (o : option N) : N := match o with Some n => n | None => 0 end.

(** [pub struct ByteSet([u128; 2], ())] (src/bitset/set.rs 7) *)
Record ByteSet : Type := BS { w0 : u 128; w1 : u 128 }.

(** set.rs 17-19 *)
Definition array_len (a : N * N) : N := count_ones (fst a) + count_ones (snd a).
Definition words (s : ByteSet) : N * N := (uval (w0 s), uval (w1 s)).
Definition of_words (a : N * N) : ByteSet := BS (wrap 128 (fst a)) (wrap 128 (snd a)).
(** set.rs 21-27 *)
Definition from_array (a : N * N) : option ByteSet :=
  if ((fst a =? 0) && (snd a =? 0))%N then None else Some (of_words a).
(** set.rs 29-31 *)
Definition bs_len (s : ByteSet) : res N :=
  let n := array_len (words s) in
  if (n =? 0)%N then Panic else Ret n.
Section Build.
Context {B : Build}.
(** set.rs 33-40 *)
Definition lowest (s : ByteSet) : res (u 8) :=
  if (uval (w0 s) =? 0)%N then
    _ <- debug_assert (negb (uval (w1 s) =? 0)%N) ;;
    Ret (wrap 8 (128 + trailing_zeros (uval (w1 s))))
  else Ret (wrap 8 (trailing_zeros (uval (w0 s)))).
(** set.rs 42-49 *)
Definition highest (s : ByteSet) : res (u 8) :=
  if (uval (w1 s) =? 0)%N then
    _ <- debug_assert (negb (uval (w0 s) =? 0)%N) ;;
    n <- checked_sub 127 (leading_zeros (uval (w0 s))) ;;
    Ret (wrap 8 n)
  else
    n <- checked_sub 255 (leading_zeros (uval (w1 s))) ;;
    Ret (wrap 8 n).
(** set.rs 58-68 *)
Definition mask_lower (k : u 8) : N * N :=
  (unwrap_or_default (checked_shr U128_MAX (128 - uval k)),
   unwrap_or_default (checked_shr U128_MAX (256 - uval k))).
(** set.rs 75-82 *)
Definition mask_higher (k : u 8) : N * N :=
  (unwrap_or_default (checked_shl U128_MAX (1 + uval k)),
   unwrap_or_default (checked_shl U128_MAX (uval k - 127))).
(** [BitAndAssign<ByteSet> for [u128; 2]] (set.rs 102-108) *)
Definition and_assign (a : N * N) (s : ByteSet) : N * N :=
  (N.land (fst a) (uval (w0 s)), N.land (snd a) (uval (w1 s))).
(** set.rs 51-55 *)
Definition count_below (s : ByteSet) (k : u 8) : N := array_len (and_assign (mask_lower k) s).
(** The word [k / 128] of the array *)
Definition word_at (a : N * N) (k : u 8) : N := if (uval k / 128 =? 0)%N then fst a else snd a.
Definition with_word (a : N * N) (k : u 8) (x : N) : N * N :=
  if (uval k / 128 =? 0)%N then (x, snd a) else (fst a, x).
Definition bit_of (k : u 8) : N := uval (wrap 128 (N.shiftl 1 (uval k mod 128))).
(** set.rs 85-87 *)
Definition is_present (s : ByteSet) (k : u 8) : bool :=
  negb (N.land (word_at (words s) k) (bit_of k) =? 0)%N.
(** set.rs 93-95 *)
Definition array_set_bit (a : N * N) (k : u 8) : N * N :=
  with_word a k (N.lor (word_at a k) (bit_of k)).
(** set.rs 89-91 *)
Definition set_bit (s : ByteSet) (k : u 8) : ByteSet := of_words (array_set_bit (words s) k).
(** set.rs 97-99; [!x] of a [u128] is [N.lnot x 128] *)
Definition unset_bit (s : ByteSet) (k : u 8) : ByteSet :=
  of_words (with_word (words s) k (N.land (word_at (words s) k) (N.lnot (bit_of k) 128))).

(** [impl VebTree for ByteSet] (set.rs 110-245).  The value is the unit: a write through the
    reference to it changes nothing. *)
Definition same {T : Type} (t : T) (_ : unit) : T := t.

Definition bs_from_monad (k : u 8) (_ : unit) : ByteSet :=            (* set.rs 114-118 *)
  of_words (array_set_bit (0, 0)%N k).
Definition bs_is_monad (s : ByteSet) : res bool :=                    (* set.rs 120-122 *)
  n <- bs_len s ;; Ret (n =? 1)%N.
Definition bs_len_hint (s : ByteSet) : res (N * option N) :=          (* set.rs 123-125 *)
  n <- bs_len s ;; Ret (n, Some n).
Definition bs_into_monad (s : ByteSet) : res (result (u 8 * unit) ByteSet) :=   (* set.rs 126-132 *)
  m <- bs_is_monad s ;;
  if m then k <- lowest s ;; Ret (Ok (k, tt)) else Ret (Err s).
Definition bs_min_val (s : ByteSet) : res (u 8 * unit) :=             (* set.rs 133-135 *)
  k <- lowest s ;; Ret (k, tt).
Definition bs_min_val_mut (s : ByteSet) : res (u 8 * unit * (unit -> ByteSet)) :=  (* set.rs 136-138 *)
  k <- lowest s ;; Ret (k, tt, same s).
Definition bs_max_val (s : ByteSet) : res (u 8 * unit) :=             (* set.rs 139-141 *)
  k <- highest s ;; Ret (k, tt).
Definition bs_max_val_mut (s : ByteSet) : res (u 8 * unit * (unit -> ByteSet)) :=  (* set.rs 142-144 *)
  k <- highest s ;; Ret (k, tt, same s).
Definition bs_find (s : ByteSet) (k : u 8) : res (option (u 8 * unit)) :=     (* set.rs 146-156 *)
  Ret (if is_present s k then Some (k, tt) else None).
Definition bs_find_mut (s : ByteSet) (k : u 8) :
  res (option (u 8 * unit * (unit -> ByteSet))) :=                    (* set.rs 157-167 *)
  Ret (if is_present s k then Some (k, tt, same s) else None).
Definition bs_predecessor (s : ByteSet) (k : u 8) : res (option (u 8 * unit)) :=   (* set.rs 169-176 *)
  match from_array (and_assign (mask_lower k) s) with
  | None => Ret None
  | Some v => h <- highest v ;; Ret (Some (h, tt))
  end.
Definition bs_predecessor_mut (s : ByteSet) (k : u 8) :
  res (option (u 8 * unit * (unit -> ByteSet))) :=                    (* set.rs 177-187 *)
  match from_array (and_assign (mask_lower k) s) with
  | None => Ret None
  | Some v => h <- highest v ;; Ret (Some (h, tt, same s))
  end.
Definition bs_successor (s : ByteSet) (k : u 8) : res (option (u 8 * unit)) :=     (* set.rs 188-195 *)
  match from_array (and_assign (mask_higher k) s) with
  | None => Ret None
  | Some v => h <- lowest v ;; Ret (Some (h, tt))
  end.
Definition bs_successor_mut (s : ByteSet) (k : u 8) :
  res (option (u 8 * unit * (unit -> ByteSet))) :=                    (* set.rs 196-203 *)
  match from_array (and_assign (mask_higher k) s) with
  | None => Ret None
  | Some v => h <- lowest v ;; Ret (Some (h, tt, same s))
  end.
Definition bs_insert (s : ByteSet) (k : u 8) (v : unit) :
  res (ByteSet * option (u 8 * unit)) :=                              (* set.rs 204-211 *)
  Ret (if is_present s k then (s, Some (k, v)) else (set_bit s k, None)).
Definition bs_remove (s : ByteSet) (k : u 8) :
  res (result (option ByteSet * (u 8 * unit)) ByteSet) :=             (* set.rs 213-226 *)
  if negb (is_present s k) then Ret (Err s)
  else
    m <- bs_is_monad s ;;
    if m then Ret (Ok (None, (k, tt)))
    else Ret (Ok (Some (unset_bit s k), (k, tt))).
Definition bs_remove_min (s : ByteSet) : res (option ByteSet * (u 8 * unit)) :=    (* set.rs 227-235 *)
  k <- lowest s ;;
  m <- bs_is_monad s ;;
  if m then Ret (None, (k, tt)) else Ret (Some (unset_bit s k), (k, tt)).
Definition bs_remove_max (s : ByteSet) : res (option ByteSet * (u 8 * unit)) :=    (* set.rs 236-244 *)
  k <- highest s ;;
  m <- bs_is_monad s ;;
  if m then Ret (None, (k, tt)) else Ret (Some (unset_bit s k), (k, tt)).

Definition ByteSet_ops : VebOps (u 8) unit :=
  {| vt := ByteSet;
     v_from_monad := bs_from_monad;
     v_is_monad := bs_is_monad;
     v_len_hint := bs_len_hint;
     v_into_monad := bs_into_monad;
     v_min_val := bs_min_val;
     v_min_val_mut := bs_min_val_mut;
     v_max_val := bs_max_val;
     v_max_val_mut := bs_max_val_mut;
     v_find := bs_find;
     v_find_mut := bs_find_mut;
     v_predecessor := bs_predecessor;
     v_predecessor_mut := bs_predecessor_mut;
     v_successor := bs_successor;
     v_successor_mut := bs_successor_mut;
     v_insert := bs_insert;
     v_remove := bs_remove;
     v_remove_min := bs_remove_min;
     v_remove_max := bs_remove_max |}.
End Build.
