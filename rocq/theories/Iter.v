(** Model of src/iter.rs *)
From Verif Require Import Base Ops.

Section Iter.
  Context {B : Build} {K V : Type} (O : VebOps K V) (keq : K -> K -> bool).

  (** iter.rs 11-26.  The tree is borrowed for the life of the iterator and cannot change: it is a
      parameter of the functions below.  [keq] is the [==] of keys (by deref: MaybeBorrowed's [==]). *)
  Inductive IterData : Type :=
  | Start
  | Front (prev_key : K)
  | Back (prev_key : K)
  | Both (front_key back_key : K).

  (** iter.rs 6-9 *)
  Record Iter : Type := IT { it_data : option IterData; it_emitted : N }.

  (** [From<&V>] (iter.rs 28-35) *)
  Definition it_new : Iter := IT (Some Start) 0.

  Definition emit (it : Iter) (d : IterData) (p : K * V) : res (Iter * option (K * V)) :=
    n <- usize_add (it_emitted it) 1 ;; Ret (IT (Some d) n, Some p).
  Definition stop (it : Iter) : res (Iter * option (K * V)) := Ret (IT None (it_emitted it), None).

  (** iter.rs 42-107 *)
  Definition it_next (t : vt O) (it : Iter) : res (Iter * option (K * V)) :=
    match it_data it with
    | None => stop it
    | Some Start => p <- v_min_val O t ;; emit it (Front (fst p)) p
    | Some (Front prev) =>
        o <- v_successor O t prev ;;
        match o with
        | Some p => emit it (Front (fst p)) p
        | None => stop it
        end
    | Some (Back back) =>
        p <- v_min_val O t ;;
        if keq (fst p) back then stop it else emit it (Both (fst p) back) p
    | Some (Both front back) =>
        o <- v_successor O t front ;;
        match o with
        | Some p => if keq (fst p) back then stop it else emit it (Both (fst p) back) p
        | None => _ <- debug_assert false ;; stop it
        end
    end.

  (** iter.rs 129-194 *)
  Definition it_next_back (t : vt O) (it : Iter) : res (Iter * option (K * V)) :=
    match it_data it with
    | None => stop it
    | Some Start => p <- v_max_val O t ;; emit it (Back (fst p)) p
    | Some (Back prev) =>
        o <- v_predecessor O t prev ;;
        match o with
        | Some p => emit it (Back (fst p)) p
        | None => stop it
        end
    | Some (Front front) =>
        p <- v_max_val O t ;;
        if keq front (fst p) then stop it else emit it (Both front (fst p)) p
    | Some (Both front back) =>
        o <- v_predecessor O t back ;;
        match o with
        | Some p => if keq front (fst p) then stop it else emit it (Both front (fst p)) p
        | None => _ <- debug_assert false ;; stop it
        end
    end.

  (** iter.rs 109-122; [min.saturating_sub(emitted)], [max - emitted] *)
  Definition it_size_hint (t : vt O) (it : Iter) : res (N * option N) :=
    match it_data it with
    | None => Ret (0%N, Some 0%N)
    | Some _ =>
        ' (mn, mx) <- v_len_hint O t ;;
        hi <- (match mx with
               | Some m => n <- checked_sub m (it_emitted it) ;; Ret (Some n)
               | None => Ret None
               end) ;;
        Ret ((mn - it_emitted it)%N, hi)
    end.
End Iter.
Arguments IterData : clear implicits.
Arguments Iter : clear implicits.
Arguments Start {K}.
Arguments Front {K}.
Arguments Back {K}.
Arguments Both {K}.
Arguments IT {K}.
Arguments it_data {K}.
Arguments it_emitted {K}.
Arguments it_new {K}.
