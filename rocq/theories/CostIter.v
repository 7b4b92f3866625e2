(** Counting, as in Cost.v, over whole iterations (src/iter.rs) and whole histories of calls (Hist.v). *)
From Verif Require Import Base Ops Iter Hist Cost.

(** *** Iterators: the functions of Iter.v with counted trees *)
Section Iter.
  Context {B : Build} {K V : Type} {O : VebOps K V} (CO : CVeb O) (keq : K -> K -> bool) (t : vt O).

  (** iter.rs 42-107 *)
  Definition cit_next (it : Iter K) : cres (Iter K * option (K * V)) :=
    match it_data it with
    | None => free (stop it)
    | Some Start => p <~ cv_min_val CO t ;; free (emit it (Front (fst p)) p)
    | Some (Front prev) =>
        o <~ cv_successor CO t prev ;;
        match o with
        | Some p => free (emit it (Front (fst p)) p)
        | None => free (stop it)
        end
    | Some (Back back) =>
        p <~ cv_min_val CO t ;;
        if keq (fst p) back then free (stop it) else free (emit it (Both (fst p) back) p)
    | Some (Both front back) =>
        o <~ cv_successor CO t front ;;
        match o with
        | Some p => if keq (fst p) back then free (stop it) else free (emit it (Both (fst p) back) p)
        | None => _ <~ free (debug_assert false) ;; free (stop it)
        end
    end.
  (** iter.rs 129-194 *)
  Definition cit_next_back (it : Iter K) : cres (Iter K * option (K * V)) :=
    match it_data it with
    | None => free (stop it)
    | Some Start => p <~ cv_max_val CO t ;; free (emit it (Back (fst p)) p)
    | Some (Back prev) =>
        o <~ cv_predecessor CO t prev ;;
        match o with
        | Some p => free (emit it (Back (fst p)) p)
        | None => free (stop it)
        end
    | Some (Front front) =>
        p <~ cv_max_val CO t ;;
        if keq front (fst p) then free (stop it) else free (emit it (Both front (fst p)) p)
    | Some (Both front back) =>
        o <~ cv_predecessor CO t back ;;
        match o with
        | Some p => if keq front (fst p) then free (stop it) else free (emit it (Both front (fst p)) p)
        | None => _ <~ free (debug_assert false) ;; free (stop it)
        end
    end.
  (** a sequence of calls, [false] is [next] and [true] is [next_back], as [it_run] of IterSpec.v *)
  Definition cit_call (d : bool) (it : Iter K) : cres (Iter K * option (K * V)) := if d then cit_next_back it else cit_next it.
  Fixpoint cit_run (dirs : list bool) (it : Iter K) : cres (Iter K * list (option (K * V))) :=
    match dirs with
    | [] => cret (it, [])
    | d :: ds =>
        ' (it1, o) <~ cit_call d it ;;
        ' (it2, os) <~ cit_run ds it1 ;;
        cret (it2, o :: os)
    end.
End Iter.

(** *** Histories: [step] and [run] of Hist.v with counted trees *)
Section Run.
  Context {K V : Type} {O : VebOps K V} (CO : CVeb O).
  Notation T := (vt O).
  Definition cquery (m : cres (option (K * V))) (t : T) : cres (option T * out K V) := o <~ m ;; cret (Some t, OP o).
  Definition cquery1 (m : cres (K * V)) (t : T) : cres (option T * out K V) := p <~ m ;; cret (Some t, OP (Some p)).
  Definition cwrite (m : cres (option (K * V * (V -> T)))) (w : V) (t : T) : cres (option T * out K V) :=
    o <~ m ;;
    match o with
    | Some (p, put) => cret (Some (put w), OP (Some p))
    | None => cret (Some t, OP None)
    end.
  Definition cwrite1 (m : cres (K * V * (V -> T))) (w : V) : cres (option T * out K V) :=
    ' (p, put) <~ m ;; cret (Some (put w), OP (Some p)).
  Definition cstep (c : op K V) (ot : option T) : cres (option T * out K V) :=
    match ot with
    | None =>
        match c with
        | Insert k v => t <~ cv_from_monad CO k v ;; cret (Some t, OP None)
        | IsMonad => cret (None, OB false)
        | _ => cret (None, OP None)
        end
    | Some t =>
        match c with
        | Insert k v => ' (t', r) <~ cv_insert CO t k v ;; cret (Some t', OP r)
        | Remove k =>
            r <~ cv_remove CO t k ;;
            match r with
            | Err t' => cret (Some t', OP None)
            | Ok (ot', p) => cret (ot', OP (Some p))
            end
        | RemoveMin => ' (ot', p) <~ cv_remove_min CO t ;; cret (ot', OP (Some p))
        | RemoveMax => ' (ot', p) <~ cv_remove_max CO t ;; cret (ot', OP (Some p))
        | IntoMonad =>
            r <~ cv_into_monad CO t ;;
            match r with
            | Ok p => cret (None, OP (Some p))
            | Err t' => cret (Some t', OP None)
            end
        | IsMonad => b <~ cv_is_monad CO t ;; cret (Some t, OB b)
        | Min => cquery1 (cv_min_val CO t) t
        | Max => cquery1 (cv_max_val CO t) t
        | Find k => cquery (cv_find CO t k) t
        | Pred k => cquery (cv_predecessor CO t k) t
        | Succ k => cquery (cv_successor CO t k) t
        | MinMut w => cwrite1 (cv_min_val_mut CO t) w
        | MaxMut w => cwrite1 (cv_max_val_mut CO t) w
        | FindMut k w => cwrite (cv_find_mut CO t k) w t
        | PredMut k w => cwrite (cv_predecessor_mut CO t k) w t
        | SuccMut k w => cwrite (cv_successor_mut CO t k) w t
        end
    end.
  Fixpoint crun (cs : list (op K V)) (ot : option T) : cres (option T * list (out K V)) :=
    match cs with
    | [] => cret (ot, [])
    | c :: cs' =>
        ' (ot1, o) <~ cstep c ot ;;
        ' (ot2, os) <~ crun cs' ot1 ;;
        cret (ot2, o :: os)
    end.
End Run.

(** Specification: the price of one call at depth [d], and how many insertions a history has *)
Definition price {K V} (d : N) (c : op K V) : N :=
  match c with
  | Insert _ _ => 3 * d + 1
  | Remove _ => 4 * d + 2
  | RemoveMin | RemoveMax => 4 * d + 1
  | IntoMonad | IsMonad | Min | Max | MinMut _ | MaxMut _ => 1
  | Find _ | FindMut _ _ => 2 * d + 1
  | Pred _ | PredMut _ _ | Succ _ | SuccMut _ _ => 5 * d + 1
  end.
Definition total_price {K V} (d : N) (cs : list (op K V)) : N := fold_right N.add 0%N (map (price d) cs).
Definition insertions {K V} (cs : list (op K V)) : N :=
  N.of_nat (length (filter (fun c => match c with Insert _ _ => true | _ => false end) cs)).
