(** What a [Tree] answers on every history, the defect of [Tree::insert] included: a specification by sorted lists.

    The pair stored as minimum and the one stored as maximum are apart from the sorted list of those between.  The defect (src/tree.rs 524-531)
    is in the arm of [th_place] marked as such; with it neither "minimum" nor "maximum" nor "between" means what it says. *)
From Verif Require Import Base Spec Ops Hist Iter IterSpec.

Section Three.
  Context {B : Build} {K V : Type} (cmp : K -> K -> comparison).
  Notation P := (K * V)%type.

  Inductive parts : Type :=
  | One (p : P)
  | Two (mn mx : P) (mid : list P).
  (** all of it, in the order in which [remove_min] hands it out *)
  Definition th_all (s : parts) : list P := match s with One p => [p] | Two mn mx mid => mn :: mid ++ [mx] end.

  (** A pair and where it was found: a key can be stored twice *)
  Inductive place : Type := AtMin | AtMax | Between.
  Definition found : Type := option (place * P).
  Definition between (o : option P) (or : place * P) : found := match o with Some p => Some (Between, p) | None => Some or end.

  (** src/tree.rs 112-139 *)
  Definition th_min (s : parts) : place * P := match s with One p => (AtMin, p) | Two mn _ _ => (AtMin, mn) end.
  Definition th_max (s : parts) : place * P := match s with One p => (AtMin, p) | Two _ mx _ => (AtMax, mx) end.
  (** src/tree.rs 142-169 *)
  Definition th_find (k : K) (s : parts) : found :=
    match s with
    | One p => if eqb cmp k (fst p) then Some (AtMin, p) else None
    | Two mn mx mid =>
        if eqb cmp k (fst mn) then Some (AtMin, mn) else if ltb cmp k (fst mn) then None
        else if eqb cmp k (fst mx) then Some (AtMax, mx) else match sp_find cmp k mid with Some p => Some (Between, p) | None => None end
    end.
  (** src/tree.rs 202-255 *)
  Definition th_pred (k : K) (s : parts) : found :=
    match s with
    | One p => if ltb cmp (fst p) k then Some (AtMin, p) else None
    | Two mn mx mid =>
        if leb cmp k (fst mn) then None else if ltb cmp (fst mx) k then Some (AtMax, mx)
        else between (if eqb cmp k (fst mx) then sp_max mid else sp_pred cmp k mid) (AtMin, mn)
    end.
  (** src/tree.rs 352-400 *)
  Definition th_succ (k : K) (s : parts) : found :=
    match s with
    | One p => if ltb cmp k (fst p) then Some (AtMin, p) else None
    | Two mn mx mid =>
        if ltb cmp k (fst mn) then Some (AtMin, mn) else if leb cmp (fst mx) k then None
        else between (if eqb cmp k (fst mn) then sp_min mid else sp_succ cmp k mid) (AtMax, mx)
    end.
  (** a write to the value found *)
  Definition th_write (w : V) (f : place * P) (s : parts) : parts :=
    match s, f with
    | One p, _ => One (fst p, w)
    | Two mn mx mid, (AtMin, _) => Two (fst mn, w) mx mid
    | Two mn mx mid, (AtMax, _) => Two mn (fst mx, w) mid
    | Two mn mx mid, (Between, p) => Two mn mx (sp_write cmp (fst p) w mid)
    end.

  (** src/tree.rs 503-562: the new state, the pair that goes between, if any, and else the pair replaced *)
  Definition th_place (k : K) (v : V) (s : parts) : parts * (P + option P) :=
    match s with
    | One p =>
        match cmp k (fst p) with
        | Eq => (One (k, v), inr (Some p))
        | Lt => (Two (k, v) p [], inr None)
        | Gt => (Two p (k, v) [], inr None)
        end
    | Two mn mx mid =>
        match cmp k (fst mn) with
        | Eq => (Two (k, v) mx mid, inr (Some mn))
        | Lt =>
            match cmp (fst mx) (fst mn) with
            | Eq => (Two (k, v) mn mid, inr (Some mx))
            | Gt => (Two (k, v) mn mid, inl mx)                            (* the defect: mn should go between, mx stay *)
            | Lt => (Two (k, v) mx mid, inl mn)
            end
        | Gt =>
            match cmp k (fst mx) with
            | Eq => (Two mn (k, v) mid, inr (Some mx))
            | Gt => (Two mn (k, v) mid, inl mx)
            | Lt => (Two mn mx mid, inl (k, v))
            end
        end
    end.
  Definition th_insert (k : K) (v : V) (s : parts) : parts * option P :=
    match th_place k v s with
    | (Two mn mx mid, inl p) => (Two mn mx (sp_insert cmp (fst p) (snd p) mid), sp_find cmp (fst p) mid)
    | (s', inl p) => (s', Some p)
    | (s', inr o) => (s', o)
    end.

  (** src/tree.rs 652-693, 696-736 *)
  Definition th_remove_min (s : parts) : option parts * P :=
    match s with
    | One p => (None, p)
    | Two mn mx [] => (Some (One mx), mn)
    | Two mn mx (p :: mid) => (Some (Two p mx mid), mn)
    end.
  Definition th_remove_max (s : parts) : option parts * P :=
    match s with
    | One p => (None, p)
    | Two mn mx mid => match last_error mid with None => (Some (One mn), mx) | Some p => (Some (Two mn p (removelast mid)), mx) end
    end.
  (** src/tree.rs 565-649 *)
  Definition th_remove (k : K) (s : parts) : option parts * option P :=
    match s with
    | One p => if eqb cmp k (fst p) then (None, Some p) else (Some s, None)
    | Two mn mx mid =>
        if eqb cmp k (fst mn) then let (o, p) := th_remove_min s in (o, Some p)
        else if eqb cmp k (fst mx) then let (o, p) := th_remove_max s in (o, Some p)
        else (Some (Two mn mx (sp_remove cmp k mid)), sp_find cmp k mid)
    end.

  (** The calls, as in Hist.v *)
  Definition th_ask (f : found) : out K V := OP (match f with Some (_, p) => Some p | None => None end).
  Definition th_mut (f : found) (w : V) (s : parts) : option parts * out K V :=
    (Some (match f with Some x => th_write w x s | None => s end), th_ask f).
  Definition th_step (c : op K V) (os : option parts) : option parts * out K V :=
    match os with
    | None =>
        match c with
        | Insert k v => (Some (One (k, v)), OP None)
        | IsMonad => (None, OB false)
        | _ => (None, OP None)
        end
    | Some s =>
        match c with
        | Insert k v => let (s', o) := th_insert k v s in (Some s', OP o)
        | Remove k => let (os', o) := th_remove k s in (os', OP o)
        | RemoveMin => let (os', p) := th_remove_min s in (os', OP (Some p))
        | RemoveMax => let (os', p) := th_remove_max s in (os', OP (Some p))
        | IntoMonad => match s with One p => (None, OP (Some p)) | Two _ _ _ => (os, OP None) end
        | IsMonad => (os, OB (match s with One _ => true | Two _ _ _ => false end))
        | Min => (os, th_ask (Some (th_min s)))
        | Max => (os, th_ask (Some (th_max s)))
        | Find k => (os, th_ask (th_find k s))
        | Pred k => (os, th_ask (th_pred k s))
        | Succ k => (os, th_ask (th_succ k s))
        | MinMut w => th_mut (Some (th_min s)) w s
        | MaxMut w => th_mut (Some (th_max s)) w s
        | FindMut k w => th_mut (th_find k s) w s
        | PredMut k w => th_mut (th_pred k s) w s
        | SuccMut k w => th_mut (th_succ k s) w s
        end
    end.
  Fixpoint th_run (cs : list (op K V)) (os : option parts) : option parts * list (out K V) :=
    match cs with
    | [] => (os, [])
    | c :: cs' => let (os1, o) := th_step c os in let (os2, r) := th_run cs' os1 in (os2, o :: r)
    end.

  (** Histories whose every pair that goes between passes the test [fit] (on the keys there, and its own) and finds room *)
  Fixpoint th_fitting (fit : list K -> K -> bool) (cs : list (op K V)) (os : option parts) : Prop :=
    match cs with
    | [] => True
    | c :: cs' =>
        match c, os with
        | Insert k v, Some s =>
            (N.of_nat (length (th_all s)) < usize_max)%N /\
            match th_place k v s with (Two _ _ mid, inl p) => fit (keys mid) (fst p) = true | _ => True end
        | _, _ => True
        end /\ th_fitting fit cs' (fst (th_step c os))
    end.
  (** An iterator over the tree in the state [s] (src/iter.rs 40-197): the keys it handed out last at the front and at the back, [None] once it has stopped.
      [it_turn true] is [next_back].  The result is [None] where the call panics: with keys at both ends and nothing left between the end of
      the range and the end of the tree, which the crate asserts cannot be (lines 93-99, 180-186) in a debug build *)
  Definition ends : Type := option (option K * option K).
  Definition it_turn (b : bool) (s : parts) (c : ends) : option (ends * option P) :=
    match c with
    | None => Some (None, None)
    | Some (front, back) =>
        let (mine, other) := if b then (back, front) else (front, back) in
        match (match mine with Some k => if b then th_pred k s else th_succ k s | None => Some (if b then th_max s else th_min s) end) with
        | Some (_, p) =>
            if match other with Some k => eqb cmp (fst p) k | None => false end then Some (None, None)
            else Some (Some (if b then (front, Some (fst p)) else (Some (fst p), back)), Some p)
        | None => if dbg && match other with Some _ => true | None => false end then None else Some (None, None)
        end
    end.
  Fixpoint th_walk (s : parts) (dirs : list bool) (c : ends) : option (list (option P)) :=
    match dirs with
    | [] => Some []
    | b :: dirs' =>
        match it_turn b s c with
        | None => None
        | Some (c', o) => match th_walk s dirs' c' with Some r => Some (o :: r) | None => None end
        end
    end.
End Three.
Arguments parts : clear implicits.

(** How a tree in the state [s] is seen to be in it: by what [remove_min] hands out until nothing is left, and by an iterator *)
Definition th_state {B : Build} {K V} (cmp : K -> K -> comparison) (O : VebOps K V) (ot : option (vt O)) (os : option (parts K V)) : Prop :=
  match ot, os with
  | None, None => True
  | Some t, Some s => contents O t (th_all s) /\ forall dirs, (N.of_nat (length dirs) <= usize_max)%N ->
      match th_walk cmp s dirs (Some (None, None)) with
      | Some r => exists it, it_run O (eqb cmp) t dirs it_new = Ret (it, r)
      | None => it_run O (eqb cmp) t dirs it_new = Panic
      end
  | _, _ => False
  end.
