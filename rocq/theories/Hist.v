(** Histories of calls: the driver over an optional tree (as in benches/random/main.rs 38-102), and what
    a sorted association list answers to the same calls. *)
From Verif Require Import Base Spec Ops.

Section Ops.
  Context {K V : Type}.
  (** The calls of [VebTree] (src/lib.rs 32-161).  A [*_Mut] call writes its second argument through the
      reference it gets. *)
  Inductive op : Type :=
  | Insert (k : K) (v : V)
  | Remove (k : K)
  | RemoveMin
  | RemoveMax
  | IntoMonad
  | IsMonad
  | Min
  | Max
  | Find (k : K)
  | Pred (k : K)
  | Succ (k : K)
  | MinMut (w : V)
  | MaxMut (w : V)
  | FindMut (k : K) (w : V)
  | PredMut (k : K) (w : V)
  | SuccMut (k : K) (w : V).
  (** What a call answers: a pair or none, or a truth value *)
  Inductive out : Type :=
  | OP (o : option (K * V))
  | OB (b : bool).
End Ops.
Arguments op : clear implicits.
Arguments out : clear implicits.

(** *** The code *)
Section Run.
  Context {K V : Type} (O : VebOps K V).
  Notation T := (vt O).

  Definition query (m : T -> res (option (K * V))) (t : T) : res (option T * out K V) :=
    o <- m t ;; Ret (Some t, OP o).
  Definition query1 (m : T -> res (K * V)) (t : T) : res (option T * out K V) :=
    p <- m t ;; Ret (Some t, OP (Some p)).
  Definition write (m : T -> res (option (K * V * (V -> T)))) (w : V) (t : T) : res (option T * out K V) :=
    o <- m t ;;
    match o with
    | Some (p, put) => Ret (Some (put w), OP (Some p))
    | None => Ret (Some t, OP None)
    end.
  Definition write1 (m : T -> res (K * V * (V -> T))) (w : V) (t : T) : res (option T * out K V) :=
    ' (p, put) <- m t ;; Ret (Some (put w), OP (Some p)).

  Definition step (c : op K V) (ot : option T) : res (option T * out K V) :=
    match ot with
    | None =>
        match c with
        | Insert k v => Ret (Some (v_from_monad O k v), OP None)      (* main.rs 49 *)
        | IsMonad => Ret (None, OB false)
        | _ => Ret (None, OP None)
        end
    | Some t =>
        match c with
        | Insert k v => ' (t', r) <- v_insert O t k v ;; Ret (Some t', OP r)     (* main.rs 44-48 *)
        | Remove k =>                                                 (* main.rs 55-69 *)
            r <- v_remove O t k ;;
            match r with
            | Err t' => Ret (Some t', OP None)
            | Ok (ot', p) => Ret (ot', OP (Some p))
            end
        | RemoveMin => ' (ot', p) <- v_remove_min O t ;; Ret (ot', OP (Some p))
        | RemoveMax => ' (ot', p) <- v_remove_max O t ;; Ret (ot', OP (Some p))
        | IntoMonad =>
            r <- v_into_monad O t ;;
            match r with
            | Ok p => Ret (None, OP (Some p))
            | Err t' => Ret (Some t', OP None)
            end
        | IsMonad => b <- v_is_monad O t ;; Ret (Some t, OB b)
        | Min => query1 (v_min_val O) t
        | Max => query1 (v_max_val O) t
        | Find k => query (fun t => v_find O t k) t
        | Pred k => query (fun t => v_predecessor O t k) t
        | Succ k => query (fun t => v_successor O t k) t
        | MinMut w => write1 (v_min_val_mut O) w t
        | MaxMut w => write1 (v_max_val_mut O) w t
        | FindMut k w => write (fun t => v_find_mut O t k) w t
        | PredMut k w => write (fun t => v_predecessor_mut O t k) w t
        | SuccMut k w => write (fun t => v_successor_mut O t k) w t
        end
    end.

  Fixpoint run (cs : list (op K V)) (ot : option T) : res (option T * list (out K V)) :=
    match cs with
    | [] => Ret (ot, [])
    | c :: cs' =>
        ' (ot1, o) <- step c ot ;;
        ' (ot2, os) <- run cs' ot1 ;;
        Ret (ot2, o :: os)
    end.
End Run.

(** *** The specification *)
Section SpRun.
  Context {B : Build} {K V : Type} (cmp : K -> K -> comparison).
  Notation L := (list (K * V)).

  (** the pair is found, and its value overwritten *)
  Definition sp_mut (o : option (K * V)) (w : V) (l : L) : L * out K V :=
    (match o with Some p => sp_write cmp (fst p) w l | None => l end, OP o).

  Definition sp_step (c : op K V) (l : L) : L * out K V :=
    match c with
    | Insert k v => (sp_insert cmp k v l, OP (sp_find cmp k l))
    | Remove k => (sp_remove cmp k l, OP (sp_find cmp k l))
    | RemoveMin => (tl l, OP (sp_min l))
    | RemoveMax => (removelast l, OP (sp_max l))
    | IntoMonad => match l with [p] => ([], OP (Some p)) | _ => (l, OP None) end
    | IsMonad => (l, OB (length l =? 1))
    | Min => (l, OP (sp_min l))
    | Max => (l, OP (sp_max l))
    | Find k => (l, OP (sp_find cmp k l))
    | Pred k => (l, OP (sp_pred cmp k l))
    | Succ k => (l, OP (sp_succ cmp k l))
    | MinMut w => sp_mut (sp_min l) w l
    | MaxMut w => sp_mut (sp_max l) w l
    | FindMut k w => sp_mut (sp_find cmp k l) w l
    | PredMut k w => sp_mut (sp_pred cmp k l) w l
    | SuccMut k w => sp_mut (sp_succ cmp k l) w l
    end.

  Fixpoint sp_run (cs : list (op K V)) (l : L) : L * list (out K V) :=
    match cs with
    | [] => (l, [])
    | c :: cs' =>
        let (l1, o) := sp_step c l in
        let (l2, os) := sp_run cs' l1 in
        (l2, o :: os)
    end.

  (** Histories whose every insertion of [k] into a list [l] satisfies [adm l k] and fits in memory. *)
  Fixpoint admissible (adm : L -> K -> Prop) (cs : list (op K V)) (l : L) : Prop :=
    match cs with
    | [] => True
    | c :: cs' =>
        match c with
        | Insert k _ => adm l k /\ (N.of_nat (length l) < usize_max)%N
        | _ => True
        end /\ admissible adm cs' (fst (sp_step c l))
    end.

  (** The three conditions used *)
  Definition adm_any (_ : L) (_ : K) : Prop := True.
  Definition adm_ascending (l : L) (k : K) : Prop :=
    In k (keys l) \/ forall k', In k' (keys l) -> cmp k' k = Lt.
  Definition adm_above_min (l : L) (k : K) : Prop :=
    match l with
    | p :: _ :: _ => cmp k (fst p) <> Lt
    | _ => True
    end.
End SpRun.

(** *** Bookkeeping of pairs, from the calls and their answers alone *)
Section Bag.
  Context {B : Build} {K V : Type}.
  Definition is_write (c : op K V) : option V :=
    match c with
    | MinMut w | MaxMut w | FindMut _ w | PredMut _ w | SuccMut _ w => Some w
    | _ => None
    end.
  (** pairs that went in: by insertion, or as the new form of a pair whose value was overwritten *)
  Definition pairs_in (c : op K V) (o : out K V) : list (K * V) :=
    match c, o with
    | Insert k v, _ => [(k, v)]
    | _, OP (Some p) => match is_write c with Some w => [(fst p, w)] | None => [] end
    | _, _ => []
    end.
  (** pairs that came out: replaced by insertion, removed, or overwritten *)
  Definition pairs_out (c : op K V) (o : out K V) : list (K * V) :=
    match c, o with
    | (Insert _ _ | Remove _ | RemoveMin | RemoveMax | IntoMonad), OP (Some p) => [p]
    | _, OP (Some p) => match is_write c with Some _ => [p] | None => [] end
    | _, _ => []
    end.
  Fixpoint total (f : op K V -> out K V -> list (K * V)) (cs : list (op K V)) (os : list (out K V)) :
    list (K * V) :=
    match cs, os with
    | c :: cs', o :: os' => f c o ++ total f cs' os'
    | _, _ => []
    end.
  (** the number of pairs stored after a history *)
  Definition balance (cs : list (op K V)) (os : list (out K V)) : nat :=
    length (total pairs_in cs os) - length (total pairs_out cs os).
  (** every insertion of the history happens with fewer than [usize::MAX] pairs stored ([n] at its start) *)
  Fixpoint fitting (cs : list (op K V)) (os : list (out K V)) (n : nat) : Prop :=
    match cs, os with
    | c :: cs', o :: os' =>
        match c with Insert _ _ => (N.of_nat n < usize_max)%N | _ => True end /\
        fitting cs' os' (n + length (pairs_in c o) - length (pairs_out c o))
    | _, _ => True
    end.
End Bag.

(** A tree reached by an admissible history, and the list it stands for. *)
Definition reached {B : Build} {K V} (cmp : K -> K -> comparison) (O : VebOps K V)
  (adm : list (K * V) -> K -> Prop) (t : vt O) (l : list (K * V)) : Prop :=
  exists cs os, admissible cmp adm cs [] /\ run O cs None = Ret (Some t, os) /\ fst (sp_run cmp cs []) = l.
(** A tree reached by any history that fits in memory. *)
Definition reachable {B : Build} {K V} (O : VebOps K V) (t : vt O) : Prop :=
  exists cs os, run O cs None = Ret (Some t, os) /\ fitting cs os 0.

(** What is left of a tree standing for [l] after [p] was taken out: everything else, or nothing at all. *)
Definition left_over {B : Build} {K V} (cmp : K -> K -> comparison) (O : VebOps K V) (adm : list (K * V) -> K -> Prop)
  (l : list (K * V)) (p : K * V) (ot : option (vt O)) : Prop :=
  match ot with
  | Some t' => exists l', reached cmp O adm t' l' /\ forall q, In q l' <-> In q l /\ q <> p
  | None => l = [p]
  end.

(** Draining: [remove_min] (or [remove_max]) until the tree is gone, at most [n] times. *)
Fixpoint drain {T P} (rm : T -> res (option T * P)) (n : nat) (ot : option T) : res (option T * list P) :=
  match n, ot with
  | O, _ | _, None => Ret (ot, [])
  | S n', Some t =>
      ' (ot', p) <- rm t ;;
      ' (ot'', ps) <- drain rm n' ot' ;;
      Ret (ot'', p :: ps)
  end.
(** What a tree holds, as an observation: the pairs [remove_min] returns until the tree is gone. *)
Definition contents {K V} (O : VebOps K V) (t : vt O) (d : list (K * V)) : Prop :=
  exists n, drain (v_remove_min O) n (Some t) = Ret (None, d).

(** The value a history leaves at key [k], read off the calls and their answers: the latest one inserted or
    written, unless the key was removed since. *)
Section Latest.
  Context {K V : Type} (cmp : K -> K -> comparison).
  Definition touched (k : K) (c : op K V) (o : out K V) (old : option V) : option V :=
    match c, o with
    | Insert k' v, _ => if eqb cmp k' k then Some v else old
    | (Remove _ | RemoveMin | RemoveMax | IntoMonad), OP (Some p) => if eqb cmp (fst p) k then None else old
    | (MinMut w | MaxMut w | FindMut _ w | PredMut _ w | SuccMut _ w), OP (Some p) =>
        if eqb cmp (fst p) k then Some w else old
    | _, _ => old
    end.
  Fixpoint latest (k : K) (cs : list (op K V)) (os : list (out K V)) (old : option V) : option V :=
    match cs, os with
    | c :: cs', o :: os' => latest k cs' os' (touched k c o old)
    | _, _ => old
    end.
End Latest.

(** The mutable queries (src/lib.rs 72, 82, 101, 115, 132): a pair found and the write to its value. *)
Inductive mut_query {K V} (O : VebOps K V) (t : vt O) : K * V -> (V -> vt O) -> Prop :=
| MQ_min p put : v_min_val_mut O t = Ret (p, put) -> mut_query O t p put
| MQ_max p put : v_max_val_mut O t = Ret (p, put) -> mut_query O t p put
| MQ_find k p put : v_find_mut O t k = Ret (Some (p, put)) -> mut_query O t p put
| MQ_pred k p put : v_predecessor_mut O t k = Ret (Some (p, put)) -> mut_query O t p put
| MQ_succ k p put : v_successor_mut O t k = Ret (Some (p, put)) -> mut_query O t p put.
