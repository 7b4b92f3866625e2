(** Histories of a collection of trees ([trait TreeCollection], src/collection/mod.rs 61-106), run against the collection and
    against a finite map. *)
From Verif Require Import Base Ops.

Section CollHist.
  Context {Hi Lo V : Type} {Tr : VebOps Lo V}.
  Let T := vt Tr.

  (** The calls.  The closures of the removals are arbitrary; [CSet h t] stores [t] through [get_mut(h)]. *)
  Inductive cop : Type :=
  | CCreate (h : Hi) (t : T)
  | CGet (h : Hi)
  | CSet (h : Hi) (t : T)
  | CInsert (h : Hi) (lv : Lo * V)
  | CRemove (h : Hi) (f : T -> res (option T * (Lo * V)))
  | CMaybe (h : Hi) (f : T -> res (result (option T * (Lo * V)) T)).
  (** The answers: the tree found; the answer of insert_key; what a removal says of the collection left (none, or whether the tree
      was dropped) with the pair taken out. *)
  Inductive cout : Type :=
  | COGone
  | CODone
  | COTree (o : option T)
  | COInsert (r : result Hi (Hi * option (Lo * V)))
  | CORemoved (left : option bool) (p : Lo * V)
  | COKept.

  Section Code.
    Context (C : CollOps Hi Lo V Tr).
    Definition split_left (oc : option (ct C * bool)) : option (ct C) * option bool :=
      match oc with Some (c, b) => (Some c, Some b) | None => (None, None) end.
    Definition c_step (x : cop) (oc : option (ct C)) : res (option (ct C) * cout) :=
      match x, oc with
      | CCreate h t, _ => c <- c_create C h t ;; Ret (Some c, CODone)
      | _, None => Ret (None, COGone)
      | CGet h, Some c => o <- c_get C c h ;; Ret (Some c, COTree o)
      | CSet h t, Some c =>
          o <- c_get_mut C c h ;;
          Ret (match o with
               | Some (t0, put) => (Some (put t), COTree (Some t0))
               | None => (Some c, COTree None)
               end)
      | CInsert h lv, Some c => ' (c', r) <- c_insert_key C c h lv ;; Ret (Some c', COInsert r)
      | CRemove h f, Some c =>
          ' (oc', p) <- c_remove_key C c h f ;;
          let (c', b) := split_left oc' in Ret (c', CORemoved b p)
      | CMaybe h f, Some c =>
          r <- c_maybe_remove_key C c h f ;;
          match r with
          | Err c' => Ret (Some c', COKept)
          | Ok (oc', p) => let (c', b) := split_left oc' in Ret (c', CORemoved b p)
          end
      end.
    Fixpoint c_run (xs : list cop) (oc : option (ct C)) : res (option (ct C) * list cout) :=
      match xs with
      | [] => Ret (oc, [])
      | x :: xs' =>
          ' (oc1, o) <- c_step x oc ;;
          ' (oc2, os) <- c_run xs' oc1 ;;
          Ret (oc2, o :: os)
      end.
  End Code.

  (** The specification: a finite map as an association list; the empty map is the absence of a collection. *)
  Context (deq : Hi -> Hi -> bool).
  Definition m_get (m : list (Hi * T)) (h : Hi) : option T :=
    match find (fun p => deq h (fst p)) m with Some (_, t) => Some t | None => None end.
  Definition m_set (m : list (Hi * T)) (h : Hi) (o : option T) : list (Hi * T) :=
    (match o with Some t => [(h, t)] | None => [] end) ++ filter (fun p => negb (deq h (fst p))) m.
  Definition m_left (m : list (Hi * T)) (o : option T) : option bool :=
    match m, o with
    | [], _ => None
    | _, None => Some true
    | _, Some _ => Some false
    end.
  (** [remove_key] must only be called for a key that is there: the specification panics otherwise. *)
  Definition m_step (x : cop) (m : list (Hi * T)) : res (list (Hi * T) * cout) :=
    match x, m with
    | CCreate h t, _ => Ret ([(h, t)], CODone)
    | _, [] => Ret ([], COGone)
    | CGet h, _ => Ret (m, COTree (m_get m h))
    | CSet h t, _ =>
        Ret (match m_get m h with
             | Some t0 => (m_set m h (Some t), COTree (Some t0))
             | None => (m, COTree None)
             end)
    | CInsert h (lo, v), _ =>
        match m_get m h with
        | None => Ret (m_set m h (Some (v_from_monad Tr lo v)), COInsert (Ok h))
        | Some t => ' (t', r) <- v_insert Tr t lo v ;; Ret (m_set m h (Some t'), COInsert (Err (h, r)))
        end
    | CRemove h f, _ =>
        match m_get m h with
        | None => Panic
        | Some t => ' (o, p) <- f t ;; Ret (m_set m h o, CORemoved (m_left (m_set m h o) o) p)
        end
    | CMaybe h f, _ =>
        match m_get m h with
        | None => Ret (m, COKept)
        | Some t =>
            r <- f t ;;
            match r with
            | Err t' => Ret (m_set m h (Some t'), COKept)
            | Ok (o, p) => Ret (m_set m h o, CORemoved (m_left (m_set m h o) o) p)
            end
        end
    end.
  Fixpoint m_run (xs : list cop) (m : list (Hi * T)) : res (list (Hi * T) * list cout) :=
    match xs with
    | [] => Ret (m, [])
    | x :: xs' =>
        ' (m1, o) <- m_step x m ;;
        ' (m2, os) <- m_run xs' m1 ;;
        Ret (m2, o :: os)
    end.
End CollHist.
Arguments cop Hi {Lo V} Tr.
Arguments cout Hi {Lo V} Tr.
