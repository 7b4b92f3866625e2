(** The specification: a map ordered by key, as a strictly ascending association list,
    and a double-ended sequence.  Nothing here refers to the model of the code. *)
From Verif Require Import Base.

Section Spec.
  Context {K V : Type} (cmp : K -> K -> comparison).

  Definition keys (l : list (K * V)) : list K := map fst l.

  (** Strictly ascending keys. *)
  Definition ascending (l : list (K * V)) : Prop :=
    StronglySorted (fun p q => cmp (fst p) (fst q) = Lt) l.

  Definition below (k : K) (l : list (K * V)) : list (K * V) :=
    filter (fun p => ltb cmp (fst p) k) l.
  Definition above (k : K) (l : list (K * V)) : list (K * V) :=
    filter (fun p => ltb cmp k (fst p)) l.

  Fixpoint last_error {A} (l : list A) : option A :=
    match l with
    | [] => None
    | [a] => Some a
    | _ :: l' => last_error l'
    end.

  (** Queries. *)
  Definition sp_find (k : K) (l : list (K * V)) : option (K * V) :=
    find (fun p => eqb cmp (fst p) k) l.
  Definition sp_pred (k : K) (l : list (K * V)) : option (K * V) := last_error (below k l).
  Definition sp_succ (k : K) (l : list (K * V)) : option (K * V) := hd_error (above k l).
  Definition sp_min (l : list (K * V)) : option (K * V) := hd_error l.
  Definition sp_max (l : list (K * V)) : option (K * V) := last_error l.

  (** Updates. *)
  Definition sp_insert (k : K) (v : V) (l : list (K * V)) : list (K * V) :=
    below k l ++ (k, v) :: above k l.
  Definition sp_remove (k : K) (l : list (K * V)) : list (K * V) := below k l ++ above k l.
  Definition sp_write (k : K) (w : V) (l : list (K * V)) : list (K * V) :=
    map (fun p => if eqb cmp (fst p) k then (fst p, w) else p) l.

  (** Consuming a list from both ends: [false] pops the front, [true] the back.
      Returns what each pop gave and what is left. *)
  Fixpoint sp_pops {A} (dirs : list bool) (l : list A) : list (option A) * list A :=
    match dirs with
    | [] => ([], l)
    | d :: ds =>
        let '(o, l') :=
          if d then (last_error l, removelast l) else (hd_error l, tl l) in
        let '(os, l'') := sp_pops ds l' in
        (o :: os, l'')
    end.
End Spec.
