(** How many nodes the B-tree of Nodes.v creates and frees over a history of insertions and removals ([BTreeMap], src/lib.rs 433-580; the
    insertion of an absent key is line 545's, the removals those of lines 558, 567 and 575). *)
From Verif Require Import Base Ops Spec BTree MapGen Nodes.

(** A pair put in; a key taken out; the least and the greatest taken out *)
Inductive bop (K V : Type) : Type := BPut (k : K) (v : V) | BDel (k : K) | BMin | BMax.
Arguments BPut {K V}.
Arguments BDel {K V}.
Arguments BMin {K V}.
Arguments BMax {K V}.

Section Count.
  Context {K V : Type} (cmp : K -> K -> comparison).
  Notation P := (K * V)%type.
  Notation M := (NMap (K := K) (V := V)).

  (** a node and all below it *)
  Fixpoint nodes (h : nat) : node P h -> nat :=
    match h return node P h -> nat with
    | 0 => fun _ => 1
    | S h' => fun t => S (nodes h' (kid0 t) + list_sum (map (fun pc => nodes h' (snd pc)) (kids t)))
    end.
  Definition nm_nodes (m : M) : nat := nodes _ (nm_root m).
  Definition b_step (m : M) (o : bop K V) : M :=
    match o with
    | BPut k v => m_insert (Node_map V cmp) m k v
    | BDel k => fst (m_remove_entry (Node_map V cmp) m k)
    | BMin => fst (m_pop_first (Node_map V cmp) m)
    | BMax => fst (m_pop_last (Node_map V cmp) m)
    end.
  Definition b_run (m : M) (os : list (bop K V)) : M := fold_left b_step os m.
  (** An insertion only creates nodes and a removal only frees some (C79_call), so the difference is how many *)
  Definition gap (a b : nat) : nat := (a - b) + (b - a).
  Fixpoint b_work (m : M) (os : list (bop K V)) : nat :=
    match os with
    | [] => 0
    | o :: os' => gap (nm_nodes m) (nm_nodes (b_step m o)) + b_work (b_step m o) os'
    end.
  Definition nm_empty : M := m_new (Node_map V cmp).
End Count.

(** *** Specification: the same calls on the sorted list of the pairs *)
Definition l_step {K V : Type} (cmp : K -> K -> comparison) (l : list (K * V)) (o : bop K V) : list (K * V) :=
  match o with
  | BPut k v => sp_insert cmp k v l
  | BDel k => sp_remove cmp k l
  | BMin => tl l
  | BMax => removelast l
  end.

(** *** Specification: how many pairs stay left when a full node gets one more in at the given place (the table of alloc's [splitpoint], after the
    new pair went in) *)
Definition left_share (e : nat) : nat := nth e [5; 5; 5; 5; 5; 6; 5; 6; 6; 6; 6; 6] 0.
(** *** Specification: the size of the left neighbour, or the right one if there is none *)
Definition beside {P : Type} (size : P -> nat) {Q : Type} (ls : list (P * Q)) (r : list (Q * P)) : option nat :=
  match ls, r with
  | (b, _) :: _, _ => Some (size b)
  | [], (_, d) :: _ => Some (size d)
  | [], [] => None
  end.
