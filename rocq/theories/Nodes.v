(** The B-tree behind [BTreeMap] (src/lib.rs 433-580 calls it; external).  After the design of the standard library, alloc::collections::btree:
    nodes of five to eleven pairs, the root fewer; all leaves at one depth; a node that runs over is split where [splitpoint] says; a node
    that runs under is merged with a neighbour, or takes a pair from it through the parent; a pair of an inner node is removed by taking
    its predecessor out of a leaf.  MapGen.v states what lib.rs asks of such a map ([MapContract]).

    Left out: nodes as memory blocks with parent pointers (here a node contains its children, and going up is returning); the walk of
    [range] down to both ends at once (here one end is sought and then compared with the other); [None] for the root of a map that was
    never filled (here an empty leaf). *)
From Verif Require Import Base Ops Spec BTree MapGen.

(** [CAPACITY] and [MIN_LEN], with [B = 6] *)
Definition CAP : nat := 11.
Definition MINL : nat := 5.

(** A node of height [h]: a leaf is its pairs; an inner node is its first child, and its pairs, each with the child after it. *)
Fixpoint node (P : Type) (h : nat) : Type :=
  match h with
  | 0 => list P
  | S h' => node P h' * list (P * node P h')
  end.

Section Tree.
  Context {K V : Type} (cmp : K -> K -> comparison).
  Notation P := (K * V)%type.
  Notation node := (node P).

  (** the first child of an inner node; its pairs with the other children *)
  Definition kid0 {h : nat} (t : node (S h)) : node h := fst t.
  Definition kids {h : nat} (t : node (S h)) : list (P * node h) := snd t.
  (** all pairs below a node, in order *)
  Fixpoint elems (h : nat) : node h -> list P :=
    match h return node h -> list P with
    | 0 => fun t => t
    | S h' => fun t => elems h' (kid0 t) ++ flat_map (fun pc => fst pc :: elems h' (snd pc)) (kids t)
    end.
  (** the number of pairs in the node itself: [len] *)
  Definition width (h : nat) : node h -> nat :=
    match h return node h -> nat with
    | 0 => fun t => length t
    | S h' => fun t => length (kids t)
    end.

  (** *** A place among the children: the children before with the pairs after them, nearest first; the child; what is after it *)
  Fixpoint plug {C : Type} (ls : list (C * P)) (c : C) (r : list (P * C)) : C * list (P * C) :=
    match ls with
    | [] => (c, r)
    | (b, p) :: ls' => plug ls' b ((p, c) :: r)
    end.
  (** [search_node]: along the keys of the node until one is not below [k]; found, or the child to go down to *)
  Fixpoint seek {C : Type} (k : K) (ls : list (C * P)) (c : C) (r : list (P * C)) : list (C * P) * C * list (P * C) * bool :=
    match r with
    | [] => (ls, c, [], false)
    | (p, d) :: r' =>
        match cmp k (fst p) with
        | Gt => seek k ((c, p) :: ls) d r'
        | Eq => (ls, c, r, true)
        | Lt => (ls, c, r, false)
        end
    end.
  (** the last child of a node *)
  Fixpoint to_last {C : Type} (ls : list (C * P)) (c : C) (r : list (P * C)) : list (C * P) * C :=
    match r with
    | [] => (ls, c)
    | (p, d) :: r' => to_last ((c, p) :: ls) d r'
    end.

  (** *** Lookup and writes: [search_tree], [get_key_value], [get_mut] *)
  Fixpoint n_get (h : nat) (k : K) : node h -> option P :=
    match h return node h -> option P with
    | 0 => fun t => map_get cmp t k
    | S h' => fun t =>
        match seek k [] (kid0 t) (kids t) with
        | (_, _, (p, _) :: _, true) => Some p
        | (_, c, _, _) => n_get h' k c
        end
    end.
  (** the write to the value of a key that is there *)
  Fixpoint n_put (h : nat) (k : K) (v : V) : node h -> node h :=
    match h return node h -> node h with
    | 0 => fun t => map_put cmp t k v
    | S h' => fun t =>
        match seek k [] (kid0 t) (kids t) with
        | (ls, c, (p, d) :: r, true) => plug ls c (((fst p, v), d) :: r)
        | (ls, c, r, _) => plug ls (n_put h' k v c) r
        end
    end.
  Fixpoint n_first (h : nat) : node h -> option P :=
    match h return node h -> option P with
    | 0 => fun t => hd_error t
    | S h' => fun t => n_first h' (kid0 t)
    end.
  Fixpoint n_last (h : nat) : node h -> option P :=
    match h return node h -> option P with
    | 0 => fun t => map_last t
    | S h' => fun t => n_last h' (snd (to_last [] (kid0 t) (kids t)))
    end.
  (** the first pair that [f] holds of, if [f] holds from some pair on; the last, if it holds up to some pair: one way down *)
  Fixpoint along {C : Type} (f : P -> bool) (down : C -> option P) (c : C) (r : list (P * C)) : option P :=
    match r with
    | [] => down c
    | (p, d) :: r' => if f p then match down c with Some q => Some q | None => Some p end else along f down d r'
    end.
  Fixpoint n_lower (h : nat) (f : P -> bool) : node h -> option P :=
    match h return node h -> option P with
    | 0 => fun t => find f t
    | S h' => fun t => along f (n_lower h' f) (kid0 t) (kids t)
    end.
  Fixpoint along_back {C : Type} (f : P -> bool) (down : C -> option P) (before : option P) (c : C) (r : list (P * C)) : option P :=
    match r with
    | (p, d) :: r' => if f p then along_back f down (Some p) d r' else match down c with Some q => Some q | None => before end
    | [] => match down c with Some q => Some q | None => before end
    end.
  Fixpoint n_upper (h : nat) (f : P -> bool) : node h -> option P :=
    match h return node h -> option P with
    | 0 => fun t => map_last (filter f t)
    | S h' => fun t => along_back f (n_upper h' f) None (kid0 t) (kids t)
    end.

  (** *** Insertion: [insert_recursing], [splitpoint] *)
  Inductive Grown (T : Type) : Type := Fit (t : T) | Split (t : T) (p : P) (u : T).
  Arguments Fit {T}.
  Arguments Split {T}.
  (** A node of [CAP] pairs that gets one more in at [e]: so many pairs stay left.  (Before the new pair goes in, the node is split at 4 for
      [e < 5], at 5 for [e = 5] and [e = 6], and at 6 for [e > 6]; the new pair goes left in the first two cases, right in the others.) *)
  Definition splitpoint (e : nat) : nat := if (e <? 5) || (e =? 6) then 5 else 6.
  Definition grow0 (e : nat) (t : node 0) : Grown (node 0) :=
    if length t <=? CAP then Fit t
    else match skipn (splitpoint e) t with
         | p :: r => Split (firstn (splitpoint e) t) p r
         | [] => Fit t
         end.
  Definition grow {C : Type} (e : nat) (t : C * list (P * C)) : Grown (C * list (P * C)) :=
    if length (snd t) <=? CAP then Fit t
    else match skipn (splitpoint e) (snd t) with
         | (p, d) :: r => Split (fst t, firstn (splitpoint e) (snd t)) p (d, r)
         | [] => Fit t
         end.
  Fixpoint n_insert (h : nat) (k : K) (v : V) : node h -> Grown (node h) :=
    match h return node h -> Grown (node h) with
    | 0 => fun t => grow0 (length (below cmp k t)) (map_insert cmp t k v)
    | S h' => fun t =>
        match seek k [] (kid0 t) (kids t) with
        | (ls, c, (p, d) :: r, true) => Fit (plug ls c (((fst p, v), d) :: r) : node (S h'))
        | (ls, c, r, _) =>
            match n_insert h' k v c with
            | Fit c' => Fit (plug ls c' r : node (S h'))
            | Split a q b => grow (C := node h') (length ls) (plug ls a ((q, b) :: r))
            end
        end
    end.

  (** *** Removal: [remove_leaf_kv], [remove_internal_kv], [fix_node_through_parent] *)
  (** [do_merge]: two neighbours and the pair between them *)
  Definition merge (h : nat) : node h -> P -> node h -> node h :=
    match h return node h -> P -> node h -> node h with
    | 0 => fun b p c => b ++ p :: c
    | S h' => fun b p c => (kid0 b, kids b ++ (p, kid0 c) :: kids c)
    end.
  (** [bulk_steal_left(1)]: the last pair of the left node goes up, the pair between them goes down in front of the right node *)
  Definition steal_left (h : nat) : node h -> P -> node h -> node h * P * node h :=
    match h return node h -> P -> node h -> node h * P * node h with
    | 0 => fun b p c => match map_last b with Some q => (map_init b, q, p :: c) | None => (b, p, c) end
    | S h' => fun b p c =>
        match last_error (kids b) with
        | Some (q, d) => ((kid0 b, removelast (kids b)), q, (d, (p, kid0 c) :: kids c))
        | None => (b, p, c)
        end
    end.
  (** [bulk_steal_right(1)] *)
  Definition steal_right (h : nat) : node h -> P -> node h -> node h * P * node h :=
    match h return node h -> P -> node h -> node h * P * node h with
    | 0 => fun c p d => match d with q :: d' => (c ++ [p], q, d') | [] => (c, p, d) end
    | S h' => fun c p d =>
        match kids d with
        | (q, d1) :: dl => ((kid0 c, kids c ++ [(p, kid0 d)]), q, (d1, dl))
        | [] => (c, p, d)
        end
    end.
  (** [fix_node_through_parent]: a child that ran under, put right with its left neighbour, or the right one if it is the first *)
  Definition mend (h : nat) (ls : list (node h * P)) (c : node h) (r : list (P * node h)) : node (S h) :=
    if width h c <? MINL then
      match ls, r with
      | (b, p) :: ls', _ =>
          if width h b + 1 + width h c <=? CAP then plug ls' (merge h b p c) r
          else let '(b', q, c') := steal_left h b p c in plug ls' b' ((q, c') :: r)
      | [], (p, d) :: r' =>
          if width h c + 1 + width h d <=? CAP then (merge h c p d, r')
          else let '(c', q, d') := steal_right h c p d in (c', (q, d') :: r')
      | [], [] => (c, [])
      end
    else plug ls c r.
  (** the last pair out of the last leaf *)
  Fixpoint n_pop_last (h : nat) : node h -> option (node h * P) :=
    match h return node h -> option (node h * P) with
    | 0 => fun t => match map_last t with Some q => Some (map_init t, q) | None => None end
    | S h' => fun t =>
        let (ls, c) := to_last [] (kid0 t) (kids t) in
        match n_pop_last h' c with
        | Some (c', q) => Some (mend h' ls c' [], q)
        | None => None
        end
    end.
  Fixpoint n_pop_first (h : nat) : node h -> option (node h * P) :=
    match h return node h -> option (node h * P) with
    | 0 => fun t => match t with q :: t' => Some (t', q) | [] => None end
    | S h' => fun t =>
        match n_pop_first h' (kid0 t) with
        | Some (c', q) => Some (mend h' [] c' (kids t), q)
        | None => None
        end
    end.
  Fixpoint n_remove (h : nat) (k : K) : node h -> node h :=
    match h return node h -> node h with
    | 0 => fun t => map_del cmp t k
    | S h' => fun t =>
        match seek k [] (kid0 t) (kids t) with
        | (ls, c, (p, d) :: r, true) =>
            match n_pop_last h' c with
            | Some (c', q) => mend h' ls c' ((q, d) :: r)
            | None => t
            end
        | (ls, c, r, _) => mend h' ls (n_remove h' k c) r
        end
    end.

  (** *** The map: a root, its height and the number of pairs *)
  Record NMap : Type := NMK { nm_height : nat; nm_root : node nm_height; nm_length : N }.
  (** [pop_internal_level]: a root without pairs gives way to its child *)
  Definition lower_root (h : nat) : node h -> N -> NMap :=
    match h return node h -> N -> NMap with
    | 0 => fun t n => NMK 0 t n
    | S h' => fun t n => match kids t with [] => NMK h' (kid0 t) n | _ :: _ => NMK (S h') t n end
    end.
  Definition nm_get (m : NMap) (k : K) : option P := n_get _ k (nm_root m).
  (** [VacantEntry::insert], [OccupiedEntry::insert]: a key that is there keeps the length; a root that was split gets a new one above it *)
  Definition nm_insert (m : NMap) (k : K) (v : V) : NMap :=
    let n := match nm_get m k with Some _ => nm_length m | None => (nm_length m + 1)%N end in
    match n_insert _ k v (nm_root m) with
    | Fit t => NMK _ t n
    | Split t p u => NMK (S (nm_height m)) ((t, [(p, u)]) : node (S (nm_height m))) n
    end.
  Definition nm_put (m : NMap) (k : K) (v : V) : NMap := NMK _ (n_put _ k v (nm_root m)) (nm_length m).
  Definition nm_ref (m : NMap) (o : option P) : option (P * (V -> NMap)) :=
    match o with Some p => Some (p, nm_put m (fst p)) | None => None end.
  Definition nm_remove (m : NMap) (k : K) : NMap := lower_root _ (n_remove _ k (nm_root m)) (nm_length m - 1).
  Definition nm_popped (m : NMap) (o : option (node (nm_height m) * P)) : NMap * option P :=
    match o with Some (t, q) => (lower_root _ t (nm_length m - 1), Some q) | None => (m, None) end.
  Definition nm_range_first (m : NMap) (lo hi : Bound K) : option P :=
    match n_lower _ (fun p => after cmp lo (fst p)) (nm_root m) with Some p => if before cmp hi (fst p) then Some p else None | None => None end.
  Definition nm_range_last (m : NMap) (lo hi : Bound K) : option P :=
    match n_upper _ (fun p => before cmp hi (fst p)) (nm_root m) with Some p => if after cmp lo (fst p) then Some p else None | None => None end.
  Definition Node_map : MapOps K V :=
    {| mty := NMap;
       m_new := NMK 0 ([] : node 0) 0;
       m_insert := nm_insert;
       m_len := nm_length;
       m_is_empty := fun m => (nm_length m =? 0)%N;
       m_into_first := fun m => n_first _ (nm_root m);
       m_first := fun m => n_first _ (nm_root m);
       m_last := fun m => n_last _ (nm_root m);
       m_first_mut := fun m => nm_ref m (n_first _ (nm_root m));
       m_last_mut := fun m => nm_ref m (n_last _ (nm_root m));
       m_get_key_value := nm_get;
       m_get_mut := fun m k => match nm_get m k with Some p => Some (snd p, nm_put m k) | None => None end;
       m_range_first := nm_range_first;
       m_range_last := nm_range_last;
       m_range_first_mut := fun m lo hi => nm_ref m (nm_range_first m lo hi);
       m_range_last_mut := fun m lo hi => nm_ref m (nm_range_last m lo hi);
       m_remove_entry := fun m k => match nm_get m k with Some p => (nm_remove m k, Some p) | None => (m, None) end;
       m_pop_first := fun m => nm_popped m (n_pop_first _ (nm_root m));
       m_pop_last := fun m => nm_popped m (n_pop_last _ (nm_root m)) |}.

  (** *** The keys that a lookup compares with the one it looks for, counted *)
  Fixpoint leaf_getc (k : K) (t : list P) : option P * nat :=
    match t with
    | [] => (None, 0)
    | p :: t' =>
        match cmp k (fst p) with
        | Lt => (None, 1)
        | Eq => (Some p, 1)
        | Gt => let (o, n) := leaf_getc k t' in (o, S n)
        end
    end.
  Fixpoint along_getc {C : Type} (k : K) (down : C -> option P * nat) (c : C) (r : list (P * C)) : option P * nat :=
    match r with
    | [] => down c
    | (p, d) :: r' =>
        match cmp k (fst p) with
        | Lt => let (o, n) := down c in (o, S n)
        | Eq => (Some p, 1)
        | Gt => let (o, n) := along_getc k down d r' in (o, S n)
        end
    end.
  Fixpoint n_getc (h : nat) (k : K) : node h -> option P * nat :=
    match h return node h -> option P * nat with
    | 0 => leaf_getc k
    | S h' => fun t => along_getc k (n_getc h' k) (kid0 t) (kids t)
    end.

  (** ... and which they are, in order *)
  Fixpoint leaf_keys (k : K) (t : list P) : list K :=
    match t with
    | [] => []
    | p :: t' => fst p :: match cmp k (fst p) with Gt => leaf_keys k t' | _ => [] end
    end.
  Fixpoint along_keys {C : Type} (k : K) (down : C -> list K) (c : C) (r : list (P * C)) : list K :=
    match r with
    | [] => down c
    | (p, d) :: r' => fst p :: match cmp k (fst p) with Lt => down c | Eq => [] | Gt => along_keys k down d r' end
    end.
  Fixpoint n_keys (h : nat) (k : K) : node h -> list K :=
    match h return node h -> list K with
    | 0 => leaf_keys k
    | S h' => fun t => along_keys k (n_keys h' k) (kid0 t) (kids t)
    end.

  (** *** The shape (specification): at most eleven pairs in each node, [lo] at least in this one and five in those below *)
  Fixpoint shaped (lo h : nat) : node h -> Prop :=
    match h return node h -> Prop with
    | 0 => fun t => lo <= length t <= 11
    | S h' => fun t => lo <= length (kids t) <= 11 /\ shaped 5 h' (kid0 t) /\ Forall (fun pc => shaped 5 h' (snd pc)) (kids t)
    end.
  (** the root: a leaf, or an inner node with a pair at least *)
  Definition well_shaped (m : NMap) : Prop := shaped (match nm_height m with 0 => 0 | S _ => 1 end) _ (nm_root m).
End Tree.
Arguments Fit {K V T}.
Arguments Split {K V T}.
Arguments Node_map {K} V cmp.
Arguments NMK {K V}.
Arguments nm_height {K V}.
Arguments nm_root {K V}.
Arguments nm_length {K V}.
