(** What a panic that is caught leaves of a tree.

    The methods that remove take the tree by value: a panic in one of them drops the tree.  The queries through [&mut self] change nothing
    themselves.  That leaves [insert], which changes the tree behind [&mut self] while it calls code of the key type, of the
    collections and of the inner trees ([cmp], [split_val], [join], [index], [hash], [clone] ...).  If such a call panics and a caller
    catches the panic, the tree is left as it is in memory at that moment.  The iterator (iter.rs) calls such code as well. *)
From Verif Require Import Base Ints Ops Spec Hist ByteSet ByteMap BTree Coll Boxed SizedT Tree Types Laws Iter.

(** A computation, and the state of [*self] at every call of foreign code in it *)
Definition watched (St A : Type) : Type := list St * res A.
Definition wret {St A} (a : A) : watched St A := ([], Ret a).
(** foreign code [r] runs while [*self] is [s] *)
Definition wcall {St A} (s : St) (r : res A) : watched St A := ([s], r).
Definition wbind {St A A'} (m : watched St A) (f : A -> watched St A') : watched St A' :=
  match snd m with
  | Ret a => (fst m ++ fst (f a), snd (f a))
  | Panic => (fst m, Panic)
  end.
Notation "x <~ m ;; f" := (wbind m (fun x => f)) (at level 61, m at next level, right associativity).
Notation "' p <~ m ;; f" := (wbind m (fun p => f)) (at level 61, p pattern, m at next level, right associativity).

(** [Tree::insert] (tree.rs 503-562) statement by statement *)
Section Watch.
  Context {B : Build} (fixed : bool) {K Hi Lo V : Type} (ko : KeyOps K Hi Lo)
          (S : VebOps Hi unit) (Tr : VebOps Lo V) (C : CollOps Hi Lo V Tr).
  Notation Tree := (Tree (K := K) S Tr C).
  Notation cmp := (k_cmp ko).

  (** tree.rs 544-561.  The key to push is out of the tree; [children.take()] (545) takes the children out as well until 554. *)
  Definition w_push (mn mx : K * V) (och : option (vt S * ct C)) (k : K) (v : V) : watched Tree (Tree * option (K * V)) :=
    ' (hi, lo) <~ wcall (TR mn (Some (TD mx och))) (Ret (k_split_val ko k)) ;;             (* 544 *)
    let self := TR mn (Some (TD mx None)) in
    match och with
    | Some (summary, children) =>
        ' (children', r) <~ wcall self (c_insert_key C children hi (lo, v)) ;;             (* 546 *)
        match r with
        | Ok hi' =>
            ' (summary', _) <~ wcall self (v_insert S summary hi' tt) ;;                   (* 548 *)
            wret (TR mn (Some (TD mx (Some (summary', children')))), None)
        | Err (_, None) => wret (TR mn (Some (TD mx (Some (summary, children')))), None)
        | Err (hi', Some (lo', v')) =>
            k' <~ wcall self (Ret (k_join ko hi' lo')) ;;                                  (* 552 *)
            wret (TR mn (Some (TD mx (Some (summary, children')))), Some (k', v'))
        end
    | None =>
        children <~ wcall self (c_create C hi (v_from_monad Tr lo v)) ;;                   (* 557 *)
        summary <~ wcall self (Ret (v_from_monad S hi tt)) ;;                              (* 558 *)
        wret (TR mn (Some (TD mx (Some (summary, children)))), None)
    end.

  Definition w_insert (t : Tree) (k : K) (v : V) : watched Tree (Tree * option (K * V)) :=
    c <~ wcall t (Ret (cmp k (fst (t_min t)))) ;;                                          (* 505 *)
    match c, t_data t with
    | Eq, od => wret (TR (k, v) od, Some (t_min t))                                        (* 506 *)
    | Lt, None => wret (TR (k, v) (Some (TD (t_min t) None)), None)                        (* 508-515 *)
    | Gt, None => wret (TR (t_min t) (Some (TD (k, v) None)), None)                        (* 516-523 *)
    | Lt, Some d =>
        let '(k1, v1) := t_min t in                                                        (* 525: the new pair is the minimum *)
        c' <~ wcall (TR (k, v) (Some d)) (Ret (cmp (fst (d_max d)) k1)) ;;                 (* 526 *)
        match c' with
        | Eq => wret (TR (k, v) (Some (TD (k1, v1) (d_children d))), Some (d_max d))       (* 527 *)
        | Gt =>
            if fixed
            then w_push (k, v) (d_max d) (d_children d) k1 v1
            else w_push (k, v) (k1, v1) (d_children d) (fst (d_max d)) (snd (d_max d))     (* 528 *)
        | Lt => w_push (k, v) (d_max d) (d_children d) k1 v1                               (* 529 *)
        end
    | Gt, Some d =>
        c' <~ wcall t (Ret (cmp k (fst (d_max d)))) ;;                                     (* 534 *)
        match c' with
        | Eq => wret (TR (t_min t) (Some (TD (k, v) (d_children d))), Some (d_max d))      (* 535 *)
        | Gt => w_push (t_min t) (k, v) (d_children d) (fst (d_max d)) (snd (d_max d))     (* 536-539 *)
        | Lt => w_push (t_min t) (d_max d) (d_children d) k v                              (* 540 *)
        end
    end.
End Watch.

(** The iterator step by step: iter.rs 42-107 ([back = false]) and 129-194 ([back = true]).  [self.data.take()] (44, 131) comes first, so all
    that the tree and the key type do ([successor], [predecessor], [min_val], [max_val], the [==] and [clone] of keys) happens with no data in
    [*self]; [self.emitted += 1] (105, 192) comes last and is not foreign code. *)
Section WatchIter.
  Context {B : Build} {K V : Type} (O : VebOps K V) (keq : K -> K -> bool) (t : vt O).
  (** the key is cloned (48, 56, 75, 92; 135, 143, 163, 180) before [self.data] is set again *)
  Definition w_emit (it : Iter K) (d : IterData K) (p : K * V) : watched (Iter K) (Iter K * option (K * V)) :=
    _ <~ wcall (IT None (it_emitted it)) (Ret tt) ;; ([], emit it d p).
  Definition w_step (back : bool) (it : Iter K) : watched (Iter K) (Iter K * option (K * V)) :=
    let self := IT None (it_emitted it) in
    let first := if back then v_max_val O t else v_min_val O t in                          (* 46, 69; 133, 156 *)
    let on k := if back then v_predecessor O t k else v_successor O t k in                 (* 54, 86; 141, 173 *)
    let one k := if back then Back k else Front k in
    let both f b := if back then Both b f else Both f b in
    (* [k]: the new key; [end_]: the last key from the other side (70, 87; 157, 174) *)
    let unless_met k end_ p :=
      e <~ wcall self (Ret (if back then keq end_ k else keq k end_)) ;;
      if e then ([], stop it) else w_emit it (both k end_) p in
    match it_data it with
    | None => ([], stop it)                                                                (* 44; 131 *)
    | Some Start => p <~ wcall self first ;; w_emit it (one (fst p)) p
    | Some (Front k) =>
        if back then p <~ wcall self first ;; unless_met (fst p) k p
        else o <~ wcall self (on k) ;; match o with Some p => w_emit it (one (fst p)) p | None => ([], stop it) end
    | Some (Back k) =>
        if back then o <~ wcall self (on k) ;; match o with Some p => w_emit it (one (fst p)) p | None => ([], stop it) end
        else p <~ wcall self first ;; unless_met (fst p) k p
    | Some (Both f b) =>
        o <~ wcall self (on (if back then b else f)) ;;
        match o with
        | Some p => unless_met (fst p) (if back then f else b) p
        | None => ([self], _ <- debug_assert false ;; stop it)                             (* 99; 186 *)
        end
    end.
End WatchIter.

(** The states an insertion of [(k, v)] into [t] can leave behind when it panics.  Bytes are compared without foreign code; a [BTreeMap]
    (external, by contract) searches before it changes anything; [Box] (lib.rs 408-410) and [SizedVebTree] (lib.rs 275-281, the size is
    adjusted last) pass on what happens inside. *)
Fixpoint unwound {B : Build} {fixed K V cmp O} (T : VebType fixed K V cmp O) : vt O -> K -> V -> list (vt O) :=
  match T in VebType _ K V cmp O return vt O -> K -> V -> list (vt O) with
  | VT_ByteSet _ => fun _ _ _ => []
  | VT_ByteMap _ _ => fun _ _ _ => []
  | VT_BTree _ _ _ _ _ => fun t _ _ => [t]
  | VT_Tree _ _ _ _ _ ko _ St Tr C _ _ _ => fun t k v => fst (w_insert fixed ko St Tr C t k v)
  | VT_Box _ _ _ _ _ T' => fun t k v => map mkbox (unwound T' (unbox t) k v)
  | VT_Sized _ _ _ _ _ T' => fun t k v => map (fun t' => SZ t' (sz_size t)) (unwound T' (sz_tree t) k v)
  end.
(** No [SizedVebTree] around the whole *)
Fixpoint uncounted {B : Build} {fixed K V cmp O} (T : VebType fixed K V cmp O) : bool :=
  match T with
  | VT_Sized _ _ _ _ _ _ => false
  | VT_Box _ _ _ _ _ T' => uncounted T'
  | _ => true
  end.

(** Trees reached by calls that return and insertions that panic and are caught, in any order *)
Inductive survives {B : Build} {fixed K V cmp O} (T : VebType fixed K V cmp O) : vt O -> Prop :=
| sv_new k v : survives T (v_from_monad O k v)
| sv_call t c t' o : survives T t -> (forall k v, c = Insert k v -> exists d, contents O t d /\ (N.of_nat (length d) < usize_max)%N) ->
    step O c (Some t) = Ret (Some t', o) -> survives T t'
| sv_caught t k v t' : survives T t -> In t' (unwound T t k v) -> survives T t'.
(** The same with insertions allowed by [adm] only, and the sorted list the tree stands for: after a caught panic, the list of what it holds *)
Inductive orderly {B : Build} {fixed K V cmp O} (T : VebType fixed K V cmp O) (adm : list (K * V) -> K -> Prop) : vt O -> list (K * V) -> Prop :=
| or_new k v : orderly T adm (v_from_monad O k v) [(k, v)]
| or_call t l c t' o : orderly T adm t l -> (forall k v, c = Insert k v -> adm l k /\ (N.of_nat (length l) < usize_max)%N) ->
    step O c (Some t) = Ret (Some t', o) -> orderly T adm t' (fst (sp_step cmp c l))
| or_caught t l k v t' l' : orderly T adm t l -> adm l k -> In t' (unwound T t k v) -> contents O t' l' -> orderly T adm t' l'.

(** Specification, stated on sorted lists only: the pairs an insertion of [p] into a tree with the pairs [l] can leave when a panic is caught *)
Definition remnant {K V} (cmp : K -> K -> comparison) (l : list (K * V)) (p : K * V) (d : list (K * V)) : Prop :=
  d = l \/ exists mn mid mx, l = mn :: mid ++ [mx] /\
    match cmp (fst p) (fst mn), cmp (fst p) (fst mx) with
    | Lt, _ => d = p :: mid ++ [mx] \/ d = [p; mx]
    | Gt, Lt => d = [mn; mx]
    | Gt, Gt => d = mn :: mid ++ [p] \/ d = [mn; p]
    | _, _ => False
    end.
