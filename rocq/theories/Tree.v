(** Model of src/tree.rs *)
From Verif Require Import Base Ops.

Section Tree.
  (** [fixed = false] is the code in /repo.  [fixed = true] is the same code with one arm of
      [Tree::insert] put right (tree.rs 528); it is used only by the theorems that say so. *)
  Context {B : Build} (fixed : bool).
  Context {K Hi Lo V : Type} (ko : KeyOps K Hi Lo)
          (S : VebOps Hi unit) (Tr : VebOps Lo V) (C : CollOps Hi Lo V Tr).
  Let cmp := k_cmp ko.
  Let split_val := k_split_val ko.
  Let split_ref := k_split_ref ko.
  Let join := k_join ko.

  (** tree.rs 39-47 *)
  Record TreeData : Type := TD { d_max : K * V; d_children : option (vt S * ct C) }.
  (** tree.rs 29-37 *)
  Record Tree : Type := TR { t_min : K * V; t_data : option TreeData }.

  Definition tr_from_monad (k : K) (v : V) : Tree := TR (k, v) None.       (* tree.rs 90-95 *)
  Definition tr_is_monad (t : Tree) : res bool :=                          (* tree.rs 107-109 *)
    Ret (match t_data t with None => true | Some _ => false end).
  Definition tr_into_monad (t : Tree) : res (result (K * V) Tree) :=       (* tree.rs 98-104 *)
    m <- tr_is_monad t ;;
    if m then Ret (Ok (t_min t)) else Ret (Err t).
  Definition tr_min_val (t : Tree) : res (K * V) := Ret (t_min t).         (* tree.rs 112-114 *)

  (** Writes into [self.min.1], [data.max.1] and into a child *)
  Definition put_min (t : Tree) (v : V) : Tree := TR (fst (t_min t), v) (t_data t).
  Definition put_max (t : Tree) (d : TreeData) (v : V) : Tree :=
    TR (t_min t) (Some (TD (fst (d_max d), v) (d_children d))).
  Definition put_child (t : Tree) (d : TreeData) (s : vt S) (put : vt Tr -> ct C)
    (putv : V -> vt Tr) (v : V) : Tree :=
    TR (t_min t) (Some (TD (d_max d) (Some (s, put (putv v))))).

  Definition min_mut (t : Tree) : K * V * (V -> Tree) := (t_min t, put_min t).
  Definition max_mut (t : Tree) (d : TreeData) : K * V * (V -> Tree) := (d_max d, put_max t d).

  Definition tr_min_val_mut (t : Tree) : res (K * V * (V -> Tree)) := Ret (min_mut t).  (* tree.rs 117-119 *)
  Definition tr_max_val (t : Tree) : res (K * V) :=                        (* tree.rs 122-129 *)
    Ret (match t_data t with Some d => d_max d | None => t_min t end).
  Definition tr_max_val_mut (t : Tree) : res (K * V * (V -> Tree)) :=      (* tree.rs 132-139 *)
    Ret (match t_data t with Some d => max_mut t d | None => min_mut t end).

  Definition tr_find (t : Tree) (k : K) : res (option (K * V)) :=          (* tree.rs 142-169 *)
    match cmp k (fst (t_min t)) with
    | Lt => Ret None
    | Eq => Ret (Some (t_min t))
    | Gt =>
        match t_data t with
        | None => Ret None
        | Some d =>
            if eqb cmp k (fst (d_max d)) then Ret (Some (d_max d))
            else
              match d_children d with
              | None => Ret None
              | Some (_, children) =>
                  let (hi, lo) := split_ref k in
                  oc <- c_get C children hi ;;
                  match oc with
                  | None => Ret None
                  | Some child =>
                      o <- v_find Tr child lo ;;
                      match o with
                      | None => Ret None
                      | Some (lo', val) => Ret (Some (join hi lo', val))
                      end
                  end
              end
        end
    end.

  Definition tr_find_mut (t : Tree) (k : K) : res (option (K * V * (V -> Tree))) :=  (* tree.rs 172-199 *)
    match cmp k (fst (t_min t)) with
    | Lt => Ret None
    | Eq => Ret (Some (min_mut t))
    | Gt =>
        match t_data t with
        | None => Ret None
        | Some d =>
            if eqb cmp k (fst (d_max d)) then Ret (Some (max_mut t d))
            else
              match d_children d with
              | None => Ret None
              | Some (s, children) =>
                  let (hi, lo) := split_ref k in
                  oc <- c_get_mut C children hi ;;
                  match oc with
                  | None => Ret None
                  | Some (child, put) =>
                      o <- v_find_mut Tr child lo ;;
                      match o with
                      | None => Ret None
                      | Some (lo', val, putv) =>
                          Ret (Some (join hi lo', val, put_child t d s put putv))
                      end
                  end
              end
        end
    end.

  (** [children.get(&hi).expect(..)] followed by an extreme of that child
      (tree.rs 223-229, 245-249, 370-376, 390-394) *)
  Definition child_end (children : ct C) (hi : Hi) (ext : vt Tr -> res (Lo * V)) :
    res (option (K * V)) :=
    oc <- c_get C children hi ;;
    child <- expect oc ;;
    ' (lo, val) <- ext child ;;
    Ret (Some (join hi lo, val)).
  (** the same through [get_mut] (tree.rs 282-288, 341-343, 420-426, 490-494) *)
  Definition child_end_mut (t : Tree) (d : TreeData) (s : vt S) (children : ct C) (hi : Hi)
    (ext : vt Tr -> res (Lo * V * (V -> vt Tr))) : res (option (K * V * (V -> Tree))) :=
    oc <- c_get_mut C children hi ;;
    ' (child, put) <- expect oc ;;
    ' (lo, val, putv) <- ext child ;;
    Ret (Some (join hi lo, val, put_child t d s put putv)).

  Definition tr_predecessor (t : Tree) (k : K) : res (option (K * V)) :=   (* tree.rs 202-255 *)
    if leb cmp k (fst (t_min t)) then Ret None
    else
      match t_data t with
      | None => Ret (Some (t_min t))
      | Some d =>
          match cmp k (fst (d_max d)), d_children d with
          | Gt, _ => Ret (Some (d_max d))
          | _, None => Ret (Some (t_min t))
          | Eq, Some (summary, children) =>
              ' (hi, _) <- v_max_val S summary ;;
              child_end children hi (v_max_val Tr)
          | Lt, Some (summary, children) =>
              let (hi, lo) := split_ref k in
              oc <- c_get C children hi ;;
              o <- (match oc with Some child => v_predecessor Tr child lo | None => Ret None end) ;;
              match o with
              | Some (lo', val) => Ret (Some (join hi lo', val))
              | None =>
                  oh <- v_predecessor S summary hi ;;
                  match oh with
                  | Some (hi', _) => child_end children hi' (v_max_val Tr)
                  | None => Ret (Some (t_min t))
                  end
              end
          end
      end.

  Definition tr_predecessor_mut (t : Tree) (k : K) : res (option (K * V * (V -> Tree))) :=  (* tree.rs 258-349 *)
    if leb cmp k (fst (t_min t)) then Ret None
    else
      match t_data t with
      | None => Ret (Some (min_mut t))
      | Some d =>
          match cmp k (fst (d_max d)), d_children d with
          | Gt, _ => Ret (Some (max_mut t d))
          | _, None => Ret (Some (min_mut t))
          | Eq, Some (summary, children) =>
              _ <- debug_assert (ltb cmp (fst (t_min t)) k) ;;
              ' (hi, _) <- v_max_val S summary ;;
              child_end_mut t d summary children hi (v_max_val_mut Tr)
          | Lt, Some (summary, children) =>
              let (hi, lo) := split_ref k in
              oc <- c_get_mut C children hi ;;
              o <- (match oc with
                    | Some (child, put) =>
                        o' <- v_predecessor_mut Tr child lo ;;
                        Ret (match o' with Some x => Some (x, put) | None => None end)
                    | None => Ret None
                    end) ;;
              match o with
              | Some (lo', val, putv, put) =>
                  Ret (Some (join hi lo', val, put_child t d summary put putv))
              | None =>
                  oh <- v_predecessor S summary hi ;;
                  match oh with
                  | Some (hi', _) => child_end_mut t d summary children hi' (v_max_val_mut Tr)
                  | None => Ret (Some (min_mut t))
                  end
              end
          end
      end.

  Definition tr_successor (t : Tree) (k : K) : res (option (K * V)) :=     (* tree.rs 352-400 *)
    if ltb cmp k (fst (t_min t)) then Ret (Some (t_min t))
    else
      match t_data t with
      | None => Ret None
      | Some d =>
          if leb cmp (fst (d_max d)) k then Ret None
          else
            match d_children d with
            | None => Ret (Some (d_max d))
            | Some (summary, children) =>
                if eqb cmp k (fst (t_min t)) then
                  ' (hi, _) <- v_min_val S summary ;;
                  child_end children hi (v_min_val Tr)
                else
                  let (hi, lo) := split_ref k in
                  oc <- c_get C children hi ;;
                  o <- (match oc with Some child => v_successor Tr child lo | None => Ret None end) ;;
                  match o with
                  | Some (lo', val) => Ret (Some (join hi lo', val))
                  | None =>
                      oh <- v_successor S summary hi ;;
                      match oh with
                      | Some (hi', _) => child_end children hi' (v_min_val Tr)
                      | None => Ret (Some (d_max d))
                      end
                  end
            end
      end.

  Definition tr_successor_mut (t : Tree) (k : K) : res (option (K * V * (V -> Tree))) :=  (* tree.rs 403-500 *)
    if ltb cmp k (fst (t_min t)) then Ret (Some (min_mut t))
    else
      match t_data t with
      | None => Ret None
      | Some d =>
          if leb cmp (fst (d_max d)) k then Ret None
          else
            match d_children d with
            | None => Ret (Some (max_mut t d))
            | Some (summary, children) =>
                if eqb cmp k (fst (t_min t)) then
                  ' (hi, _) <- v_min_val S summary ;;
                  child_end_mut t d summary children hi (v_min_val_mut Tr)
                else
                  let (hi, lo) := split_ref k in
                  oc <- c_get_mut C children hi ;;
                  o <- (match oc with
                        | Some (child, put) =>
                            o' <- v_successor_mut Tr child lo ;;
                            Ret (match o' with Some x => Some (x, put) | None => None end)
                        | None => Ret None
                        end) ;;
                  match o with
                  | Some (lo', val, putv, put) =>
                      Ret (Some (join hi lo', val, put_child t d summary put putv))
                  | None =>
                      oh <- v_successor S summary hi ;;
                      match oh with
                      | Some (hi', _) => child_end_mut t d summary children hi' (v_min_val_mut Tr)
                      | None => Ret (Some (max_mut t d))
                      end
                  end
            end
      end.

  (** The second half of insert: push [(k, v)] into the children (tree.rs 544-561).
      [mn] is the tree's (new) minimum, [mx] its (new) maximum. *)
  Definition tr_push (mn mx : K * V) (och : option (vt S * ct C)) (k : K) (v : V) :
    res (Tree * option (K * V)) :=
    let (hi, lo) := split_val k in
    match och with
    | Some (summary, children) =>
        ' (children', r) <- c_insert_key C children hi (lo, v) ;;
        match r with
        | Ok hi' =>
            ' (summary', _) <- v_insert S summary hi' tt ;;
            Ret (TR mn (Some (TD mx (Some (summary', children')))), None)
        | Err (_, None) =>
            Ret (TR mn (Some (TD mx (Some (summary, children')))), None)
        | Err (hi', Some (lo', v')) =>
            Ret (TR mn (Some (TD mx (Some (summary, children')))), Some (join hi' lo', v'))
        end
    | None =>
        children <- c_create C hi (v_from_monad Tr lo v) ;;
        let summary := v_from_monad S hi tt in
        Ret (TR mn (Some (TD mx (Some (summary, children)))), None)
    end.

  Definition tr_insert (t : Tree) (k : K) (v : V) : res (Tree * option (K * V)) :=  (* tree.rs 503-562 *)
    match cmp k (fst (t_min t)), t_data t with
    | Eq, od => Ret (TR (k, v) od, Some (t_min t))
    | Lt, None => Ret (TR (k, v) (Some (TD (t_min t) None)), None)
    | Gt, None => Ret (TR (t_min t) (Some (TD (k, v) None)), None)
    | Lt, Some d =>
        let '(k1, v1) := t_min t in
        match cmp (fst (d_max d)) k1 with
        | Eq => Ret (TR (k, v) (Some (TD (k1, v1) (d_children d))), Some (d_max d))
        | Gt =>
            if fixed
            then tr_push (k, v) (d_max d) (d_children d) k1 v1
            else tr_push (k, v) (k1, v1) (d_children d) (fst (d_max d)) (snd (d_max d))
        | Lt => tr_push (k, v) (d_max d) (d_children d) k1 v1
        end
    | Gt, Some d =>
        match cmp k (fst (d_max d)) with
        | Eq => Ret (TR (t_min t) (Some (TD (k, v) (d_children d))), Some (d_max d))
        | Gt => tr_push (t_min t) (k, v) (d_children d) (fst (d_max d)) (snd (d_max d))
        | Lt => tr_push (t_min t) (d_max d) (d_children d) k v
        end
    end.

  (** The rebuilding of [children] after an extreme was taken out of the child of an extreme [hi] of the
      summary (tree.rs 601-614, 676-689, 717-730) *)
  Definition after_end (summary : vt S) (r : option (ct C * bool))
    (rm : vt S -> res (option (vt S) * (Hi * unit))) : res (option (vt S * ct C)) :=
    match r with
    | None => Ret None
    | Some (children, false) => Ret (Some (summary, children))
    | Some (children, true) =>
        ' (os, _) <- rm summary ;;
        s <- expect os ;;
        Ret (Some (s, children))
    end.

  Definition tr_remove_min (t : Tree) : res (option Tree * (K * V)) :=     (* tree.rs 652-693 *)
    match t_data t with
    | None => Ret (None, t_min t)
    | Some d =>
        match d_children d with
        | None => Ret (Some (TR (d_max d) None), t_min t)
        | Some (summary, children) =>
            ' (hi, _) <- v_min_val S summary ;;
            ' (r, (lo, val)) <- c_remove_key C children hi (v_remove_min Tr) ;;
            ch <- after_end summary r (v_remove_min S) ;;
            Ret (Some (TR (join hi lo, val) (Some (TD (d_max d) ch))), t_min t)
        end
    end.

  Definition tr_remove_max (t : Tree) : res (option Tree * (K * V)) :=     (* tree.rs 696-736 *)
    match t_data t with
    | None => Ret (None, t_min t)
    | Some d =>
        match d_children d with
        | None => Ret (Some (TR (t_min t) None), d_max d)
        | Some (summary, children) =>
            ' (hi, _) <- v_max_val S summary ;;
            ' (r, (lo, val)) <- c_remove_key C children hi (v_remove_max Tr) ;;
            ch <- after_end summary r (v_remove_max S) ;;
            Ret (Some (TR (t_min t) (Some (TD (join hi lo, val) ch))), d_max d)
        end
    end.

  Definition tr_remove (t : Tree) (k : K) :
    res (result (option Tree * (K * V)) Tree) :=                           (* tree.rs 565-649 *)
    if eqb cmp k (fst (t_min t)) then
      r <- tr_remove_min t ;; Ret (Ok r)
    else
      match t_data t with
      | None => Ret (Err t)
      | Some d =>
          match d_children d with
          | None =>
              if eqb cmp (fst (d_max d)) k then Ret (Ok (Some (TR (t_min t) None), d_max d))
              else Ret (Err (TR (t_min t) (Some d)))
          | Some (summary, children) =>
              if eqb cmp k (fst (d_max d)) then
                ' (hi, _) <- v_max_val S summary ;;
                ' (r, (lo, val)) <- c_remove_key C children hi (v_remove_max Tr) ;;
                ch <- after_end summary r (v_remove_max S) ;;
                Ret (Ok (Some (TR (t_min t) (Some (TD (join hi lo, val) ch))), d_max d))
              else
                let (hi, lo) := split_ref k in
                r <- c_maybe_remove_key C children hi (fun c => v_remove Tr c lo) ;;
                match r with
                | Err children' =>
                    Ret (Err (TR (t_min t) (Some (TD (d_max d) (Some (summary, children'))))))
                | Ok (None, (lo', val)) =>
                    Ret (Ok (Some (TR (t_min t) (Some (TD (d_max d) None))), (join hi lo', val)))
                | Ok (Some (children', false), (lo', val)) =>
                    Ret (Ok (Some (TR (t_min t) (Some (TD (d_max d) (Some (summary, children'))))),
                             (join hi lo', val)))
                | Ok (Some (children', true), (lo', val)) =>
                    rs <- v_remove S summary hi ;;
                    ' (os, _) <- (match rs with Ok x => Ret x | Err _ => Panic end) ;;
                    s <- expect os ;;
                    Ret (Ok (Some (TR (t_min t) (Some (TD (d_max d) (Some (s, children'))))),
                             (join hi lo', val)))
                end
          end
      end.

  Definition Tree_ops : VebOps K V :=
    {| vt := Tree;
       v_from_monad := tr_from_monad;
       v_is_monad := tr_is_monad;
       v_len_hint := default_len_hint tr_is_monad;
       v_into_monad := tr_into_monad;
       v_min_val := tr_min_val;
       v_min_val_mut := tr_min_val_mut;
       v_max_val := tr_max_val;
       v_max_val_mut := tr_max_val_mut;
       v_find := tr_find;
       v_find_mut := tr_find_mut;
       v_predecessor := tr_predecessor;
       v_predecessor_mut := tr_predecessor_mut;
       v_successor := tr_successor;
       v_successor_mut := tr_successor_mut;
       v_insert := tr_insert;
       v_remove := tr_remove;
       v_remove_min := tr_remove_min;
       v_remove_max := tr_remove_max |}.

  (** [Clone for TreeData], [Clone for Tree] (tree.rs 49-78), given the clones of the parts *)
  Definition clone_data (ck : K -> K) (cv : V -> V) (cc : vt S * ct C -> vt S * ct C) (d : TreeData) :
    TreeData :=
    TD (ck (fst (d_max d)), cv (snd (d_max d)))
       (match d_children d with Some x => Some (cc x) | None => None end).
  Definition clone_tree (ck : K -> K) (cv : V -> V) (cc : vt S * ct C -> vt S * ct C) (t : Tree) : Tree :=
    TR (ck (fst (t_min t)), cv (snd (t_min t)))
       (match t_data t with Some d => Some (clone_data ck cv cc d) | None => None end).
End Tree.
Arguments TD {K Hi Lo V S Tr C}.
Arguments d_max {K Hi Lo V S Tr C}.
Arguments d_children {K Hi Lo V S Tr C}.
Arguments TR {K Hi Lo V S Tr C}.
Arguments t_min {K Hi Lo V S Tr C}.
Arguments t_data {K Hi Lo V S Tr C}.
