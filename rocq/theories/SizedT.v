(** Model of SizedVebTree (src/lib.rs 169-325) *)
From Verif Require Import Base Ops Boxed.

(** lib.rs 169-172; [NonZeroUsize] is a number, the functions that build one panic on 0 *)
Record sized (T : Type) : Type := SZ { sz_tree : T; sz_size : N }.
Arguments SZ {T}.
Arguments sz_tree {T}.
Arguments sz_size {T}.

(** [NonZeroUsize::new] *)
Definition nonzero (n : N) : option N := if (n =? 0)%N then None else Some n.

(** [SizedVebTree::len] (lib.rs 177-179) *)
Definition sz_len {T} (t : sized T) : N := sz_size t.

Section Sized.
  Context {B : Build} {K V : Type} (O : VebOps K V).
  Let T := vt O.

  Definition sz_lens {X} (t : sized T) (p : X * (V -> T)) : X * (V -> sized T) :=
    (fst p, fun v => SZ (snd p v) (sz_size t)).

  Definition sz_insert (t : sized T) (k : K) (v : V) : res (sized T * option (K * V)) :=  (* lib.rs 275-281 *)
    ' (t', r) <- v_insert O (sz_tree t) k v ;;
    match r with
    | None => n <- expect (checked_add (sz_size t) 1) ;; Ret (SZ t' n, r)
    | Some _ => Ret (SZ t' (sz_size t), r)
    end.
  Definition sz_remove (t : sized T) (k : K) :
    res (result (option (sized T) * (K * V)) (sized T)) :=                    (* lib.rs 283-300 *)
    r <- v_remove O (sz_tree t) k ;;
    match r with
    | Ok (Some t', p) =>
        n <- checked_sub (sz_size t) 1 ;;
        n' <- expect (nonzero n) ;;
        Ret (Ok (Some (SZ t' n'), p))
    | Ok (None, p) => Ret (Ok (None, p))
    | Err t' => Ret (Err (SZ t' (sz_size t)))
    end.
  (** lib.rs 302-312, 314-324 *)
  Definition sz_remove_end (rm : T -> res (option T * (K * V))) (t : sized T) :
    res (option (sized T) * (K * V)) :=
    n <- checked_sub (sz_size t) 1 ;;
    let new_size := nonzero n in
    ' (ot, v) <- rm (sz_tree t) ;;
    match ot with
    | Some t' => n' <- expect new_size ;; Ret (Some (SZ t' n'), v)
    | None => Ret (None, v)
    end.

  Definition Sized_ops : VebOps K V :=
    {| vt := sized T;
       v_from_monad := fun k v => SZ (v_from_monad O k v) 1;                  (* lib.rs 187-192 *)
       v_is_monad := fun t =>                                                 (* lib.rs 194-201 *)
         b <- v_is_monad O (sz_tree t) ;;
         if b then _ <- debug_assert (sz_size t =? 1)%N ;; Ret true else Ret false;
       v_len_hint := fun t => Ret (sz_size t, Some (sz_size t));              (* lib.rs 203-205 *)
       v_into_monad := fun t =>                                               (* lib.rs 207-212 *)
         r <- v_into_monad O (sz_tree t) ;;
         match r with
         | Ok p => Ret (Ok p)
         | Err t' => Ret (Err (SZ t' (sz_size t)))
         end;
       v_min_val := fun t => v_min_val O (sz_tree t);                         (* lib.rs 214-216 *)
       v_min_val_mut := fun t => rmap (sz_lens t) (v_min_val_mut O (sz_tree t));   (* lib.rs 218-220 *)
       v_max_val := fun t => v_max_val O (sz_tree t);                         (* lib.rs 222-224 *)
       v_max_val_mut := fun t => rmap (sz_lens t) (v_max_val_mut O (sz_tree t));   (* lib.rs 226-228 *)
       v_find := fun t k => v_find O (sz_tree t) k;                           (* lib.rs 230-235 *)
       v_find_mut := fun t k => rmap (omap (sz_lens t)) (v_find_mut O (sz_tree t) k);  (* lib.rs 237-242 *)
       v_predecessor := fun t k => v_predecessor O (sz_tree t) k;             (* lib.rs 244-249 *)
       v_predecessor_mut := fun t k =>                                        (* lib.rs 251-259 *)
         rmap (omap (sz_lens t)) (v_predecessor_mut O (sz_tree t) k);
       v_successor := fun t k => v_successor O (sz_tree t) k;                 (* lib.rs 261-266 *)
       v_successor_mut := fun t k =>                                          (* lib.rs 268-273 *)
         rmap (omap (sz_lens t)) (v_successor_mut O (sz_tree t) k);
       v_insert := sz_insert;
       v_remove := sz_remove;
       v_remove_min := sz_remove_end (v_remove_min O);
       v_remove_max := sz_remove_end (v_remove_max O)
    |}.
End Sized.
