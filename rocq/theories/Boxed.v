(** Model of the [Box] impls: src/lib.rs 327-431 and src/collection/mod.rs 108-155 *)
From Verif Require Import Base Ops.

Record box (T : Type) : Type := mkbox { unbox : T }.
Arguments mkbox {T}.
Arguments unbox {T}.

Definition omap {A B} (f : A -> B) (o : option A) : option B :=
  match o with Some a => Some (f a) | None => None end.
Definition rmap {A B} (f : A -> B) (m : res A) : res B := a <- m ;; Ret (f a).

Section BoxTree.
  Context {K V : Type} (O : VebOps K V).
  Let T := vt O.

  (** A write through a reference into the boxed tree *)
  Definition box_lens {X} (p : X * (V -> T)) : X * (V -> box T) :=
    (fst p, fun v => mkbox (snd p v)).
  Definition box_rm (p : option T * (K * V)) : option (box T) * (K * V) :=
    (omap mkbox (fst p), snd p).

  Definition Box_ops : VebOps K V :=
    {| vt := box T;
       v_from_monad := fun k v => mkbox (v_from_monad O k v);                 (* lib.rs 331-333 *)
       v_is_monad := fun t => v_is_monad O (unbox t);                         (* lib.rs 335-337 *)
       v_len_hint := fun t => v_len_hint O (unbox t);                         (* lib.rs 339-341 *)
       v_into_monad := fun t =>                                               (* lib.rs 343-345 *)
         r <- v_into_monad O (unbox t) ;;
         match r with
         | Ok p => Ret (Ok p)
         | Err t' => Ret (Err (mkbox t'))
         end;
       v_min_val := fun t => v_min_val O (unbox t);                           (* lib.rs 347-349 *)
       v_min_val_mut := fun t => rmap box_lens (v_min_val_mut O (unbox t));   (* lib.rs 351-353 *)
       v_max_val := fun t => v_max_val O (unbox t);                           (* lib.rs 355-357 *)
       v_max_val_mut := fun t => rmap box_lens (v_max_val_mut O (unbox t));   (* lib.rs 359-361 *)
       v_find := fun t k => v_find O (unbox t) k;                             (* lib.rs 363-368 *)
       v_find_mut := fun t k => rmap (omap box_lens) (v_find_mut O (unbox t) k);  (* lib.rs 370-375 *)
       v_predecessor := fun t k => v_predecessor O (unbox t) k;               (* lib.rs 377-382 *)
       v_predecessor_mut := fun t k =>                                        (* lib.rs 384-392 *)
         rmap (omap box_lens) (v_predecessor_mut O (unbox t) k);
       v_successor := fun t k => v_successor O (unbox t) k;                   (* lib.rs 394-399 *)
       v_successor_mut := fun t k =>                                          (* lib.rs 401-406 *)
         rmap (omap box_lens) (v_successor_mut O (unbox t) k);
       v_insert := fun t k v =>                                               (* lib.rs 408-410 *)
         ' (t', r) <- v_insert O (unbox t) k v ;; Ret (mkbox t', r);
       v_remove := fun t k =>                                                 (* lib.rs 412-420 *)
         r <- v_remove O (unbox t) k ;;
         match r with
         | Ok p => Ret (Ok (box_rm p))
         | Err t' => Ret (Err (mkbox t'))
         end;
       v_remove_min := fun t => rmap box_rm (v_remove_min O (unbox t));       (* lib.rs 422-425 *)
       v_remove_max := fun t => rmap box_rm (v_remove_max O (unbox t))        (* lib.rs 427-430 *)
    |}.
End BoxTree.

Section BoxColl.
  Context {Hi Lo V : Type} {Tr : VebOps Lo V} (C : CollOps Hi Lo V Tr).
  Let M := ct C.

  Definition box_cb {P} (p : option (M * bool) * P) : option (box M * bool) * P :=
    (omap (fun mb => (mkbox (fst mb), snd mb)) (fst p), snd p).

  Definition Box_coll : CollOps Hi Lo V Tr :=
    {| ct := box M;
       c_create := fun h t => rmap mkbox (c_create C h t);                    (* mod.rs 112-114 *)
       c_get := fun c h => c_get C (unbox c) h;                               (* mod.rs 116-118 *)
       c_get_mut := fun c h =>                                                (* mod.rs 120-122 *)
         rmap (omap (fun p => (fst p, fun t => mkbox (snd p t)))) (c_get_mut C (unbox c) h);
       c_insert_key := fun c h lv =>                                          (* mod.rs 124-126 *)
         ' (c', r) <- c_insert_key C (unbox c) h lv ;; Ret (mkbox c', r);
       c_remove_key := fun c h f => rmap box_cb (c_remove_key C (unbox c) h f);   (* mod.rs 133-140 *)
       c_maybe_remove_key := fun c h f =>                                     (* mod.rs 147-154 *)
         r <- c_maybe_remove_key C (unbox c) h f ;;
         match r with
         | Ok p => Ret (Ok (box_cb p))
         | Err c' => Ret (Err (mkbox c'))
         end |}.
End BoxColl.
