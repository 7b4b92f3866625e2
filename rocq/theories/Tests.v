(** The unit tests of /repo, run on the model.  Every [#[test]] of the crate is transcribed as a computation that
    panics when one of its assertions fails; the examples state that none does.  This checks the model against
    behaviour its authors observed on the real code (these tests pass there), it proves nothing about other inputs.
    Values of type [&str] and [f64] are represented by numbers. *)
From Verif Require Import Base Ints Ops Key ByteSet ByteMap Coll Boxed BTree SizedT Tree Iter Markers Concrete.
Local Open Scope N_scope.

Definition passes {A} (m : res A) : bool := match m with Ret _ => true | Panic => false end.
(** [assert!] *)
Definition assert (b : bool) : res unit := if b then Ret tt else Panic.
Definition pair_eq (a b : N * N) : bool := (fst a =? fst b) && (snd a =? snd b).
Definition opt_eq {A} (eq : A -> A -> bool) (a b : option A) : bool :=
  match a, b with
  | Some x, Some y => eq x y
  | None, None => true
  | _, _ => false
  end.
Fixpoint list_eq {A} (eq : A -> A -> bool) (a b : list A) : bool :=
  match a, b with
  | x :: a', y :: b' => eq x y && list_eq eq a' b'
  | [], [] => true
  | _, _ => false
  end.
Fixpoint each {A} (l : list A) (f : A -> res unit) : res unit :=
  match l with
  | [] => Ret tt
  | a :: l' => _ <- f a ;; each l' f
  end.
Fixpoint loop {A T} (l : list A) (t : T) (f : T -> A -> res T) : res T :=
  match l with
  | [] => Ret t
  | a :: l' => t' <- f t a ;; loop l' t' f
  end.
(** the numbers from [a] to [a + n - 1] *)
Definition range (a : N) (n : nat) : list N := map (fun k => a + N.of_nat k) (seq 0 n).
Definition unwrap_ok {A E} (r : result A E) : res A := match r with Ok a => Ret a | Err _ => Panic end.
Definition is_ok {A E} (r : result A E) : bool := match r with Ok _ => true | Err _ => false end.
Definition is_some {A} (o : option A) : bool := match o with Some _ => true | None => false end.
Definition value {V} (to : V -> N) {w} (p : u w * V) : N * N := (uval (fst p), to (snd p)).

(** Operations with numbers for keys and values *)
Section View.
  Context {w : N} (O : VebOps (u w) N).
  Definition nn (p : u w * N) : N * N := (uval (fst p), snd p).
  Definition mk (k v : N) : vt O := v_from_monad O (wrap w k) v.
  Definition ins (t : vt O) (k v : N) : res (vt O) := rmap fst (v_insert O t (wrap w k) v).
  Definition ins_old (t : vt O) (k v : N) : res (vt O * option (N * N)) :=
    ' (t', o) <- v_insert O t (wrap w k) v ;; Ret (t', omap nn o).
  Definition rem (t : vt O) (k : N) : res (option (vt O) * (N * N)) :=
    r <- v_remove O t (wrap w k) ;; ' (ot, p) <- unwrap_ok r ;; Ret (ot, nn p).
  Definition rem_min (t : vt O) : res (option (vt O) * (N * N)) := ' (ot, p) <- v_remove_min O t ;; Ret (ot, nn p).
  Definition rem_max (t : vt O) : res (option (vt O) * (N * N)) := ' (ot, p) <- v_remove_max O t ;; Ret (ot, nn p).
  Definition query (q : vt O -> u w -> res (option (u w * N))) (t : vt O) (k : N) (r : option (N * N)) : res unit :=
    o <- q t (wrap w k) ;; assert (opt_eq pair_eq (omap nn o) r).
  Definition drop_lens (q : vt O -> u w -> res (option (u w * N * (N -> vt O)))) (t : vt O) (k : u w) :
    res (option (u w * N)) := o <- q t k ;; Ret (omap fst o).
  Definition find_is := query (v_find O).
  Definition pred_is := query (v_predecessor O).
  Definition succ_is := query (v_successor O).
  Definition min_is (t : vt O) (p : N * N) : res unit := q <- v_min_val O t ;; assert (pair_eq (nn q) p).
  Definition max_is (t : vt O) (p : N * N) : res unit := q <- v_max_val O t ;; assert (pair_eq (nn q) p).
  Definition min_key_is (t : vt O) (k : N) : res unit := q <- v_min_val O t ;; assert (uval (fst q) =? k).
  Definition max_key_is (t : vt O) (k : N) : res unit := q <- v_max_val O t ;; assert (uval (fst q) =? k).
  Definition monad_is (t : vt O) (b : bool) : res unit := b' <- v_is_monad O t ;; assert (Bool.eqb b b').
  (** [verify] (src/tree.rs 749-795) *)
  Definition verify (t : vt O) (finds preds succs : list (N * option (N * N))) : res unit :=
    _ <- each finds (fun '(k, r) => _ <- find_is t k r ;; query (drop_lens (v_find_mut O)) t k r) ;;
    _ <- each preds (fun '(k, r) => _ <- pred_is t k r ;; query (drop_lens (v_predecessor_mut O)) t k r) ;;
    each succs (fun '(k, r) => _ <- succ_is t k r ;; query (drop_lens (v_successor_mut O)) t k r).

  (** Iterators *)
  Definition next (t : vt O) (it : Iter (u w)) (r : option (N * N)) : res (Iter (u w)) :=
    ' (it', o) <- it_next O u_eqb t it ;; _ <- assert (opt_eq pair_eq (omap nn o) r) ;; Ret it'.
  Definition next_back (t : vt O) (it : Iter (u w)) (r : option (N * N)) : res (Iter (u w)) :=
    ' (it', o) <- it_next_back O u_eqb t it ;; _ <- assert (opt_eq pair_eq (omap nn o) r) ;; Ret it'.
  Definition hint (t : vt O) (it : Iter (u w)) (r : N * N) : res unit :=
    ' (a, b) <- it_size_hint O t it ;; assert ((a =? fst r) && opt_eq N.eqb b (Some (snd r))).
  (** a sequence of calls, [true] from the front *)
  Definition calls (t : vt O) (it : Iter (u w)) (l : list (bool * option (N * N))) : res (Iter (u w)) :=
    loop l it (fun it '(f, r) => if (f : bool) then next t it r else next_back t it r).
  Fixpoint collect (back : bool) (fuel : nat) (t : vt O) (it : Iter (u w)) : res (list (N * N)) :=
    match fuel with
    | 0%nat => Panic
    | S n =>
        ' (it', o) <- (if back then it_next_back O u_eqb t it else it_next O u_eqb t it) ;;
        match o with
        | None => Ret []
        | Some p => l <- collect back n t it' ;; Ret (nn p :: l)
        end
    end.
  (** the tree built by [from_monad] and insertions *)
  Definition built (l : list (N * N)) : res (vt O) :=
    match l with
    | [] => Panic
    | (k, v) :: l' => loop l' (mk k v) (fun t '(k, v) => ins t k v)
    end.
End View.

Notation A := 97.
Notation B := 98.
Notation C := 99.
Notation D := 100.
(** [VebTreeType<u16, _, Marker16>], [VebTreeType<u32, _, Marker32>] *)
Definition U16Tree : VebOps (u 16) N := M16 false N.
Definition U32Tree : VebOps (u 32) N := M32 false N.

(** *** src/tree.rs 739-1146 *)

(** tree.rs 797-806; [VebTreeType<i32, (f64, f64), Marker32>] *)
Definition I32Tree : VebOps (i 31) (N * N) :=
  Tree_ops false i32_key (M16E false) (M16 false (N * N)) (Array_coll u16_idx (M16 false (N * N))).
Definition simple2 : res unit :=
  let is (p : i 31 * (N * N)) k v := assert ((ival (fst p) =? k)%Z && pair_eq (snd p) v) in
  let v := v_from_monad I32Tree (packi 31 10) (2, 5) in
  a <- v_min_val I32Tree v ;; _ <- is a 10%Z (2, 5) ;;
  b <- v_max_val I32Tree v ;; _ <- is b 10%Z (2, 5) ;;
  ' (v, _) <- v_insert I32Tree v (packi 31 15) (3, 1) ;;
  a <- v_min_val I32Tree v ;; _ <- is a 10%Z (2, 5) ;;
  b <- v_max_val I32Tree v ;; is b 15%Z (3, 1).
Example test_simple2 : passes simple2 = true.
Proof. vm_compute. reflexivity. Qed.

(** tree.rs 807-985 *)
Definition simple : res unit :=
  let O := U16Tree in
  let v := mk O 10 A in
  _ <- min_is O v (10, A) ;; _ <- max_is O v (10, A) ;;
  _ <- verify O v
    [(9, None); (10, Some (10, A)); (11, None); (12, None); (13, None); (14, None); (15, None); (16, None)]
    [(9, None); (10, None); (11, Some (10, A)); (12, Some (10, A)); (13, Some (10, A)); (14, Some (10, A));
     (15, Some (10, A)); (16, Some (10, A))]
    [(9, Some (10, A)); (10, None); (11, None); (12, None); (13, None); (14, None); (15, None); (16, None)] ;;
  v <- ins O v 15 B ;;
  _ <- min_is O v (10, A) ;; _ <- max_is O v (15, B) ;;
  _ <- verify O v
    [(9, None); (10, Some (10, A)); (11, None); (12, None); (13, None); (14, None); (15, Some (15, B)); (16, None)]
    [(9, None); (10, None); (11, Some (10, A)); (12, Some (10, A)); (13, Some (10, A)); (14, Some (10, A));
     (15, Some (10, A)); (16, Some (15, B))]
    [(9, Some (10, A)); (10, Some (15, B)); (11, Some (15, B)); (12, Some (15, B)); (13, Some (15, B));
     (14, Some (15, B)); (15, None); (16, None)] ;;
  v <- ins O v 13 C ;;
  _ <- min_is O v (10, A) ;; _ <- max_is O v (15, B) ;;
  let finds := [(9, None); (10, Some (10, A)); (11, None); (12, None); (13, Some (13, C)); (14, None);
                (15, Some (15, B)); (16, None)] in
  let preds := [(9, None); (10, None); (11, Some (10, A)); (12, Some (10, A)); (13, Some (10, A));
                (14, Some (13, C)); (15, Some (13, C)); (16, Some (15, B))] in
  let succs := [(9, Some (10, A)); (10, Some (13, C)); (11, Some (13, C)); (12, Some (13, C)); (13, Some (15, B));
                (14, Some (15, B)); (15, None); (16, None)] in
  _ <- verify O v finds preds succs ;;
  v <- ins O v 14 D ;;
  ' (ot, p) <- rem O v 14 ;; v <- expect ot ;; _ <- assert (pair_eq p (14, D)) ;;
  _ <- verify O v finds preds succs ;;
  ' (ot, p) <- rem O v 15 ;; v <- expect ot ;; _ <- assert (pair_eq p (15, B)) ;;
  _ <- min_is O v (10, A) ;; _ <- max_is O v (13, C) ;;
  verify O v
    [(9, None); (10, Some (10, A)); (11, None); (12, None); (13, Some (13, C)); (14, None); (15, None); (16, None)]
    [(9, None); (10, None); (11, Some (10, A)); (12, Some (10, A)); (13, Some (10, A)); (14, Some (13, C));
     (15, Some (13, C)); (16, Some (13, C))]
    [(9, Some (10, A)); (10, Some (13, C)); (11, Some (13, C)); (12, Some (13, C)); (13, None); (14, None);
     (15, None); (16, None)].
Example test_simple : passes simple = true.
Proof. vm_compute. reflexivity. Qed.

(** tree.rs 987-1009 *)
Definition monad_transitions : res unit :=
  let O := U16Tree in
  let v := mk O 10 100 in
  _ <- monad_is O v true ;;
  v <- ins O v 20 200 ;; _ <- monad_is O v false ;;
  ' (ot, p) <- rem O v 20 ;; _ <- assert (pair_eq p (20, 200)) ;;
  v <- expect ot ;; _ <- monad_is O v true ;;
  _ <- min_key_is O v 10 ;; max_key_is O v 10.
Example test_monad_transitions : passes monad_transitions = true.
Proof. vm_compute. reflexivity. Qed.

(** tree.rs 1011-1031 *)
Definition boundary_predecessor_successor : res unit :=
  let O := U16Tree in
  v <- built O [(10, A); (20, B); (30, C)] ;;
  _ <- pred_is O v 10 None ;; _ <- pred_is O v 9 None ;; _ <- pred_is O v 0 None ;;
  _ <- succ_is O v 30 None ;; _ <- succ_is O v 31 None ;; _ <- succ_is O v 65535 None ;;
  _ <- pred_is O v 11 (Some (10, A)) ;; succ_is O v 29 (Some (30, C)).
Example test_boundary_predecessor_successor : passes boundary_predecessor_successor = true.
Proof. vm_compute. reflexivity. Qed.

(** tree.rs 1033-1062 *)
Definition remove_min_max_operations : res unit :=
  let O := U16Tree in
  v <- built O [(10, 100); (20, 200); (30, 300); (40, 400)] ;;
  ' (ot, p) <- rem_min O v ;; _ <- assert (pair_eq p (10, 100)) ;; v <- expect ot ;; _ <- min_key_is O v 20 ;;
  ' (ot, p) <- rem_max O v ;; _ <- assert (pair_eq p (40, 400)) ;; v <- expect ot ;; _ <- max_key_is O v 30 ;;
  ' (ot, _) <- rem_min O v ;; v <- expect ot ;; _ <- monad_is O v true ;;
  ' (ot, p) <- rem_min O v ;; _ <- assert (pair_eq p (30, 300)) ;; assert (is_none ot).
Example test_remove_min_max_operations : passes remove_min_max_operations = true.
Proof. vm_compute. reflexivity. Qed.

(** tree.rs 1064-1073 *)
Definition insert_replace_existing : res unit :=
  let O := U16Tree in
  let v := mk O 10 A in
  ' (v, o) <- ins_old O v 10 B ;; _ <- assert (opt_eq pair_eq o (Some (10, A))) ;; find_is O v 10 (Some (10, B)).
Example test_insert_replace_existing : passes insert_replace_existing = true.
Proof. vm_compute. reflexivity. Qed.

(** tree.rs 1075-1089 *)
Definition remove_nonexistent_key : res unit :=
  let O := U16Tree in
  v <- built O [(10, 100); (20, 200)] ;;
  r <- v_remove O v (b16 15) ;;
  match r with
  | Ok _ => Panic
  | Err v => _ <- find_is O v 10 (Some (10, 100)) ;; find_is O v 20 (Some (20, 200))
  end.
Example test_remove_nonexistent_key : passes remove_nonexistent_key = true.
Proof. vm_compute. reflexivity. Qed.

(** tree.rs 1091-1117 *)
Definition operations_on_large_tree : res unit :=
  let O := U16Tree in
  v <- loop (range 1 99) (mk O 0 0) (fun t i => ins O t (i * 10) (i * 10)) ;;
  _ <- each (range 0 100) (fun i => find_is O v (i * 10) (Some (i * 10, i * 10))) ;;
  _ <- min_key_is O v 0 ;; _ <- max_key_is O v 990 ;;
  _ <- pred_is O v 505 (Some (500, 500)) ;; succ_is O v 505 (Some (510, 510)).
Example test_operations_on_large_tree : passes operations_on_large_tree = true.
Proof. vm_compute. reflexivity. Qed.

(** tree.rs 1119-1145 *)
Definition into_monad_error : res unit :=
  v <- built U16Tree [(10, 100); (20, 200)] ;;
  r <- v_into_monad U16Tree v ;; assert (negb (is_ok r)).
Definition into_monad_success : res unit :=
  r <- v_into_monad U16Tree (mk U16Tree 42 100) ;; p <- unwrap_ok r ;; assert (pair_eq (nn p) (42, 100)).
Example test_into_monad : passes (_ <- into_monad_error ;; into_monad_success) = true.
Proof. vm_compute. reflexivity. Qed.

(** *** src/lib.rs 582-730 *)
Definition Map32 : VebOps (u 32) N := BTree_ops N u_cmp.

(** lib.rs 587-601 *)
Definition btreemap_basic_operations : res unit :=
  let O := Map32 in
  let v := mk O 10 A in
  _ <- monad_is O v true ;; _ <- find_is O v 10 (Some (10, A)) ;; _ <- find_is O v 20 None ;;
  v <- ins O v 20 B ;; _ <- monad_is O v false ;; find_is O v 20 (Some (20, B)).
(** lib.rs 603-611 *)
Definition btreemap_min_max : res unit :=
  v <- built Map32 [(50, 500); (10, 100); (90, 900)] ;;
  _ <- min_is Map32 v (10, 100) ;; max_is Map32 v (90, 900).
(** lib.rs 613-629 *)
Definition btreemap_predecessor_successor : res unit :=
  let O := Map32 in
  v <- built O [(10, A); (20, B); (30, C)] ;;
  _ <- pred_is O v 25 (Some (20, B)) ;; _ <- succ_is O v 15 (Some (20, B)) ;;
  _ <- pred_is O v 10 None ;; succ_is O v 30 None.
(** lib.rs 631-651 *)
Definition btreemap_remove_operations : res unit :=
  let O := Map32 in
  v <- built O [(10, 100); (20, 200); (30, 300)] ;;
  ' (ot, p) <- rem O v 20 ;; _ <- assert (pair_eq p (20, 200)) ;; v <- expect ot ;;
  ' (ot, p) <- rem_min O v ;; _ <- assert (pair_eq p (10, 100)) ;; v <- expect ot ;;
  ' (ot, p) <- rem_max O v ;; _ <- assert (pair_eq p (30, 300)) ;; assert (is_none ot).
(** lib.rs 653-668 *)
Definition btreemap_insert_replace : res unit :=
  let O := Map32 in
  ' (v, o) <- ins_old O (mk O 10 A) 10 B ;; _ <- assert (opt_eq pair_eq o (Some (10, A))) ;;
  find_is O v 10 (Some (10, B)).
Definition btreemap_into_monad : res unit :=
  r <- v_into_monad Map32 (mk Map32 42 100) ;; p <- unwrap_ok r ;; assert (pair_eq (nn p) (42, 100)).
Example test_btreemap : passes
  (_ <- btreemap_basic_operations ;; _ <- btreemap_min_max ;; _ <- btreemap_predecessor_successor ;;
   _ <- btreemap_remove_operations ;; _ <- btreemap_insert_replace ;; btreemap_into_monad) = true.
Proof. vm_compute. reflexivity. Qed.

Definition Sized16 : VebOps (u 16) N := Sized_ops U16Tree.
(** lib.rs 670-694 *)
Definition sized_vebtree_len_tracking : res unit :=
  let O := Sized16 in
  let v := mk O 10 100 in
  _ <- assert (sz_len v =? 1) ;;
  ' (a, b) <- v_len_hint O v ;; _ <- assert ((a =? 1) && opt_eq N.eqb b (Some 1)) ;;
  v <- ins O v 20 200 ;; _ <- assert (sz_len v =? 2) ;;
  v <- ins O v 30 300 ;; _ <- assert (sz_len v =? 3) ;;
  v <- ins O v 20 250 ;; _ <- assert (sz_len v =? 3) ;;
  ' (ot, _) <- rem O v 20 ;; v <- expect ot ;; assert (sz_len v =? 2).
(** lib.rs 696-710 *)
Definition sized_vebtree_remove_all : res unit :=
  let O := Sized16 in
  v <- built O [(10, 100); (20, 200)] ;;
  ' (ot, _) <- rem_min O v ;; v <- expect ot ;; _ <- assert (sz_len v =? 1) ;;
  ' (ot, _) <- rem_max O v ;; assert (is_none ot).
(** lib.rs 712-729; the last call there is the [remove] of the tree inside the box *)
Definition box_vebtree_operations : res unit :=
  let O := Box_ops U16Tree in
  let t := mk O 10 A in
  _ <- monad_is O t true ;; t <- ins O t 20 B ;; _ <- monad_is O t false ;;
  _ <- min_key_is O t 10 ;; _ <- max_key_is O t 20 ;;
  ' (ot, p) <- rem O t 10 ;; _ <- assert (pair_eq p (10, A)) ;; assert (is_some ot).
Example test_sized_box : passes
  (_ <- sized_vebtree_len_tracking ;; _ <- sized_vebtree_remove_all ;; box_vebtree_operations) = true.
Proof. vm_compute. reflexivity. Qed.

(** *** src/iter.rs 199-764 *)
Definition some_p (k v : N) : option (N * N) := Some (k, v).
(** iter.rs 222-260 *)
Definition iter_single_element : res unit :=
  let O := Sized16 in
  let t := mk O 42 100 in
  let it := it_new in
  _ <- hint O t it (1, 1) ;; it <- next O t it (Some (42, 100)) ;; _ <- hint O t it (0, 0) ;;
  it <- next O t it None ;; hint O t it (0, 0).
Definition iter_single_element_backwards : res unit :=
  let O := Sized16 in
  let t := mk O 42 100 in
  let it := it_new in
  _ <- hint O t it (1, 1) ;; it <- next_back O t it (Some (42, 100)) ;; _ <- hint O t it (0, 0) ;;
  it <- next_back O t it None ;; Ret tt.
(** iter.rs 262-300 *)
Definition iter_two_elements_forward : res unit :=
  let O := Sized16 in
  t <- built O [(10, 1); (20, 2)] ;;
  let it := it_new in
  _ <- hint O t it (2, 2) ;; it <- next O t it (Some (10, 1)) ;; _ <- hint O t it (1, 1) ;;
  it <- next O t it (Some (20, 2)) ;; _ <- hint O t it (0, 0) ;; it <- next O t it None ;; hint O t it (0, 0).
(** a tree of [U16Tree] and the calls made on its iterator *)
Definition iter_calls (l : list (N * N)) (cs : list (bool * option (N * N))) : res unit :=
  t <- built U16Tree l ;; _ <- calls U16Tree t it_new cs ;; Ret tt.
Definition upto4 : list (N * N) := [(10, 1); (20, 2); (30, 3); (40, 4)].
Notation nx := true.
Notation nb := false.
Definition iter_two_elements_backward :=
  iter_calls [(10, 1); (20, 2)] [(nb, Some (20, 2)); (nb, Some (10, 1)); (nb, None)].
(** iter.rs 303-416 *)
Definition iter_state_transition_start_to_front :=
  iter_calls [(10, 1); (20, 2); (30, 3)] [(nx, Some (10, 1)); (nx, Some (20, 2)); (nx, Some (30, 3)); (nx, None)].
Definition iter_state_transition_start_to_back :=
  iter_calls [(10, 1); (20, 2); (30, 3)] [(nb, Some (30, 3)); (nb, Some (20, 2)); (nb, Some (10, 1)); (nb, None)].
Definition iter_state_transition_front_to_both :=
  iter_calls upto4 [(nx, Some (10, 1)); (nb, Some (40, 4)); (nx, Some (20, 2)); (nb, Some (30, 3)); (nx, None); (nb, None)].
Definition iter_state_transition_back_to_both :=
  iter_calls upto4 [(nb, Some (40, 4)); (nx, Some (10, 1)); (nx, Some (20, 2)); (nb, Some (30, 3)); (nx, None)].
(** iter.rs 419-482 *)
Definition iter_alternating_directions :=
  iter_calls (upto4 ++ [(50, 5)])
    [(nx, Some (10, 1)); (nb, Some (50, 5)); (nx, Some (20, 2)); (nx, Some (30, 3)); (nb, Some (40, 4)); (nx, None); (nb, None)].
Definition iter_meet_in_middle :=
  iter_calls [(10, 1); (20, 2); (30, 3)]
    [(nx, Some (10, 1)); (nb, Some (30, 3)); (nx, Some (20, 2)); (nx, None); (nb, None)].
(** iter.rs 485-507 *)
Definition iter_size_hint_tracking : res unit :=
  let O := Sized16 in
  t <- built O upto4 ;;
  let it := it_new in
  _ <- hint O t it (4, 4) ;;
  it <- next O t it (Some (10, 1)) ;; _ <- hint O t it (3, 3) ;;
  it <- next O t it (Some (20, 2)) ;; _ <- hint O t it (2, 2) ;;
  it <- next_back O t it (Some (40, 4)) ;; _ <- hint O t it (1, 1) ;;
  it <- next O t it (Some (30, 3)) ;; hint O t it (0, 0).
(** iter.rs 510-547 *)
Definition diag (a : N) (n : nat) : list (N * N) := map (fun k => (k, k)) (range a n).
Definition iter_many_elements : res unit :=
  t <- built U16Tree (diag 0 100) ;;
  l <- collect U16Tree false 200 t it_new ;; assert (list_eq pair_eq l (diag 0 100)).
Definition iter_backwards_many_elements : res unit :=
  t <- built U16Tree (diag 0 100) ;;
  l <- collect U16Tree true 200 t it_new ;; assert (list_eq pair_eq l (rev (diag 0 100))).
(** iter.rs 550-572 *)
Definition iter_both_state_correct_termination :=
  iter_calls [(5, 5); (10, 10); (15, 15); (20, 20); (25, 25)]
    [(nx, Some (5, 5)); (nb, Some (25, 25)); (nx, Some (10, 10)); (nb, Some (20, 20)); (nx, Some (15, 15)); (nx, None); (nb, None)].
(** iter.rs 575-590 *)
Definition iter_after_exhaustion :=
  iter_calls [(42, 100)] [(nx, Some (42, 100)); (nx, None); (nx, None); (nx, None); (nb, None); (nb, None)].
(** iter.rs 593-604 *)
Definition iter_empty_after_removal : res unit :=
  t <- built U16Tree [(10, 1); (20, 2)] ;;
  ' (ot, _) <- rem U16Tree t 10 ;; t <- expect ot ;; ' (ot, _) <- rem U16Tree t 20 ;; assert (is_none ot).
(** iter.rs 607-625 *)
Definition sized_iter_exact_size : res unit :=
  let O := Sized16 in
  t <- built O [(10, 1); (20, 2); (30, 3)] ;;
  let it := it_new in
  _ <- hint O t it (3, 3) ;; it <- next O t it (Some (10, 1)) ;; _ <- hint O t it (2, 2) ;;
  it <- next O t it (Some (20, 2)) ;; _ <- hint O t it (1, 1) ;;
  it <- next O t it (Some (30, 3)) ;; hint O t it (0, 0).
(** iter.rs 628-644; the map is made by [BTreeMap::new] and [BTreeMap::insert] *)
Definition btree_map_iter_compatibility : res unit :=
  let ins m k v := map_insert (u_cmp (w := 32)) m (b32 k) v in
  let t : vt Map32 := ins (ins (ins [] 10 A) 20 B) 30 C in
  _ <- calls Map32 t it_new [(nx, Some (10, A)); (nb, Some (30, C)); (nx, Some (20, B)); (nx, None)] ;; Ret tt.
(** iter.rs 647-660 *)
Definition iter_with_u32_keys : res unit :=
  let l := [(1000, A); (2000, B); (3000, C); (4000, D)] in
  t <- built U32Tree l ;; l' <- collect U32Tree false 10 t it_new ;; assert (list_eq pair_eq l l').
(** iter.rs 663-675 *)
Definition iter_fused_property :=
  iter_calls [(42, 100)] ((nx, Some (42, 100)) :: (nx, None) :: repeat (nx, None) 10).
(** iter.rs 678-707 *)
Definition iter_values_correctness : res unit :=
  t <- built U16Tree [(5, 10); (15, 30); (10, 20); (20, 40)] ;;
  l <- collect U16Tree false 10 t it_new ;; assert (list_eq pair_eq l [(5, 10); (10, 20); (15, 30); (20, 40)]).
Definition iter_single_next_after_next_back :=
  iter_calls [(10, 1); (20, 2)] [(nb, Some (20, 2)); (nx, Some (10, 1)); (nx, None)].
(** iter.rs 710-730 *)
Definition iter_consumes_all_in_both_state : res unit :=
  t <- built U16Tree (diag 1 10) ;;
  it <- calls U16Tree t it_new [(nx, Some (1, 1)); (nb, Some (10, 10))] ;;
  l <- collect U16Tree false 20 t it ;; assert (N.of_nat (length l) + 1 =? 9).
(** iter.rs 733-763 *)
Definition iter_mixed_pattern_stress : res unit :=
  t <- built U16Tree (diag 0 50) ;;
  it <- calls U16Tree t it_new
    (flat_map (fun j => [(nx, Some (2 * j, 2 * j)); (nx, Some (2 * j + 1, 2 * j + 1)); (nb, Some (49 - j, 49 - j))])
       (range 0 10)) ;;
  l <- collect U16Tree false 100 t it ;; assert (list_eq pair_eq l (diag 20 20)).
Example test_iter : forallb passes
  [iter_single_element; iter_single_element_backwards; iter_two_elements_forward; iter_two_elements_backward;
   iter_state_transition_start_to_front; iter_state_transition_start_to_back; iter_state_transition_front_to_both;
   iter_state_transition_back_to_both; iter_alternating_directions; iter_meet_in_middle; iter_size_hint_tracking;
   iter_many_elements; iter_backwards_many_elements; iter_both_state_correct_termination; iter_after_exhaustion;
   iter_empty_after_removal; sized_iter_exact_size; btree_map_iter_compatibility; iter_with_u32_keys;
   iter_fused_property; iter_values_correctness; iter_single_next_after_next_back; iter_consumes_all_in_both_state;
   iter_mixed_pattern_stress] = true.
Proof. vm_compute. reflexivity. Qed.

(** *** src/bitset/set.rs 247-379 *)
Definition and_bit (a : N * N) (k : u 8) : N * N := and_assign a (bs_from_monad k tt).
(** set.rs 251-265 *)
Definition test_masks : res unit :=
  _ <- each (range 0 128) (fun i => assert (pair_eq (mask_lower (b8 i)) (2 ^ i - 1, 0))) ;;
  _ <- each (range 0 127) (fun i => assert (pair_eq (mask_lower (b8 (128 + i))) (U128_MAX, 2 ^ i - 1))) ;;
  each (range 0 256) (fun i => assert (pair_eq (and_bit (mask_lower (b8 i)) (b8 i)) (0, 0))).
(** set.rs 268-342 *)
Definition shl_max (n : N) : N := (U128_MAX * 2 ^ n) mod 2 ^ 128.
Definition test_mask_higher : res unit :=
  _ <- assert (pair_eq (mask_higher (b8 0)) (shl_max 1, U128_MAX)) ;;
  _ <- assert (pair_eq (mask_higher (b8 255)) (0, 0)) ;;
  _ <- each (range 0 127) (fun i => assert (pair_eq (mask_higher (b8 i)) (shl_max (1 + i), U128_MAX))) ;;
  _ <- assert (pair_eq (mask_higher (b8 127)) (0, U128_MAX)) ;;
  _ <- each (range 128 127) (fun i => assert (pair_eq (mask_higher (b8 i)) (0, shl_max (i - 127)))) ;;
  _ <- each (range 0 256) (fun i => assert (pair_eq (and_bit (mask_higher (b8 i)) (b8 i)) (0, 0))) ;;
  each (range 0 256) (fun i =>
    let lo := mask_lower (b8 i) in
    let hi := mask_higher (b8 i) in
    let bit := words (bs_from_monad (b8 i) tt) in
    let both f (x y : N * N) : N * N := (f (fst x) (fst y), f (snd x) (snd y)) in
    assert (pair_eq (both N.lor (both N.lor lo bit) hi) (U128_MAX, U128_MAX) &&
            pair_eq (both N.land lo hi) (0, 0) && pair_eq (both N.land lo bit) (0, 0) &&
            pair_eq (both N.land hi bit) (0, 0))).
(** set.rs 344-378 *)
Definition key_is (o : option (u 8 * unit)) (r : option N) : res unit :=
  assert (opt_eq N.eqb (omap (fun p => uval (fst p)) o) r).
Definition bs_query (q : ByteSet -> u 8 -> res (option (u 8 * unit))) (s : ByteSet) (k : N) (r : option N) : res unit :=
  o <- q s (b8 k) ;; key_is o r.
Definition ends_are (s : ByteSet) (a b : N) : res unit :=
  x <- lowest s ;; y <- highest s ;; assert ((uval x =? a) && (uval y =? b)).
Definition simple_set : res unit :=
  s <- loop (range 1 255) (bs_from_monad (b8 0) tt) (fun s i =>
    _ <- ends_are s 0 (i - 1) ;;
    _ <- bs_query bs_predecessor s i (Some (i - 1)) ;;
    ' (s, _) <- bs_insert s (b8 i) tt ;;
    _ <- bs_query bs_successor s 0 (Some 1) ;;
    _ <- bs_query bs_successor s (i - 1) (Some i) ;;
    _ <- bs_query bs_predecessor s i (Some (i - 1)) ;; Ret s) ;;
  y <- highest s ;; _ <- assert (uval y =? 255) ;;
  s <- loop (range 1 255) (bs_from_monad (b8 0) tt) (fun s i =>
    _ <- bs_query bs_successor s (i - 1) None ;;
    _ <- ends_are s (i - 1) (i - 1) ;;
    _ <- bs_query bs_predecessor s (i - 1) None ;;
    _ <- bs_query bs_predecessor s i (Some (i - 1)) ;;
    ' (s, _) <- bs_insert s (b8 i) tt ;;
    _ <- (if 1 <? i then bs_query bs_successor s 0 (Some (i - 1)) else Ret tt) ;;
    _ <- bs_query bs_successor s (i - 1) (Some i) ;;
    y <- highest s ;; _ <- assert (uval y =? i) ;;
    r <- bs_remove s (b8 (i - 1)) ;; ' (os, p) <- unwrap_ok r ;;
    s <- expect os ;; _ <- assert (uval (fst p) =? i - 1) ;;
    _ <- bs_query bs_successor s 0 (Some i) ;; Ret s) ;;
  ends_are s 255 255.
Example test_set : forallb passes [test_masks; test_mask_higher; simple_set] = true.
Proof. vm_compute. reflexivity. Qed.

(** *** src/bitset/map/mod.rs 302-317 *)
Definition simple_map : res unit :=
  let CO := ByteMap_coll ByteSet_ops in
  m <- c_create CO (b8 0) (bs_from_monad (b8 0) tt) ;;
  ' (m, _) <- c_insert_key CO m (b8 0) (b8 5, tt) ;; ' (m, _) <- c_insert_key CO m (b8 1) (b8 5, tt) ;; Ret tt.
Example test_simple_map : passes simple_map = true.
Proof. vm_compute. reflexivity. Qed.

(** *** src/collection/array.rs 200-379, src/collection/hash.rs 126-254: the two test modules make the same calls *)
Section Collections.
  Context (CO : CollOps (u 8) (u 8) unit ByteSet_ops) (count : ct CO -> N).
  Definition one (k : N) : ByteSet := bs_from_monad (b8 k) tt.
  Definition two (k l : N) : res ByteSet := rmap fst (bs_insert (one k) (b8 l) tt).
  Definition has (c : ct CO) (h : N) (b : bool) : res unit :=
    o <- c_get CO c (b8 h) ;; assert (Bool.eqb (is_some o) b).
  Definition has_mut (c : ct CO) (h : N) (b : bool) : res unit :=
    o <- c_get_mut CO c (b8 h) ;; assert (Bool.eqb (is_some o) b).
  Definition add (c : ct CO) (h k : N) : res (ct CO * result (u 8) (u 8 * option (u 8 * unit))) :=
    c_insert_key CO c (b8 h) (b8 k, tt).
  Definition rm (c : ct CO) (h k : N) : res (option (ct CO * bool) * (u 8 * unit)) :=
    c_remove_key CO c (b8 h) (fun t => r <- bs_remove t (b8 k) ;; unwrap_ok r).
  Definition maybe_rm (c : ct CO) (h k : N) := c_maybe_remove_key CO c (b8 h) (fun t => bs_remove t (b8 k)).

  Definition collection_create : res unit :=
    c <- c_create CO (b8 10) (one 5) ;; _ <- assert (count c =? 1) ;; _ <- has c 10 true ;; has c 11 false.
  Definition collection_get_operations : res unit :=
    c <- c_create CO (b8 10) (one 5) ;;
    _ <- has c 10 true ;; _ <- has_mut c 10 true ;; _ <- has c 20 false ;; _ <- has_mut c 20 false ;;
    o <- c_get CO c (b8 10) ;; t <- expect o ;; assert (is_present t (b8 5)).
  Definition collection_insert_new_key : res unit :=
    c <- c_create CO (b8 10) (one 5) ;;
    ' (c, r) <- add c 20 7 ;; h <- unwrap_ok r ;; _ <- assert (uval h =? 20) ;; _ <- assert (count c =? 2) ;;
    _ <- has c 10 true ;; has c 20 true.
  Definition collection_insert_existing_key : res unit :=
    c <- c_create CO (b8 10) (one 5) ;;
    ' (c, r) <- add c 10 7 ;;
    match r with
    | Ok _ => Panic
    | Err (h, v) => _ <- assert (uval h =? 10) ;; _ <- assert (is_none v) ;; assert (count c =? 1)
    end.
  Definition collection_remove_last_element : res unit :=
    c <- c_create CO (b8 10) (one 5) ;;
    ' (r, p) <- rm c 10 5 ;; _ <- assert (is_none r) ;; assert (uval (fst p) =? 5).
  Definition collection_remove_one_element_from_tree : res unit :=
    t <- two 5 6 ;; c <- c_create CO (b8 10) t ;;
    ' (r, p) <- rm c 10 5 ;; ' (c, removed) <- expect r ;;
    _ <- assert (count c =? 1) ;; _ <- assert (negb removed) ;; _ <- assert (uval (fst p) =? 5) ;;
    o <- c_get CO c (b8 10) ;; t <- expect o ;; assert (is_present t (b8 6) && negb (is_present t (b8 5))).
  Definition collection_remove_entire_tree : res unit :=
    t <- two 5 6 ;; c <- c_create CO (b8 10) t ;;
    ' (c, _) <- add c 20 7 ;; _ <- assert (count c =? 2) ;;
    ' (r, _) <- rm c 10 5 ;; ' (c, removed) <- expect r ;; _ <- assert (negb removed) ;;
    ' (r, _) <- rm c 10 6 ;; ' (c, removed) <- expect r ;; _ <- assert removed ;;
    _ <- assert (count c =? 1) ;; _ <- has c 10 false ;; has c 20 true.
  Definition collection_remove_from_multi_element : res unit :=
    t <- two 5 6 ;; c <- c_create CO (b8 10) t ;;
    ' (c, _) <- add c 20 7 ;; _ <- assert (count c =? 2) ;;
    ' (r, p) <- rm c 10 5 ;; ' (c, removed) <- expect r ;;
    _ <- assert (count c =? 2) ;; _ <- assert (negb removed) ;; assert (uval (fst p) =? 5).
  Definition collection_maybe_remove_not_found : res unit :=
    c <- c_create CO (b8 10) (one 5) ;; r <- maybe_rm c 20 5 ;; assert (negb (is_ok r)).
  Definition collection_maybe_remove_element_not_in_tree : res unit :=
    c <- c_create CO (b8 10) (one 5) ;; r <- maybe_rm c 10 99 ;; assert (negb (is_ok r)).
  Definition collection_maybe_remove_success : res unit :=
    c <- c_create CO (b8 10) (one 5) ;;
    r <- maybe_rm c 10 5 ;; ' (oc, p) <- unwrap_ok r ;; _ <- assert (is_none oc) ;; assert (uval (fst p) =? 5).
  Definition collection_boundary_keys : res unit :=
    c <- c_create CO (b8 0) (one 0) ;; ' (c, r) <- add c 255 255 ;; _ <- unwrap_ok r ;;
    _ <- has c 0 true ;; _ <- has c 255 true ;; assert (count c =? 2).
  Definition collection_all_slots_filled : res unit :=
    c <- c_create CO (b8 0) (one 0) ;;
    c <- loop [1; 50; 100; 150; 200; 255] c (fun c k => ' (c, r) <- add c k k ;; _ <- unwrap_ok r ;; Ret c) ;;
    _ <- assert (count c =? 7) ;; each [0; 1; 50; 100; 150; 200; 255] (fun k => has c k true).
  Definition collection_tests : list (res unit) :=
    [collection_create; collection_get_operations; collection_insert_new_key; collection_insert_existing_key;
     collection_remove_last_element; collection_remove_one_element_from_tree; collection_remove_entire_tree;
     collection_remove_from_multi_element; collection_maybe_remove_not_found;
     collection_maybe_remove_element_not_in_tree; collection_maybe_remove_success; collection_boundary_keys;
     collection_all_slots_filled].
End Collections.
Example test_array : forallb passes (collection_tests (Array_coll u8_idx ByteSet_ops) ac_count) = true.
Proof. vm_compute. reflexivity. Qed.
Example test_hash : forallb passes (collection_tests (Hash_coll u_eqb ByteSet_ops) (fun m => N.of_nat (length m))) = true.
Proof. vm_compute. reflexivity. Qed.

(** *** src/key.rs 742-984.  The two loops over all pairs of i8 and i16 are covered by C26 for all keys; here the
    i8 one runs over the multiples of 3 from MIN, the ignored i16 one is left out. *)
Definition cmp_eqb (a b : comparison) : bool :=
  match a, b with Lt, Lt => true | Eq, Eq => true | Gt, Gt => true | _, _ => false end.
Definition ordering {K H L} (ko : KeyOps K H L) (l : list K) : bool :=
  forallb (fun a => forallb (fun b =>
    let (ah, al) := k_split_val ko a in
    let (bh, bl) := k_split_val ko b in
    cmp_eqb (k_cmp ko a b) (match hi_cmp ko ah bh with Eq => lo_cmp ko al bl | c => c end)) l) l.
Definition roundtrip {K H L} (ko : KeyOps K H L) (l : list K) : bool :=
  forallb (fun a => let (h, l) := k_split_val ko a in cmp_eqb (k_cmp ko a (k_join ko h l)) Eq) l.
Definition is (h : N) (l : list Z) : list (i h) := map (packi h) l.
Definition us (w : N) (l : list N) : list (u w) := map (pack w) l.
Example test_key : forallb id
  [ordering i8_key (is 7 (map (fun k => (-128 + 3 * Z.of_nat k)%Z) (seq 0 86)));
   ordering i16_key (is 15 [-32768; -32767; -1000; -100; -1; 0; 1; 100; 1000; 32766; 32767]%Z);
   ordering i32_key (is 31 [-2147483648; -2147483647; -1000000; -1000; -1; 0; 1; 1000; 1000000; 2147483646; 2147483647]%Z);
   roundtrip i8_key (is 7 [-128; -1; 0; 1; 127]%Z);
   roundtrip i16_key (is 15 [-32768; -1000; -1; 0; 1; 1000; 32767]%Z);
   roundtrip i32_key (is 31 [-2147483648; -1000000; -1; 0; 1; 1000000; 2147483647]%Z);
   roundtrip i64_key (is 63 [-9223372036854775808; -1000000000; -1; 0; 1; 1000000000; 9223372036854775807]%Z);
   negb (bool_from_U2 (U2_from_u8 (b8 0))); bool_from_U2 (U2_from_u8 (b8 1));
   negb (bool_from_U2 (U2_from_u8 (b8 2))); bool_from_U2 (U2_from_u8 (b8 3));
   roundtrip U2_key (us 2 (range 0 4)); roundtrip U4_key (us 4 (range 0 16)); roundtrip u8_key (us 8 (range 0 256));
   roundtrip u16_key (us 16 [0; 1; 255; 256; 1000; 65534; 65535]);
   roundtrip u32_key (us 32 [0; 1; 65535; 65536; 1000000; 4294967294; 4294967295]);
   roundtrip u64_key (us 64 [0; 1; 4294967295; 4294967296; 18446744073709551614; 18446744073709551615]);
   roundtrip (arr2_key u_cmp) [A2 (b8 5) (b8 10)]; roundtrip (arr3_key u_cmp) [A3 (b8 5) (b8 10) (b8 15)];
   roundtrip (arr4_key u_cmp) [A4 (b8 1) (b8 2) (b8 3) (b8 4)];
   roundtrip (arr8_key u_cmp) [A8 (b8 1) (b8 2) (b8 3) (b8 4) (b8 5) (b8 6) (b8 7) (b8 8)];
   ordering (arr2_key u_cmp) [A2 (b8 1) (b8 5); A2 (b8 1) (b8 10); A2 (b8 2) (b8 3)]] = true.
Proof. vm_compute. reflexivity. Qed.
