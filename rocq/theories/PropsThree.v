(** C65: what the code answers on every history, the defect of [Tree::insert] (C04, C43) included.

    Reading guide.  [th_run cmp cs None]: the calls [cs] answered by a pair called minimum, a pair called maximum and a sorted list of pairs called
    between (Three.v); the defect is one arm of it.  [th_fitting cmp fit cs None]: each pair that goes between passes the test [fit] there, and there
    is room for it.  [fits_between ko (fits TS) (fits TT)]: the condition of C43 on the pairs of the middle: the insertions into the summary and the
    children meet it in turn.  [th_state cmp O ot os]: the tree hands out what is in [os] in its order, and an iterator over it, called at
    either end in any mix, sees [th_walk], which says where it panics as well. *)
From Verif Require Import Base Ints Ops Spec Laws Key KeyProofs Coll ByteMap BTree Boxed SizedT Tree Markers Types TypesProofs Hist Iter IterSpec Fits FitsCor
  Concrete Three ThreeCor.

(** At any depth: as long as the defect strikes at the top only *)
Theorem C65_exactly : forall (B : Build) K Hi Lo V (ko : KeyOps K Hi Lo), KeyLaws ko ->
  forall (S : VebOps Hi unit) (Tr : VebOps Lo V) (C : CollOps Hi Lo V Tr)
  (TS : VebType false Hi unit (hi_cmp ko) S) (TT : VebType false Lo V (lo_cmp ko) Tr), CollType Tr Hi C ->
  let O := Tree_ops false ko S Tr C in forall cs, th_fitting (k_cmp ko) (fits_between ko (fits TS) (fits TT)) cs None ->
  exists ot, run O cs None = Ret (ot, snd (th_run (k_cmp ko) cs None)) /\ th_state (k_cmp ko) O ot (fst (th_run (k_cmp ko) cs None)).
Proof. exact (fun B K Hi Lo V ko KL S Tr C TS TT CT => three_all ko KL S Tr C TS TT CT). Qed.
Print Assumptions C65_exactly.
(** One level of [Tree], as in Marker16 and Marker16Empty: whatever the history *)
Theorem C65_one_level : forall (B : Build) K Hi Lo V (ko : KeyOps K Hi Lo), KeyLaws ko ->
  forall (S : VebOps Hi unit) (Tr : VebOps Lo V) (C : CollOps Hi Lo V Tr)
  (TS : VebType false Hi unit (hi_cmp ko) S) (TT : VebType false Lo V (lo_cmp ko) Tr), CollType Tr Hi C ->
  plain TS = true -> plain TT = true ->
  let O := Tree_ops false ko S Tr C in forall cs, th_fitting (k_cmp ko) (fun _ _ => true) cs None ->
  exists ot, run O cs None = Ret (ot, snd (th_run (k_cmp ko) cs None)) /\ th_state (k_cmp ko) O ot (fst (th_run (k_cmp ko) cs None)).
Proof. exact (fun B K Hi Lo V ko KL S Tr C TS TT CT => three_plain ko KL S Tr C TS TT CT). Qed.
Print Assumptions C65_one_level.
(** In a box: the same *)
Theorem C65_boxed : forall (B : Build) K Hi Lo V (ko : KeyOps K Hi Lo), KeyLaws ko ->
  forall (S : VebOps Hi unit) (Tr : VebOps Lo V) (C : CollOps Hi Lo V Tr)
  (TS : VebType false Hi unit (hi_cmp ko) S) (TT : VebType false Lo V (lo_cmp ko) Tr), CollType Tr Hi C ->
  let O := Box_ops (Tree_ops false ko S Tr C) in forall cs, th_fitting (k_cmp ko) (fits_between ko (fits TS) (fits TT)) cs None ->
  exists ot, run O cs None = Ret (ot, snd (th_run (k_cmp ko) cs None)) /\ th_state (k_cmp ko) O ot (fst (th_run (k_cmp ko) cs None)).
Proof. exact (fun B K Hi Lo V ko KL S Tr C TS TT CT => three_boxed ko KL S Tr C TS TT CT). Qed.
Print Assumptions C65_boxed.
(** With a size: the same, and the size counts what the tree holds, keys stored twice included *)
Theorem C65_sized : forall (B : Build) K Hi Lo V (ko : KeyOps K Hi Lo), KeyLaws ko ->
  forall (S : VebOps Hi unit) (Tr : VebOps Lo V) (C : CollOps Hi Lo V Tr)
  (TS : VebType false Hi unit (hi_cmp ko) S) (TT : VebType false Lo V (lo_cmp ko) Tr), CollType Tr Hi C ->
  let O := Sized_ops (Tree_ops false ko S Tr C) in forall cs, th_fitting (k_cmp ko) (fits_between ko (fits TS) (fits TT)) cs None ->
  exists ot, run O cs None = Ret (ot, snd (th_run (k_cmp ko) cs None)) /\ th_state (k_cmp ko) O ot (fst (th_run (k_cmp ko) cs None)) /\
  forall t s, ot = Some t -> fst (th_run (k_cmp ko) cs None) = Some s -> sz_len t = N.of_nat (length (th_all s)).
Proof. exact (fun B K Hi Lo V ko KL S Tr C TS TT CT => three_sized ko KL S Tr C TS TT CT). Qed.
Print Assumptions C65_sized.
(** Any three insertions of which the last has the smallest key: an iterator misses the middle one, one that runs backwards hands out the two others
    without end, and one called from both ends panics in a debug build *)
Theorem C65_three_insertions : forall (B : Build) K Hi Lo V (ko : KeyOps K Hi Lo), KeyLaws ko ->
  forall (S : VebOps Hi unit) (Tr : VebOps Lo V) (C : CollOps Hi Lo V Tr)
  (TS : VebType false Hi unit (hi_cmp ko) S) (TT : VebType false Lo V (lo_cmp ko) Tr), CollType Tr Hi C ->
  forall x y z (a b c : V) cs, let O := Tree_ops false ko S Tr C in k_cmp ko z x = Lt -> k_cmp ko x y = Lt ->
  cs = [Insert x a; Insert y b; Insert z c] \/ cs = [Insert y b; Insert x a; Insert z c] ->
  exists t, run O cs None = Ret (Some t, [OP None; OP None; OP None]) /\
  (forall n, (N.of_nat (2 + n) <= usize_max)%N ->
    exists it, it_run O (eqb (k_cmp ko)) t (repeat false (2 + n)) it_new = Ret (it, Some (z, c) :: Some (y, b) :: repeat None n)) /\
  (forall n, (N.of_nat n <= usize_max)%N ->
    exists it, it_run O (eqb (k_cmp ko)) t (repeat true n) it_new = Ret (it, map (fun i => Some (if Nat.even i then (x, a) else (y, b))) (seq 0 n))) /\
  (dbg = true -> it_run O (eqb (k_cmp ko)) t [false; true; false; false] it_new = Panic).
Proof. exact (fun B K Hi Lo V ko KL S Tr C TS TT CT => three_last ko KL S Tr C TS TT CT). Qed.
Print Assumptions C65_three_insertions.

(** Marker16: insertions below the minimum of two or more, and all there is to ask.  The maximum is soon not the greatest key; 900 is stored twice
    for a while; the insertion of 100 then hands back a pair with the key 900. *)
Definition twisted : list (op (u 16) N) :=
  [Insert (b16 500) 1; Insert (b16 900) 2; Insert (b16 300) 3; Max; Find (b16 900); Succ (b16 300); Succ (b16 500); Pred (b16 900);
   Insert (b16 900) 4; Insert (b16 100) 5; Min; Max; Find (b16 500); Find (b16 300); Remove (b16 900); Find (b16 900); Insert (b16 50) 6;
   Insert (b16 400) 7; RemoveMin; Max; FindMut (b16 500) 8; SuccMut (b16 100) 9; PredMut (b16 700) 10; RemoveMax; IsMonad; Insert (b16 20) 11;
   Insert (b16 10) 12; Insert (b16 5) 13; Succ (b16 5); Pred (b16 6); Remove (b16 77); MinMut 14; MaxMut 15; IntoMonad]%N.
Example C65_case :
  th_fitting (V := N) u_cmp (fun _ _ => true) twisted None /\
  map show (answers (run (M16 false N) twisted None)) = map show (snd (th_run u_cmp twisted None)) /\
  map show (answers (run (M16 false N) twisted None)) <> map show (snd (sp_run u_cmp twisted [])).
Proof. split; [vm_compute; repeat split|]. split; [vm_compute; reflexivity|]. vm_compute. discriminate. Qed.
(** After the first 16 of these calls the tree holds three pairs, of which an iterator sees two *)
Definition seen (r : res (Iter (u 16) * list (option (u 16 * N)))) : list (option (N * N) + bool) :=
  match r with Ret (_, ps) => map (fun o => show (OP o)) ps | Panic => [] end.
Definition twisted16 : vt (M16 false N) := tree_of (M16 false N) (firstn 16 twisted) (v_from_monad (M16 false N) (b16 0) 0%N).
Definition seen' (r : option (list (option (u 16 * N)))) : list (option (N * N) + bool) := match r with Some ps => map (fun o => show (OP o)) ps | None => [] end.
(** with a size: after nine calls 900 is stored twice and counted twice; the tenth replaces one of them *)
Example C65_sized_case :
  map show (answers (run (Sized_ops (M16 false N)) twisted None)) = map show (snd (th_run u_cmp twisted None)) /\
  map (fun n => match run (Sized_ops (M16 false N)) (firstn n twisted) None with Ret (Some t, _) => sz_len t | _ => 0%N end) [8; 9; 10; 16] = [3; 4; 4; 3]%N.
Proof. split; vm_compute; reflexivity. Qed.
Example C65_iter_case :
  match fst (th_run u_cmp (firstn 16 twisted) None) with
  | Some s =>
      (map (fun p => (uval (fst p), snd p)) (th_all s) = [(100%N, 5%N); (500%N, 1%N); (300%N, 3%N)]) /\
      seen (it_run (M16 false N) u_eqb twisted16 (repeat false 4) it_new) = seen' (th_walk u_cmp s (repeat false 4) (Some (None, None))) /\
      seen (it_run (M16 false N) u_eqb twisted16 (repeat false 4) it_new) = [inl (Some (100%N, 5%N)); inl (Some (500%N, 1%N)); inl None; inl None] /\
      seen (it_run (M16 false N) u_eqb twisted16 [true; false; true; true] it_new) = seen' (th_walk u_cmp s [true; false; true; true] (Some (None, None))) /\
      seen (it_run (M16 false N) u_eqb twisted16 [true; false; true; true] it_new) =
        [inl (Some (300%N, 3%N)); inl (Some (100%N, 5%N)); inl (Some (500%N, 1%N)); inl (Some (300%N, 3%N))]
  | None => False
  end.
Proof. vm_compute. repeat split. Qed.
(** the smallest last *)
Example C65_three_case :
  let t := tree_of (M16 false N) [Insert (b16 500) 1%N; Insert (b16 900) 2%N; Insert (b16 300) 3%N] (v_from_monad (M16 false N) (b16 0) 0%N) in
  u_cmp (b16 300) (b16 500) = Lt /\ u_cmp (b16 500) (b16 900) = Lt /\
  seen (it_run (M16 false N) u_eqb t (repeat false 4) it_new) = [inl (Some (300%N, 3%N)); inl (Some (900%N, 2%N)); inl None; inl None] /\
  seen (it_run (M16 false N) u_eqb t (repeat true 4) it_new) =
    [inl (Some (500%N, 1%N)); inl (Some (900%N, 2%N)); inl (Some (500%N, 1%N)); inl (Some (900%N, 2%N))].
Proof. vm_compute. repeat split. Qed.
(** Two levels: what goes between passes the tests, and the defect strikes at the top *)
Definition twisted32 : list (op (u 32) N) :=
  [Insert (b32 262150) 1; Insert (b32 900000) 2; Insert (b32 300000) 3; Insert (b32 60000) 5; Max; Succ (b32 262150);
   Find (b32 900000); Pred (b32 300000); Insert (b32 900000) 6; Max; Insert (b32 5) 7; Max; Succ (b32 5); Remove (b32 900000); Succ (b32 262150);
   RemoveMin; RemoveMax; Min; Max]%N.
Example C65_case_32 :
  th_fitting (V := N) u_cmp (fits_between u32_key (fits (T16E false)) (fits (T16 false N))) twisted32 None /\
  map show (answers (run (H32 false N) twisted32 None)) = map show (snd (th_run u_cmp twisted32 None)) /\
  map show (answers (run (H32 false N) twisted32 None)) <> map show (snd (sp_run u_cmp twisted32 [])).
Proof. split; [vm_compute; repeat split|]. split; [vm_compute; reflexivity|]. vm_compute. discriminate. Qed.
