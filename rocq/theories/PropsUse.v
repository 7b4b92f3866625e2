(** C60: what a caller does with an iterator: loops, [nth], [len].  For the notation see the heads of PropsMap.v and PropsIter.v.
    [loops O keq t d f it a r] (IterUse.v): the loop of std over [next] ([d = false]) or [next_back] with the closure [f], started at [a],
    ends with [r].  [sp_loop], [sp_rloop]: the same over a list.  [leaves O keq t it l]: [it] goes on to give the items of the list [l]. *)
From Verif Require Import Base Ints Ops Spec Key ByteSet ByteMap Coll Boxed BTree SizedT Tree Markers Laws Hist Types HistProofs TypesProofs HistCor
  Iter IterSpec IterProofs IterUse IterUseCor Fits FitsCor Concrete PropsIter.

(** ** C60 Loops over an iterator, from either end and with any closure, end, with the result of the loop over the items left in the
    sorted list, and leave the iterator where the list is left ... *)
Theorem C60_loop : forall (B : Build) fixed K V cmp (O : VebOps K V) (T : VebType fixed K V cmp O) adm A X (f : A -> K * V -> res (A + X)) t l dirs it os a,
  allowed T adm -> reached cmp O adm t l -> it_run O (eqb cmp) t dirs it_new = Ret (it, os) ->
  match sp_loop f (snd (sp_pops dirs l)) a with
  | Ret (rest, s) => exists it', leaves O (eqb cmp) t it' rest /\ forall r, loops O (eqb cmp) t false f it a r <-> r = Ret (it', s)
  | Panic => forall r, loops O (eqb cmp) t false f it a r <-> r = Panic
  end.
Proof. exact (fun B fixed K V cmp O T adm A X f t l dirs it os a H => iter_loop (type_ord T) (type_laws T) (allowed_covered T adm H) f t l dirs it os a). Qed.
Print Assumptions C60_loop.
Theorem C60_rloop : forall (B : Build) fixed K V cmp (O : VebOps K V) (T : VebType fixed K V cmp O) adm A X (f : A -> K * V -> res (A + X)) t l dirs it os a,
  allowed T adm -> reached cmp O adm t l -> it_run O (eqb cmp) t dirs it_new = Ret (it, os) ->
  match sp_rloop f (snd (sp_pops dirs l)) a with
  | Ret (rest, s) => exists it', leaves O (eqb cmp) t it' rest /\ forall r, loops O (eqb cmp) t true f it a r <-> r = Ret (it', s)
  | Panic => forall r, loops O (eqb cmp) t true f it a r <-> r = Panic
  end.
Proof. exact (fun B fixed K V cmp O T adm A X f t l dirs it os a H => iter_rloop (type_ord T) (type_laws T) (allowed_covered T adm H) f t l dirs it os a). Qed.
Print Assumptions C60_rloop.
(** ... [nth] and [nth_back] give the item at that place, and throw away those before it ... *)
Theorem C60_nth : forall (B : Build) fixed K V cmp (O : VebOps K V) (T : VebType fixed K V cmp O) adm t l dirs it os n,
  allowed T adm -> reached cmp O adm t l -> it_run O (eqb cmp) t dirs it_new = Ret (it, os) ->
  let rest := snd (sp_pops dirs l) in
  (exists it', it_nth O (eqb cmp) t false n it = Ret (it', nth_error rest n) /\ leaves O (eqb cmp) t it' (skipn (n + 1) rest)) /\
  (exists it', it_nth O (eqb cmp) t true n it = Ret (it', nth_error (rev rest) n) /\ leaves O (eqb cmp) t it' (firstn (length rest - (n + 1)) rest)).
Proof. exact (fun B fixed K V cmp O T adm t l dirs it os n H => iter_nth (type_ord T) (type_laws T) (allowed_covered T adm H) t l dirs it os n). Qed.
Print Assumptions C60_nth.
(** ... and [len], which src/lib.rs 166 offers for [SizedVebTree], is the number of items left (and would be for any tree that counts) *)
Theorem C60_len : forall (B : Build) fixed K V cmp (O : VebOps K V) (T : VebType fixed K V cmp O) adm t l dirs it os, allowed T adm -> counts T = true ->
  reached cmp O adm t l -> it_run O (eqb cmp) t dirs it_new = Ret (it, os) ->
  it_len O t it = Ret (N.of_nat (length (snd (sp_pops dirs l)))).
Proof.
  exact (fun B fixed K V cmp O T adm t l dirs it os H Hc => iter_len (type_ord T) (type_laws T) (allowed_covered T adm H) t l dirs it os
    (counts_exact T Hc)).
Qed.
Print Assumptions C60_len.
(** With checks a loop ends on every tree whatsoever, and in one way only: if nothing else, the count of items overflows *)
Theorem C60_ends : forall (B : Build), dbg = true -> forall K V (O : VebOps K V) keq t A X d (f : A -> K * V -> res (A + X)) it a,
  exists r, forall r', loops O keq t d f it a r' <-> r' = r.
Proof. exact (fun B Hd K V O keq t A X d f it a => loops_some Hd O keq t d f it a). Qed.
Print Assumptions C60_ends.

(** a tree of five pairs, one popped at each end; the sum of the values left, the first value over 7 from the back, a closure that panics at 9 *)
Definition popped : Iter (u 32) :=
  match it_run (H32 false N) (eqb u_cmp) tame_tree [false; true] it_new with Ret (it, _) => it | Panic => it_new end.
Definition summing (a : N) (p : u 32 * N) : res (N + unit) := Ret (inl (a + snd p)%N).
Definition seeking (a : unit) (p : u 32 * N) : res (unit + N) := Ret (if (7 <? snd p)%N then inr (uval (fst p)) else inl tt).
Definition picky (a : unit) (p : u 32 * N) : res (unit + N) := if (snd p =? 9)%N then Panic else Ret (inl tt).
Example C60_case : allowed (TH32 false N) (adm_ascending u_cmp) /\
  reached u_cmp (H32 false N) (adm_ascending u_cmp) tame_tree tame_list /\
  (exists os, it_run (H32 false N) (eqb u_cmp) tame_tree [false; true] it_new = Ret (popped, os)) /\
  rmap (fun p => (length (fst p), snd p)) (sp_loop summing (snd (sp_pops [false; true] tame_list)) 0%N) = Ret (0, inl 20%N) /\
  rmap (fun p => (map snd (fst p), snd p)) (sp_rloop seeking (snd (sp_pops [false; true] tame_list)) tt) = Ret ([], inr 70001%N) /\
  rmap snd (sp_loop picky (snd (sp_pops [false; true] tame_list)) tt) = Panic.
Proof.
  split; [apply AL_ascending|]. split; [exact tame_reached|]. split; [|repeat split; vm_compute; reflexivity].
  unfold popped. destruct (iter_deque (type_ord (TH32 false N)) (type_laws (TH32 false N))
    (allowed_covered (TH32 false N) _ (AL_ascending (TH32 false N))) tame_tree tame_list [false; true] tame_reached) as [it E]. rewrite E. eauto.
Qed.

(** Once the defect of [Tree::insert] has struck, iteration may go round in circles (C21): [len] then panics in every build ... *)
Theorem C60_len_refuted : forall (B : Build), exists (t : vt (Sized_ops (M16 false N))) l dirs it os,
  reached u_cmp (Sized_ops (M16 false N)) adm_any t l /\
  it_run (Sized_ops (M16 false N)) (eqb u_cmp) t dirs it_new = Ret (it, os) /\ it_len (Sized_ops (M16 false N)) t it = Panic.
Proof.
  intros B. set (t := tree_of (Sized_ops (M16 false N)) cyclic (v_from_monad (Sized_ops (M16 false N)) (b16 0) 0%N)).
  assert (H : match it_run (Sized_ops (M16 false N)) (eqb u_cmp) t (repeat false 5) it_new with
    | Ret (it, _) => match it_len (Sized_ops (M16 false N)) t it with Panic => true | _ => false end | Panic => false end = true)
    by (destruct B as [[] []]; vm_compute; reflexivity).
  destruct (it_run (Sized_ops (M16 false N)) (eqb u_cmp) t (repeat false 5) it_new) as [[it os]|] eqn:E; [|discriminate H].
  destruct (it_len (Sized_ops (M16 false N)) t it) eqn:E'; [discriminate H|].
  exists t, (fst (sp_run u_cmp cyclic [])), (repeat false 5), it, os. split; [|auto]. apply (reached_any_ex u_cmp cyclic).
  - apply tree_of_ok. destruct B as [[] []]; vm_compute; reflexivity.
  - reflexivity.
  - destruct B as [[] []]; vm_compute; reflexivity.
Qed.
Print Assumptions C60_len_refuted.
(** ... and without checks a loop never ends, whatever its closure does short of breaking off *)
Definition round (B : Build) : vt (M16 (B := B) false N) := tree_of (M16 false N) cyclic (v_from_monad (M16 false N) (b16 0) 0%N).
Lemma round_succ (B : Build) k a v : match v_successor (M16 (B := B) false N) (round B) k with Ret (Some p) => Some (uval (fst p), snd p) | _ => None end = Some (uval a, v) ->
  v_successor (M16 (B := B) false N) (round B) k = Ret (Some (a, v)).
Proof.
  destruct (v_successor (M16 (B := B) false N) (round B) k) as [[[k' v']|]|]; try discriminate. cbn. intros H. injection H as H ->.
  do 3 f_equal. apply u_eq. exact H.
Qed.
Lemma round_next (B : Build) (Hd : dbg = false) e k a v : v_successor (M16 (B := B) false N) (round B) k = Ret (Some (a, v)) -> exists e',
  it_next (B := B) (M16 (B := B) false N) (eqb u_cmp) (round B) (IT (Some (Front k)) e) = Ret (IT (Some (Front a)) e', Some (a, v)).
Proof.
  intros E. unfold it_next. cbn [it_data]. rewrite E. cbn [bind fst]. unfold emit, usize_add. cbn [it_emitted]. rewrite Hd.
  destruct (e + 1 <=? usize_max)%N; cbn [bind]; eauto.
Qed.
Theorem C60_loop_refuted : forall B : Build, dbg (Build := B) = false -> exists t l, reached (B := B) u_cmp (M16 (B := B) false N) adm_any t l /\
  forall A X (f : A -> u 16 * N -> res (A + X)) a, (forall b p, exists c, f b p = Ret (inl c)) ->
  forall r, ~ loops (B := B) (M16 (B := B) false N) (eqb u_cmp) t false f it_new a r.
Proof.
  intros B Hd. exists (round B), (fst (sp_run u_cmp cyclic [])). split.
  { apply (reached_any_ex u_cmp cyclic); [apply tree_of_ok; destruct B as [[] []]; try discriminate Hd; vm_compute; reflexivity|reflexivity|destruct B as [[] []]; vm_compute; reflexivity]. }
  intros A X f a Hf.
  assert (E20 : v_successor (M16 (B := B) false N) (round B) (b16 20) = Ret (Some (b16 10, 3%N))) by (apply round_succ; destruct B as [[] []]; try discriminate Hd; vm_compute; reflexivity).
  assert (E10 : v_successor (M16 (B := B) false N) (round B) (b16 10) = Ret (Some (b16 20, 1%N))) by (apply round_succ; destruct B as [[] []]; try discriminate Hd; vm_compute; reflexivity).
  assert (Em : v_min_val (M16 (B := B) false N) (round B) = Ret (b16 20, 1%N)).
  { assert (H : match v_min_val (M16 (B := B) false N) (round B) with Ret p => Some (uval (fst p), snd p) | _ => None end = Some (20%N, 1%N))
      by (destruct B as [[] []]; try discriminate Hd; vm_compute; reflexivity).
    destruct (v_min_val (M16 (B := B) false N) (round B)) as [[k v]|]; [|discriminate]. cbn in H. injection H as H ->.
    do 2 f_equal. apply u_eq. rewrite H. vm_compute. reflexivity. }
  assert (Hl : forall it b r, loops (B := B) (M16 (B := B) false N) (eqb u_cmp) (round B) false f it b r ->
    forall k e, it = IT (Some (Front k)) e -> k = b16 20 \/ k = b16 10 -> False).
  { intros it b r H. induction H as [it b it' E|it b it1 p a1 r E Ef H IH|it b it1 p x E Ef|it b it1 p E Ef|it b E]; intros k e -> Hk;
      cbn [it_call] in E;
      (assert (Hn : exists k' e' v, (k' = b16 20 \/ k' = b16 10) /\
         it_next (B := B) (M16 (B := B) false N) (eqb u_cmp) (round B) (IT (Some (Front k)) e) = Ret (IT (Some (Front k')) e', Some (k', v)))
        by (destruct Hk as [-> | ->]; [destruct (round_next B Hd e _ _ _ E20) as [e' En]|destruct (round_next B Hd e _ _ _ E10) as [e' En]]; eauto 8));
      destruct Hn as [k' [e' [v [Hk' En]]]]; unfold it_call in E; rewrite En in E; try discriminate E.
    - injection E as <- <-. exact (IH k' e' eq_refl Hk').
    - injection E as <- <-. destruct (Hf b (k', v)) as [c Ec]. rewrite Ec in Ef. discriminate Ef.
    - injection E as <- <-. destruct (Hf b (k', v)) as [c Ec]. rewrite Ec in Ef. discriminate Ef. }
  intros r H. assert (E0 : it_call (B := B) (M16 (B := B) false N) (eqb u_cmp) (round B) false it_new = Ret (IT (Some (Front (b16 20))) 1%N, Some (b16 20, 1%N))).
  { unfold it_call, it_next. cbn [it_data it_new]. rewrite Em. unfold emit, usize_add. cbn [bind it_emitted it_new]. destruct B as [[] []]; reflexivity. }
  destruct (Hf a (b16 20, 1%N)) as [c Ec].
  inversion H as [i0 a0 i1 E|i0 a0 i1 p c1 r0 E Ef H1|i0 a0 i1 p x E Ef|i0 a0 i1 p E Ef|i0 a0 E]; subst; rewrite E0 in E; try discriminate E; injection E as <- <-;
    rewrite Ec in Ef; try discriminate Ef.
  exact (Hl _ _ _ H1 _ _ eq_refl (or_introl eq_refl)).
Qed.
Print Assumptions C60_loop_refuted.
