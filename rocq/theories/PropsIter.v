(** C21-C24, C40: iteration (src/iter.rs).

    [it_run O keq t dirs it]: the calls [dirs] ([false] is [next], [true] is [next_back]) on the iterator [it] of the tree [t];
    [it_new] is the fresh iterator; [sp_pops dirs l]: popping the list [l] at the front or back. *)
From Verif Require Import Base Ints Ops Spec Key ByteSet ByteMap Coll Boxed BTree SizedT Tree Markers Iter Laws Lists CollProofs
  KeyProofs Hist Types HistProofs TypesProofs HistCor Concrete IterSpec IterProofs Fits FitsCor.

(** ** C21 Forward (and backward) iteration yields every pair once, in order, and then stops *)
Theorem C21_forward : forall (B : Build) fixed K V cmp (O : VebOps K V) (T : VebType fixed K V cmp O) adm t l m, allowed T adm ->
  reached cmp O adm t l -> ascending cmp l /\
  (exists it, it_run O (eqb cmp) t (repeat false (length l + m)) it_new = Ret (it, map Some l ++ repeat None m)) /\
  (exists it, it_run O (eqb cmp) t (repeat true (length l + m)) it_new = Ret (it, map Some (rev l) ++ repeat None m)).
Proof. exact (fun B fixed K V cmp O T adm t l m H => iter_forward (type_ord T) (type_laws T) (allowed_covered T adm H) t l m). Qed.
Print Assumptions C21_forward.
(** ** C22 Any interleaving of next and next_back consumes a deque *)
Theorem C22_deque : forall (B : Build) fixed K V cmp (O : VebOps K V) (T : VebType fixed K V cmp O) adm t l dirs, allowed T adm ->
  reached cmp O adm t l -> exists it, it_run O (eqb cmp) t dirs it_new = Ret (it, fst (sp_pops dirs l)).
Proof. exact (fun B fixed K V cmp O T adm t l dirs H => iter_deque (type_ord T) (type_laws T) (allowed_covered T adm H) t l dirs). Qed.
Print Assumptions C22_deque.
(** ** C23 The iterator is fused *)
Theorem C23_fused : forall (B : Build) K V (O : VebOps K V) keq t d it it', it_call O keq t d it = Ret (it', None) ->
  forall dirs, it_run O keq t dirs it' = Ret (it', repeat None (length dirs)).
Proof. exact (fun B K V O keq t d it it' H dirs => it_fused O keq t dirs it' (it_call_none O keq t d it it' H)). Qed.
Print Assumptions C23_fused.
(** ** C24 size_hint bounds the remaining items *)
Theorem C24_size_hint : forall (B : Build) fixed K V cmp (O : VebOps K V) (T : VebType fixed K V cmp O) adm t l dirs it os, allowed T adm ->
  reached cmp O adm t l -> it_run O (eqb cmp) t dirs it_new = Ret (it, os) ->
  exists lo hi, it_size_hint O t it = Ret (lo, hi) /\
    (lo <= N.of_nat (length (snd (sp_pops dirs l))))%N /\
    (forall h, hi = Some h -> (N.of_nat (length (snd (sp_pops dirs l))) <= h)%N).
Proof. exact (fun B fixed K V cmp O T adm t l dirs it os H => iter_hint (type_ord T) (type_laws T) (allowed_covered T adm H) t l dirs it os). Qed.
Print Assumptions C24_size_hint.
Theorem C24_exact : forall (B : Build) fixed K V cmp (O : VebOps K V) (T : VebType fixed K V cmp O) adm t l dirs it os, allowed T adm -> counts T = true ->
  reached cmp O adm t l -> it_run O (eqb cmp) t dirs it_new = Ret (it, os) ->
  it_size_hint O t it = Ret (N.of_nat (length (snd (sp_pops dirs l))), Some (N.of_nat (length (snd (sp_pops dirs l))))).
Proof.
  exact (fun B fixed K V cmp O T adm t l dirs it os H Hc => iter_hint_exact (type_ord T) (type_laws T) (allowed_covered T adm H) t l dirs it os
    (counts_exact T Hc)).
Qed.
Print Assumptions C24_exact.

(** a two-level tree of five pairs, popped from both ends, past the end *)
Definition it_show {w} (r : res (Iter (u w) * list (option (u w * N)))) : list (option (N * N)) :=
  match r with Ret (_, os) => map (fun o => match o with Some (k, v) => Some (uval k, v) | None => None end) os | Panic => [] end.
Example C21_C24_case : allowed (TH32 false N) (adm_ascending u_cmp) /\
  reached u_cmp (H32 false N) (adm_ascending u_cmp) tame_tree tame_list /\
  it_show (it_run (H32 false N) (eqb u_cmp) tame_tree [false; true; true; false; true; true; false; false] it_new) =
  [Some (70000, 10); Some (200001, 8); Some (200000, 6); Some (70001, 9); Some (70003, 5); None; None; None]%N.
Proof. split; [apply AL_ascending|]. split; [exact tame_reached|]. vm_compute. reflexivity. Qed.
Example C23_case : exists it', it_call (H32 false N) (eqb u_cmp) tame_tree true (IT (Some (Front (b32 200001))) 5%N) = Ret (it', None).
Proof. eexists. vm_compute. reflexivity. Qed.
Example C24_case : counts (VT_Sized false _ _ _ _ (TH32 false N)) = true /\
  reached u_cmp (Sized_ops (H32 false N)) (adm_ascending u_cmp) (tree_of (Sized_ops (H32 false N)) tame (SZ tame_tree 0%N)) tame_list.
Proof.
  split; [reflexivity|]. apply (reached_asc_ex u_cmp (u_cmp_laws _) tame).
  - apply tree_of_ok. vm_compute. reflexivity.
  - apply look_inj. vm_compute. reflexivity.
  - vm_compute. reflexivity.
Qed.

(** ** C21 on arbitrary histories of [Tree]: iteration may go on for ever (until the item counter overflows) *)
Definition cyclic : list (op (u 16) N) :=
  [Insert (b16 20) 1%N; Insert (b16 30) 2%N; Insert (b16 10) 3%N; Insert (b16 5) 4%N; RemoveMin; Insert (b16 25) 5%N].
Definition cyclic_tree : vt (M16 false N) := tree_of (M16 false N) cyclic (v_from_monad (M16 false N) (b16 0) 0%N).
Lemma cyclic_reached : exists l, reached u_cmp (M16 false N) adm_any cyclic_tree l /\ length l = 4.
Proof.
  exists (fst (sp_run u_cmp cyclic [])). split; [|vm_compute; reflexivity]. apply (reached_any_ex u_cmp cyclic).
  - apply tree_of_ok. vm_compute. reflexivity.
  - reflexivity.
  - vm_compute. reflexivity.
Qed.
Lemma succ_shown k a v : match v_successor (M16 false N) cyclic_tree k with Ret (Some p) => Some (uval (fst p), snd p) | _ => None end = Some (uval a, v) ->
  v_successor (M16 false N) cyclic_tree k = Ret (Some (a, v)).
Proof.
  destruct (v_successor (M16 false N) cyclic_tree k) as [[[k' v']|]|]; try discriminate. cbn. intros H. injection H as H ->.
  do 3 f_equal. apply u_eq. exact H.
Qed.
Lemma cyclic_next e k a v : v_successor (M16 false N) cyclic_tree k = Ret (Some (a, v)) -> (e + 1 <= usize_max)%N ->
  it_next (M16 false N) (eqb u_cmp) cyclic_tree (IT (Some (Front k)) e) = Ret (IT (Some (Front a)) (e + 1), Some (a, v)).
Proof.
  intros E He. unfold it_next. cbn [it_data]. rewrite E. cbn [bind fst]. unfold emit, usize_add. cbn [it_emitted].
  apply N.leb_le in He. rewrite He. reflexivity.
Qed.
Lemma cyclic_run n : forall e k, (k = b16 20 \/ k = b16 10) -> (e + N.of_nat n <= usize_max)%N ->
  exists it os, it_run (M16 false N) (eqb u_cmp) cyclic_tree (repeat false n) (IT (Some (Front k)) e) = Ret (it, os) /\
    length os = n /\ ~ In None os.
Proof.
  assert (E20 : v_successor (M16 false N) cyclic_tree (b16 20) = Ret (Some (b16 10, 3%N))) by (apply succ_shown; vm_compute; reflexivity).
  assert (E10 : v_successor (M16 false N) cyclic_tree (b16 10) = Ret (Some (b16 20, 1%N))) by (apply succ_shown; vm_compute; reflexivity).
  induction n as [|n IH]; intros e k Hk He.
  - exists (IT (Some (Front k)) e), []. split; [reflexivity|]. split; [reflexivity|]. intros [].
  - cbn [repeat it_run]. unfold it_call. assert (He1 : (e + 1 <= usize_max)%N) by lia.
    destruct Hk as [-> | ->].
    + rewrite (cyclic_next _ _ _ _ E20 He1). cbn [bind]. destruct (IH (e + 1)%N (b16 10)) as [it [os [E [H1 H2]]]]; [auto|lia|].
      rewrite E. cbn [bind]. exists it, (Some (b16 10, 3%N) :: os). split; [reflexivity|]. split; [cbn; congruence|].
      intros [H|H]; [discriminate H|auto].
    + rewrite (cyclic_next _ _ _ _ E10 He1). cbn [bind]. destruct (IH (e + 1)%N (b16 20)) as [it [os [E [H1 H2]]]]; [auto|lia|].
      rewrite E. cbn [bind]. exists it, (Some (b16 20, 1%N) :: os). split; [reflexivity|]. split; [cbn; congruence|].
      intros [H|H]; [discriminate H|auto].
Qed.
Theorem C21_forward_refuted : exists t l, reached u_cmp (M16 false N) adm_any t l /\ length l = 4 /\
  forall n, (N.of_nat n <= usize_max)%N -> exists it os,
    it_run (M16 false N) (eqb u_cmp) t (repeat false n) it_new = Ret (it, os) /\ length os = n /\ ~ In None os.
Proof.
  exists cyclic_tree. destruct cyclic_reached as [l [H1 H2]]. exists l. split; auto. split; auto. intros [|n] Hn.
  - exists it_new, []. split; [reflexivity|]. split; [reflexivity|]. intros [].
  - assert (Em : v_min_val (M16 false N) cyclic_tree = Ret (b16 20, 1%N)).
    { assert (H : match v_min_val (M16 false N) cyclic_tree with Ret p => Some (uval (fst p), snd p) | _ => None end = Some (20%N, 1%N))
        by (vm_compute; reflexivity).
      destruct (v_min_val (M16 false N) cyclic_tree) as [[k v]|]; [|discriminate]. cbn in H. injection H as H ->.
      do 2 f_equal. apply u_eq. rewrite H. vm_compute. reflexivity. }
    cbn [repeat it_run]. unfold it_call, it_next. cbn [it_data it_new]. rewrite Em. cbn [bind fst].
    assert (E1 : emit (V := N) it_new (Front (b16 20)) (b16 20, 1%N) = Ret (IT (Some (Front (b16 20))) 1%N, Some (b16 20, 1%N))) by reflexivity.
    fold (@it_new (u 16)). rewrite E1. cbn [bind].
    destruct (cyclic_run n 1%N (b16 20)) as [it [os [E [H3 H4]]]]; [auto|lia|].
    rewrite E. cbn [bind]. exists it, (Some (b16 20, 1%N) :: os). split; [reflexivity|]. split; [cbn; congruence|].
    intros [H|H]; [discriminate H|auto].
Qed.
Print Assumptions C21_forward_refuted.

(** ** C40 Iteration never panics: so on admissible histories, not on all of them *)
Theorem C40_iter_no_panic : forall (B : Build) fixed K V cmp (O : VebOps K V) (T : VebType fixed K V cmp O) adm t l dirs, allowed T adm ->
  reached cmp O adm t l -> it_run O (eqb cmp) t dirs it_new <> Panic.
Proof. exact (fun B fixed K V cmp O T adm t l dirs H => iter_no_panic (type_ord T) (type_laws T) (allowed_covered T adm H) t l dirs). Qed.
Print Assumptions C40_iter_no_panic.
Example C40_case : allowed (TH32 false N) (adm_ascending u_cmp) /\
  reached u_cmp (H32 false N) (adm_ascending u_cmp) tame_tree tame_list.
Proof. split; [apply AL_ascending|exact tame_reached]. Qed.
(** 10, 20, 5 inserted, then next, next_back, next, next: the debug assertion of iter.rs fails *)
Theorem C40_iter_no_panic_refuted : exists t l dirs, reached u_cmp (M16 false N) adm_any t l /\
  it_run (M16 false N) (eqb u_cmp) t dirs it_new = Panic.
Proof.
  exists (tree_of (M16 false N) [Insert (b16 10) 1%N; Insert (b16 20) 2%N; Insert (b16 5) 3%N] (v_from_monad (M16 false N) (b16 0) 0%N)),
    [(b16 5, 3%N); (b16 10, 1%N); (b16 20, 2%N)], [false; true; false; false].
  split; [|vm_compute; reflexivity].
  apply (reached_any_ex u_cmp [Insert (b16 10) 1%N; Insert (b16 20) 2%N; Insert (b16 5) 3%N]).
  - apply tree_of_ok. vm_compute. reflexivity.
  - apply look_inj. vm_compute. reflexivity.
  - vm_compute. reflexivity.
Qed.
Print Assumptions C40_iter_no_panic_refuted.
