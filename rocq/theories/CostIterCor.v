(** What iterations and histories cost. *)
From Verif Require Import Base Ints Ops Spec ByteSet ByteMap Coll Boxed BTree SizedT Tree Laws Lists Hist Types HistProofs TypesProofs HistCor
  Iter IterSpec IterProofs Cost CostCor CostIter Fits FitsCor.
Local Open Scope N_scope.

Section AllBuilds.
Context {Bd : Build}.

Section Iter.
  Context {K V : Type} {O : VebOps K V} {CO : CVeb O} (E : erases CO) {d s : N} (Hb : bounded CO d s) (keq : K -> K -> bool) (t : vt O).
  Lemma cit_call_erases b it : outcome (cit_call CO keq t b it) = it_call O keq t b it.
  Proof.
    destruct E. unfold cit_call, it_call, cit_next, cit_next_back, it_next, it_next_back.
    destruct b; destruct (it_data it) as [[| | |]|]; try reflexivity; rewrite outcome_bind; apply bind_ext; auto; intros x;
      try destruct x as [p|]; try destruct (keq _ _); try reflexivity; auto; unfold cbind, debug_assert; cbn; destruct (@dbg Bd); reflexivity.
  Qed.
  Lemma cit_run_erases dirs : forall it, outcome (cit_run CO keq t dirs it) = it_run O keq t dirs it.
  Proof.
    induction dirs as [|b ds IH]; intros it; cbn [cit_run it_run]; [reflexivity|].
    rewrite outcome_bind. apply bind_ext; [apply cit_call_erases|]. intros [it1 o]. rewrite outcome_bind. apply bind_ext; [apply IH|].
    intros [it2 os]. reflexivity.
  Qed.
  Lemma cit_call_within b it : within (cit_call CO keq t b it) (5 * d + 1) 0.
  Proof.
    destruct Hb. unfold cit_call, cit_next, cit_next_back.
    assert (Hf : forall A (m : res A) c, within (free m) c 0) by (intros; apply within_free).
    destruct b; destruct (it_data it) as [[| | |]|]; try apply Hf;
      (replace (5 * d + 1) with (5 * d + 1 + 0) by lia);
      (apply within_bind0; [first [apply b_predecessor|apply b_successor|eapply within_le; [first [apply b_min_val|apply b_max_val]| |]; lia]|]);
      intros x _; try destruct x; try destruct (keq _ _); try apply Hf; apply within_bindf; intros; apply Hf.
  Qed.
  Lemma cit_stopped dirs it : it_data it = None -> calls (cit_run CO keq t dirs it) = 0 /\ slots (cit_run CO keq t dirs it) = 0.
  Proof.
    intros H. destruct it as [d0 e]. cbn in H. subst d0. induction dirs as [|b ds [IH1 IH2]]; [split; reflexivity|].
    cbn [cit_run]. assert (E1 : cit_call CO keq t b (IT None e) = free (stop (IT None e))) by (destruct b; reflexivity).
    rewrite E1. unfold stop. cbn [it_emitted].
    assert (Ez : forall A B (x : A) (f : A -> cres B), calls (cbind (free (Ret x)) f) = calls (f x) /\ slots (cbind (free (Ret x)) f) = slots (f x)).
    { intros A B x f. unfold cbind, free, pay. cbn [outcome calls slots]. split; reflexivity. }
    destruct (Ez _ _ (IT None e : Iter K, None : option (K * V)) (fun x => let '(it1, o) := x in ' (it2, os) <~ cit_run CO keq t ds it1 ;; cret (it2, o :: os))) as [-> ->].
    unfold cbind. destruct (outcome (cit_run CO keq t ds (IT None e))) as [[i2 os]|]; cbn [calls slots cret free pay]; rewrite ?IH1, ?IH2; split; reflexivity.
  Qed.
  Lemma cit_run_calls dirs : forall it, calls (cit_run CO keq t dirs it) <= N.of_nat (length dirs) * (5 * d + 1) /\
    slots (cit_run CO keq t dirs it) = 0.
  Proof.
    induction dirs as [|b ds IH]; intros it; [cbn; lia|]. cbn [cit_run length]. rewrite Nat2N.inj_succ, N.mul_succ_l. destruct (cit_call_within b it) as [H1 H2].
    destruct (outcome (cit_call CO keq t b it)) as [[it1 o]|] eqn:Eo; unfold cbind at 1; rewrite Eo; cbn [calls slots]; [|unfold cbind; rewrite Eo; cbn [slots]; lia].
    unfold cbind at 2; rewrite Eo; cbn [calls slots].
    specialize (IH it1). destruct IH as [H3 H4]. unfold cbind. destruct (outcome (cit_run CO keq t ds it1)) as [[it2 os]|]; cbn [calls slots cret free pay]; lia.
  Qed.
End Iter.

(** on a tree that holds [l] the iterator stops after that many items, and costs nothing from then on *)
Section Full.
  Context {K V : Type} {cmp : K -> K -> comparison} (OL : OrdLaws cmp) {O : VebOps K V} (L : VebLaws cmp O).
  Context {CO : CVeb O} (E : erases CO) {d s : N} (Hb : bounded CO d s).
  Context (t : vt O) (l : list (K * V)) (Hr : repr L t l) (Hlen : N.of_nat (length l) <= usize_max).
  Notation keq := (eqb cmp).
  Lemma cit_full dirs : forall it rem, it_inv l it rem ->
    calls (cit_run CO keq t dirs it) <= N.min (N.of_nat (length dirs)) (N.of_nat (length rem) + 1) * (5 * d + 1).
  Proof.
    induction dirs as [|b ds IH]; intros it rem H; [cbn; lia|].
    assert (H1 : exists it1, it_call O keq t b it = Ret (it1, if b then last_error rem else hd_error rem) /\
      it_inv l it1 (if b then removelast rem else tl rem)).
    { unfold it_call. destruct b; [apply (next_back_ok OL L t l Hr Hlen)|apply (next_ok OL L t l Hr Hlen)]; exact H. }
    destruct H1 as [it1 [E1 H1]]. destruct (cit_call_within Hb keq t b it) as [Hc _]. cbn [cit_run length].
    unfold cbind at 1. rewrite (cit_call_erases E), E1. cbn [calls].
    assert (Hx : forall it2, calls (' (it3, os) <~ cit_run CO keq t ds it2 ;; cret (it3, (if b then last_error rem else hd_error rem) :: os)) =
      calls (cit_run CO keq t ds it2)).
    { intros it2. unfold cbind. destruct (outcome (cit_run CO keq t ds it2)) as [[it3 os]|]; cbn [calls cret free pay]; lia. }
    rewrite Hx. destruct rem as [|p rem].
    - assert (E2 : it_data it1 = None).
      { apply (it_call_none O keq t b it). rewrite E1. destruct b; reflexivity. }
      destruct (cit_stopped (CO := CO) keq t ds it1 E2) as [-> _]. cbn [length]. nia.
    - specialize (IH it1 _ H1). assert (El : S (length (if b then removelast (p :: rem) else tl (p :: rem))) = length (p :: rem)).
      { destruct b; [|reflexivity]. destruct (snoc_cases (p :: rem)) as [H2|[r [q H2]]]; [discriminate H2|]. rewrite H2, removelast_app1, app_length. cbn. lia. }
      rewrite <- El. nia.
  Qed.
End Full.
Lemma iter_cost {fixed K V cmp O} (T : VebType fixed K V cmp O) adm t l dirs : allowed T adm -> reached cmp O adm t l ->
  calls (cit_run (type_cost T) (eqb cmp) t dirs it_new) <= N.min (N.of_nat (length dirs)) (N.of_nat (length l) + 1) * (5 * depth T + 1).
Proof.
  intros Ha H. assert (Hl := reached_len (type_ord T) adm t l H). apply (reached_repr (type_ord T) (type_laws T) adm t l (allowed_covered T adm Ha)) in H.
  apply (cit_full (type_ord T) (type_laws T) (type_erases T) (type_bounded T) t l H Hl). apply inv_new.
Qed.
Lemma iter_call_cost {fixed K V cmp O} (T : VebType fixed K V cmp O) t b it :
  calls (cit_call (type_cost T) (eqb cmp) t b it) <= 5 * depth T + 1 /\ slots (cit_call (type_cost T) (eqb cmp) t b it) = 0.
Proof. destruct (cit_call_within (type_bounded T) (eqb cmp) t b it). split; auto. lia. Qed.
Lemma iter_erases {fixed K V cmp O} (T : VebType fixed K V cmp O) t dirs it :
  outcome (cit_run (type_cost T) (eqb cmp) t dirs it) = it_run O (eqb cmp) t dirs it.
Proof. apply (cit_run_erases (type_erases T)). Qed.

(** *** Histories *)
Section Run.
  Context {K V : Type} {O : VebOps K V} {CO : CVeb O} (E : erases CO) {d s : N} (Hb : bounded CO d s).
  Lemma cstep_erases c ot : outcome (cstep CO c ot) = step O c ot.
  Proof.
    destruct E. destruct ot as [t|], c; cbn [cstep step]; try reflexivity;
      unfold cquery, cquery1, cwrite, cwrite1, query, query1, write, write1; try (rewrite outcome_bind; apply bind_ext; [auto|]; intros x;
      try destruct x as [x|]; try destruct x; try reflexivity).
    - rewrite outcome_bind. rewrite e_from_monad. reflexivity.
  Qed.
  Lemma crun_erases cs : forall ot, outcome (crun CO cs ot) = run O cs ot.
  Proof.
    induction cs as [|c cs IH]; intros ot; cbn [crun run]; [reflexivity|].
    rewrite outcome_bind. apply bind_ext; [apply cstep_erases|]. intros [ot1 o]. rewrite outcome_bind. apply bind_ext; [apply IH|].
    intros [ot2 os]. reflexivity.
  Qed.
  Lemma cstep_within c ot : within (cstep CO c ot) (price d c) (match c with Insert _ _ => s | _ => 0 end).
  Proof.
    destruct Hb. assert (Hr : forall A (x : A) n z, within (cret x) n z) by (intros; apply within_ret).
    assert (Hi : forall A B (m : cres A) (f : A -> cres B) n z, within m n z -> (forall x, within (f x) 0 0) -> within (cbind m f) n z).
    { intros A B m f n z H1 H2. replace n with (n + 0) by lia. replace z with (z + 0) by lia. apply within_bind; auto. }
    destruct ot as [t|], c; cbn [cstep price]; try apply Hr; unfold cquery, cquery1, cwrite, cwrite1;
      try (apply Hi; [first [apply b_insert|apply b_remove|apply b_remove_min|apply b_remove_max|apply b_into_monad|apply b_is_monad|apply b_min_val|apply b_max_val
        |apply b_find|apply b_predecessor|apply b_successor|apply b_min_val_mut|apply b_max_val_mut|apply b_find_mut|apply b_predecessor_mut|apply b_successor_mut]
        |intros x; try destruct x as [x|]; try destruct x; apply Hr]).
    - apply Hi; [|intros; apply Hr]. eapply within_le; [apply b_from_monad| |]; lia.
  Qed.
  Lemma crun_within cs : forall ot, within (crun CO cs ot) (total_price d cs) (insertions cs * s).
  Proof.
    induction cs as [|c cs IH]; intros ot; [apply within_ret|]. cbn [crun].
    replace (total_price d (c :: cs)) with (price d c + total_price d cs) by reflexivity.
    assert (Es : insertions (c :: cs) * s = (match c with Insert _ _ => s | _ => 0 end) + insertions cs * s).
    { unfold insertions. cbn [filter]. destruct c; cbn [length]; rewrite ?Nat2N.inj_succ; lia. }
    rewrite Es. apply within_bind; [apply cstep_within|]. intros [ot1 o] _.
    replace (total_price d cs) with (total_price d cs + 0) by lia. replace (insertions cs * s) with (insertions cs * s + 0) by lia.
    apply within_bind; [apply IH|]. intros [ot2 os] _. apply within_ret.
  Qed.
End Run.
Lemma hist_cost {fixed K V cmp O} (T : VebType fixed K V cmp O) cs ot :
  outcome (crun (type_cost T) cs ot) = run O cs ot /\ calls (crun (type_cost T) cs ot) <= total_price (depth T) cs /\
  slots (crun (type_cost T) cs ot) <= insertions cs * largest_array T.
Proof. split; [apply (crun_erases (type_erases T))|]. apply (crun_within (type_bounded T)). Qed.
Lemma iter_call_costs {fixed K V cmp O} (T : VebType fixed K V cmp O) t :
  (forall b it, calls (cit_call (type_cost T) (eqb cmp) t b it) <= 5 * depth T + 1 /\ slots (cit_call (type_cost T) (eqb cmp) t b it) = 0) /\
  (forall b, calls (cit_call (type_cost T) (eqb cmp) t b it_new) <= 1) /\
  (forall dirs it, it_data it = None -> calls (cit_run (type_cost T) (eqb cmp) t dirs it) = 0).
Proof.
  split; [intros; apply iter_call_cost|]. split.
  - intros b. assert (H := type_bounded T). destruct H.
    assert (Hw : within (cit_call (type_cost T) (eqb cmp) t b it_new) (1 + 0) 0); [|apply Hw].
    destruct b; cbn [cit_call cit_next cit_next_back it_new it_data]; unfold cit_call, cit_next, cit_next_back, it_new; cbn [it_data];
      (apply within_bind0; [first [apply b_min_val|apply b_max_val]|intros; apply within_free]).
  - intros dirs it H. apply (cit_stopped (CO := type_cost T) (eqb cmp) t dirs it H).
Qed.
End AllBuilds.
