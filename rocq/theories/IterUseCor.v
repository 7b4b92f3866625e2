(** Proofs about the loops of std over the iterator. *)
From Verif Require Import Base Ints Ops Spec Laws Lists Hist Types HistProofs TypesProofs HistCor Iter IterSpec IterProofs IterUse Fits FitsCor
  SizedT Tree ByteMap Coll Key Concrete.

Section Loop.
  Context {B : Build} {K V : Type} {cmp : K -> K -> comparison} (OL : OrdLaws cmp) {O : VebOps K V} (L : VebLaws cmp O).
  Context (t : vt O) (l : list (K * V)) (Hr : repr L t l) (Hlen : (N.of_nat (length l) <= usize_max)%N).
  Notation keq := (eqb cmp).
  Notation it_inv := (it_inv l).

  Lemma call_ok d it rem : it_inv it rem -> exists it1, it_call O keq t d it = Ret (it1, if d then last_error rem else hd_error rem) /\
    it_inv it1 (if d then removelast rem else tl rem).
  Proof. intros H. destruct d; [apply (next_back_ok OL L t l Hr Hlen)|apply (next_ok OL L t l Hr Hlen)]; exact H. Qed.
  Lemma inv_leaves it rem : it_inv it rem -> leaves O keq t it rem.
  Proof. intros H dirs. destruct (it_run_ok OL L t l Hr Hlen dirs it rem H) as [it' [E _]]. eauto. Qed.
  Lemma last_error_snoc {A} (r : list A) a : last_error (r ++ [a]) = Some a /\ removelast (r ++ [a]) = r.
  Proof. split; [|apply removelast_last]. apply last_error_app. Qed.

  (** in the order of iteration *)
  Definition ends_of (d : bool) (rem : list (K * V)) : list (K * V) := if d then rev rem else rem.
  Lemma call_ends d it rem : it_inv it rem -> match ends_of d rem with
    | [] => exists it', it_call O keq t d it = Ret (it', None) /\ it_inv it' []
    | p :: rest => exists it', it_call O keq t d it = Ret (it', Some p) /\ it_inv it' (ends_of d rest)
    end.
  Proof.
    intros H. destruct (call_ok d it rem H) as [it1 [E H1]]. destruct d; cbn [ends_of].
    - destruct (snoc_cases rem) as [-> | [r' [p ->]]].
      + exists it1. auto.
      + destruct (last_error_snoc r' p) as [E1 E2]. rewrite E1, E2 in *. rewrite rev_app_distr. cbn [rev app]. exists it1. rewrite rev_involutive. auto.
    - destruct rem as [|p rem]; exists it1; auto.
  Qed.
  Lemma loops_ok {A X} d (f : A -> K * V -> res (A + X)) : forall rest it a, it_inv it (ends_of d rest) ->
    match sp_loop f rest a with
    | Ret (rest', s) => exists it', loops O keq t d f it a (Ret (it', s)) /\ it_inv it' (ends_of d rest')
    | Panic => loops O keq t d f it a Panic
    end.
  Proof.
    assert (Hinv : forall r, ends_of d (ends_of d r) = r) by (intros r; destruct d; cbn; auto; apply rev_involutive).
    induction rest as [|p rest IH]; intros it a H; pose proof (call_ends d it _ H) as H1; rewrite Hinv in H1; cbn [sp_loop].
    - destruct H1 as [it' [E H1]]. exists it'. split; [apply L_end; exact E|]. destruct d; exact H1.
    - destruct H1 as [it' [E H1]]. destruct (f a p) as [[a1|x]|] eqn:Ef; cbn [bind].
      + specialize (IH it' a1 H1). destruct (sp_loop f rest a1) as [[rest' s]|].
        * destruct IH as [it2 [H2 H3]]. exists it2. split; auto. eapply L_next; eauto.
        * eapply L_next; eauto.
      + exists it'. split; [eapply L_break; eauto|exact H1].
      + eapply L_closure; eauto.
  Qed.
  Lemma nth_ok d n : forall it rem, it_inv it rem -> exists it', it_nth O keq t d n it = Ret (it', nth_error (ends_of d rem) n) /\
    it_inv it' (ends_of d (skipn (Datatypes.S n) (ends_of d rem))).
  Proof.
    induction n as [|n IH]; intros it rem H; pose proof (call_ends d it rem H) as H1; cbn [it_nth].
    - destruct (ends_of d rem) as [|p rest]; destruct H1 as [it' [E H1]]; exists it'; (split; [exact E|]); cbn [skipn]; auto. destruct d; exact H1.
    - destruct (ends_of d rem) as [|p rest] eqn:Ed; destruct H1 as [it' [E H1]]; rewrite E; cbn [bind].
      + exists it'. split; [reflexivity|]. cbn [skipn]. destruct d; exact H1.
      + destruct (IH it' _ H1) as [it2 [E2 H2]]. exists it2. rewrite E2. cbn [nth_error].
        assert (Ei : ends_of d (ends_of d rest) = rest) by (destruct d; cbn; auto; apply rev_involutive).
        rewrite Ei in *. split; [reflexivity|exact H2].
  Qed.
End Loop.

Lemma loops_fun {B : Build} {K V} (O : VebOps K V) keq t {A X} d (f : A -> K * V -> res (A + X)) it a r : loops O keq t d f it a r ->
  forall r', loops O keq t d f it a r' -> r = r'.
Proof.
  intros H. induction H as [it a it' E|it a it1 p a1 r E Ef H IH|it a it1 p x E Ef|it a it1 p E Ef|it a E];
    intros r' H'; inversion H'; subst;
    match goal with E1 : it_call _ _ _ _ _ = _, E2 : it_call _ _ _ _ _ = _ |- _ => rewrite E1 in E2; first [discriminate E2|injection E2 as <-] | _ => idtac end;
    try match goal with E1 : f _ _ = _, E2 : f _ _ = _ |- _ => rewrite E1 in E2; first [discriminate E2|injection E2 as <-] end; auto;
    subst; try match goal with E1 : f _ _ = _, E2 : f _ _ = _ |- _ => rewrite E1 in E2; first [discriminate E2|injection E2 as <-] end; auto.
Qed.

Section Reached.
  Context {B : Build} {K V : Type} {cmp : K -> K -> comparison} (OL : OrdLaws cmp) {O : VebOps K V} (L : VebLaws cmp O)
          {adm : list (K * V) -> K -> Prop} (Hcov : covered L adm).
  Lemma run_inv t l dirs it os : reached cmp O adm t l -> it_run O (eqb cmp) t dirs it_new = Ret (it, os) ->
    repr L t l /\ (N.of_nat (length l) <= usize_max)%N /\ it_inv l it (snd (sp_pops dirs l)).
  Proof.
    intros H E. assert (Hl := reached_len OL adm t l H). apply (reached_repr OL L adm t l Hcov) in H. split; auto. split; auto.
    destruct (it_run_ok OL L t l H Hl dirs it_new l (inv_new l)) as [it' [E' Hi]]. rewrite E in E'. injection E' as <- _. exact Hi.
  Qed.
  Lemma iter_loop {A X} (f : A -> K * V -> res (A + X)) t l dirs it os a : reached cmp O adm t l -> it_run O (eqb cmp) t dirs it_new = Ret (it, os) ->
    match sp_loop f (snd (sp_pops dirs l)) a with
    | Ret (rest, s) => exists it', leaves O (eqb cmp) t it' rest /\ forall r, loops O (eqb cmp) t false f it a r <-> r = Ret (it', s)
    | Panic => forall r, loops O (eqb cmp) t false f it a r <-> r = Panic
    end.
  Proof.
    intros H E. destruct (run_inv t l dirs it os H E) as [Hr [Hl Hi]].
    pose proof (loops_ok OL L t l Hr Hl false f (snd (sp_pops dirs l)) it a Hi) as H1.
    destruct (sp_loop f (snd (sp_pops dirs l)) a) as [[rest s]|].
    - destruct H1 as [it' [H1 H2]]. exists it'. split; [exact (inv_leaves OL L t l Hr Hl it' rest H2)|]. intros r.
      split; [intros H3; exact (loops_fun _ _ _ _ _ _ _ _ H3 _ H1)|intros ->; exact H1].
    - intros r. split; [intros H3; exact (loops_fun _ _ _ _ _ _ _ _ H3 _ H1)|intros ->; exact H1].
  Qed.
  Lemma iter_rloop {A X} (f : A -> K * V -> res (A + X)) t l dirs it os a : reached cmp O adm t l -> it_run O (eqb cmp) t dirs it_new = Ret (it, os) ->
    match sp_rloop f (snd (sp_pops dirs l)) a with
    | Ret (rest, s) => exists it', leaves O (eqb cmp) t it' rest /\ forall r, loops O (eqb cmp) t true f it a r <-> r = Ret (it', s)
    | Panic => forall r, loops O (eqb cmp) t true f it a r <-> r = Panic
    end.
  Proof.
    intros H E. destruct (run_inv t l dirs it os H E) as [Hr [Hl Hi]].
    pose proof (loops_ok OL L t l Hr Hl true f (rev (snd (sp_pops dirs l))) it a) as H1. cbn [ends_of] in H1. rewrite rev_involutive in H1.
    specialize (H1 Hi). unfold sp_rloop.
    destruct (sp_loop f (rev (snd (sp_pops dirs l))) a) as [[rest s]|]; cbn [bind].
    - destruct H1 as [it' [H1 H2]]. exists it'. split; [exact (inv_leaves OL L t l Hr Hl it' _ H2)|]. intros r.
      split; [intros H3; exact (loops_fun _ _ _ _ _ _ _ _ H3 _ H1)|intros ->; exact H1].
    - intros r. split; [intros H3; exact (loops_fun _ _ _ _ _ _ _ _ H3 _ H1)|intros ->; exact H1].
  Qed.
  Lemma iter_nth t l dirs it os n : reached cmp O adm t l -> it_run O (eqb cmp) t dirs it_new = Ret (it, os) ->
    let rest := snd (sp_pops dirs l) in
    (exists it', it_nth O (eqb cmp) t false n it = Ret (it', nth_error rest n) /\ leaves O (eqb cmp) t it' (skipn (n + 1) rest)) /\
    (exists it', it_nth O (eqb cmp) t true n it = Ret (it', nth_error (rev rest) n) /\ leaves O (eqb cmp) t it' (firstn (length rest - (n + 1)) rest)).
  Proof.
    intros H E rest. destruct (run_inv t l dirs it os H E) as [Hr [Hl Hi]]. fold rest in Hi. rewrite Nat.add_1_r. split.
    - destruct (nth_ok OL L t l Hr Hl false n it rest Hi) as [it' [E1 H1]]. exists it'. split; [exact E1|]. apply (inv_leaves OL L t l Hr Hl it' _ H1).
    - destruct (nth_ok OL L t l Hr Hl true n it rest Hi) as [it' [E1 H1]]. exists it'. split; [exact E1|]. apply (inv_leaves OL L t l Hr Hl it').
      cbn [ends_of] in H1. rewrite skipn_rev, rev_involutive in H1. exact H1.
  Qed.
  Lemma iter_len t l dirs it os : (forall t lo hi, v_len_hint O t = Ret (lo, hi) -> hi = Some lo) ->
    reached cmp O adm t l -> it_run O (eqb cmp) t dirs it_new = Ret (it, os) ->
    it_len O t it = Ret (N.of_nat (length (snd (sp_pops dirs l)))).
  Proof.
    intros Hx H E. unfold it_len. rewrite (iter_hint_exact OL L Hcov t l dirs it os Hx H E). cbn [bind]. rewrite N.eqb_refl. reflexivity.
  Qed.
End Reached.

(** with checks every loop ends, on any tree: the counter of items overflows *)
Lemma call_emits {B : Build} (Hd : dbg = true) {K V} (O : VebOps K V) keq t d it it1 p : it_call O keq t d it = Ret (it1, Some p) ->
  it_emitted it1 = (it_emitted it + 1)%N /\ (it_emitted it1 <= usize_max)%N.
Proof.
  assert (He : forall dt q, emit it dt q = Ret (it1, Some p) -> it_emitted it1 = (it_emitted it + 1)%N /\ (it_emitted it1 <= usize_max)%N).
  { intros dt q H. unfold emit, usize_add in H. rewrite ?Hd in H. destruct (N.leb_spec (it_emitted it + 1) usize_max) as [E|E]; cbn [bind] in H; [|discriminate H].
    injection H as <- <-. cbn [it_emitted]. split; [reflexivity|exact E]. }
  unfold it_call, it_next, it_next_back, stop. intros H.
  destruct d; destruct (it_data it) as [[|k|k|k k']|]; try discriminate H;
    repeat match type of H with
    | bind ?m _ = _ => destruct m as [?|]; cbn [bind] in H; [|discriminate H]
    | (if ?c then _ else _) = _ => destruct c
    | match ?o with Some _ => _ | None => _ end = _ => destruct o
    end; try discriminate H; eauto.
Qed.
Lemma loops_end {B : Build} (Hd : dbg = true) {K V} (O : VebOps K V) keq t {A X} d (f : A -> K * V -> res (A + X)) : forall n it a,
  N.to_nat (usize_max - it_emitted it) <= n -> exists r, loops O keq t d f it a r.
Proof.
  induction n as [|n IH]; intros it a Hn; destruct (it_call O keq t d it) as [[it1 [p|]]|] eqn:E.
  all: try (eexists; eapply L_end; exact E). all: try (eexists; apply L_panic; exact E).
  - destruct (call_emits Hd O keq t d it it1 p E) as [H1 H2]. lia.
  - destruct (call_emits Hd O keq t d it it1 p E) as [H1 H2]. destruct (f a p) as [[a1|x]|] eqn:Ef.
    + destruct (IH it1 a1) as [r H]; [lia|]. exists r. eapply L_next; eauto.
    + eexists. eapply L_break; eauto.
    + eexists. eapply L_closure; eauto.
Qed.
Lemma loops_some {B : Build} (Hd : dbg = true) {K V} (O : VebOps K V) keq t {A X} d (f : A -> K * V -> res (A + X)) it a :
  exists r, forall r', loops O keq t d f it a r' <-> r' = r.
Proof.
  destruct (loops_end Hd O keq t d f _ it a (Nat.le_refl _)) as [r H]. exists r. intros r'.
  split; [intros H'; exact (loops_fun O keq t d f it a r' H' r H)|intros ->; exact H].
Qed.
