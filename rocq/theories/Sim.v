(** Simulations: two tree types answer alike, up to a relation between their trees and one between their values.  A simulation
    is one-sided: when the first returns, the second returns, with a related answer. *)
From Verif Require Import Base Spec Ops Boxed SizedT Tree Hist.

Definition rprod {A A' B B'} (R : A -> A' -> Prop) (S : B -> B' -> Prop) (p : A * B) (p' : A' * B') : Prop :=
  R (fst p) (fst p') /\ S (snd p) (snd p').
Definition ropt {A A'} (R : A -> A' -> Prop) (o : option A) (o' : option A') : Prop :=
  match o, o' with Some a, Some a' => R a a' | None, None => True | _, _ => False end.
Definition rresult {A A' B B'} (R : A -> A' -> Prop) (S : B -> B' -> Prop) (x : result A B) (x' : result A' B') : Prop :=
  match x, x' with Ok a, Ok a' => R a a' | Err b, Err b' => S b b' | _, _ => False end.
Definition rres {A A'} (R : A -> A' -> Prop) (m : res A) (m' : res A') : Prop :=
  forall a, m = Ret a -> exists a', m' = Ret a' /\ R a a'.
Definition rfun {A A' B B'} (R : A -> A' -> Prop) (S : B -> B' -> Prop) (f : A -> B) (f' : A' -> B') : Prop :=
  forall a a', R a a' -> S (f a) (f' a').

Lemma rres_ret {A A'} (R : A -> A' -> Prop) a a' : R a a' -> rres R (Ret a) (Ret a').
Proof. intros H x E. injection E as <-. eauto. Qed.
Lemma rres_panic {A A'} (R : A -> A' -> Prop) m' : rres R Panic m'.
Proof. intros x E. discriminate E. Qed.
Lemma rres_bind {A A' B B'} (Q : A -> A' -> Prop) (R : B -> B' -> Prop) m m' f f' :
  rres Q m m' -> (forall a a', Q a a' -> rres R (f a) (f' a')) -> rres R (bind m f) (bind m' f').
Proof.
  intros H Hf b E. destruct m as [a|]; [|discriminate E]. destruct (H a eq_refl) as [a' [-> Ha]]. exact (Hf a a' Ha b E).
Qed.
Lemma rres_expect {A A'} (R : A -> A' -> Prop) o o' : ropt R o o' -> rres R (expect o) (expect o').
Proof. destruct o, o'; cbn; try tauto; intros H; [apply rres_ret; auto|apply rres_panic]. Qed.
Lemma rres_eq {A} (R : A -> A -> Prop) m : (forall a, R a a) -> rres R m m.
Proof. intros H a E. eauto. Qed.

(** The checks of two builds, the second of which has no more than the first: its pointers are no narrower, and it is the same build if the
    first has no checks *)
Definition lenient (B B' : Build) : Prop := (@usize_bits B <= @usize_bits B')%N /\ (@dbg B = false -> B' = B).
Lemma lenient_refl B : lenient B B.
Proof. split; [apply N.le_refl|reflexivity]. Qed.
Lemma lenient_checked B B' : @dbg B = true -> (@usize_bits B <= @usize_bits B')%N -> lenient B B'.
Proof. intros H Hw. split; [exact Hw|]. intros H'. rewrite H in H'. discriminate H'. Qed.
Lemma usize_max_mono B B' : (@usize_bits B <= @usize_bits B')%N -> (@usize_max B <= @usize_max B')%N.
Proof. intros H. unfold usize_max. apply N.sub_le_mono_r, N.pow_le_mono_r; [discriminate|exact H]. Qed.
Section Builds.
  Context {B B' : Build} (HB : lenient B B').
  Lemma rres_assert b : rres eq (debug_assert (B := B) b) (debug_assert (B := B') b).
  Proof.
    destruct HB as [_ H]. destruct b; [apply rres_ret; reflexivity|]. cbn. destruct (@dbg B) eqn:E; [apply rres_panic|].
    rewrite (H eq_refl), E. apply rres_ret. reflexivity.
  Qed.
  Lemma rres_sub a b : rres eq (checked_sub (B := B) a b) (checked_sub (B := B') a b).
  Proof.
    destruct HB as [_ H]. unfold checked_sub. destruct (b <=? a)%N; [apply rres_ret; reflexivity|]. destruct (@dbg B) eqn:E; [apply rres_panic|].
    rewrite (H eq_refl), E. apply rres_ret. reflexivity.
  Qed.
  Lemma rres_add a b : rres eq (usize_add (B := B) a b) (usize_add (B := B') a b).
  Proof.
    destruct HB as [Hw H]. apply usize_max_mono in Hw. unfold usize_add. destruct (N.leb_spec (a + b) (@usize_max B)) as [L|L].
    - replace (a + b <=? @usize_max B')%N with true by (symmetry; apply N.leb_le; eapply N.le_trans; eassumption). apply rres_ret. reflexivity.
    - destruct (@dbg B) eqn:E; [apply rres_panic|]. rewrite (H eq_refl), E. apply N.leb_gt in L. rewrite L. apply rres_ret. reflexivity.
  Qed.
  Lemma rres_checked_add a b : rres eq (expect (checked_add (B := B) a b)) (expect (checked_add (B := B') a b)).
  Proof.
    destruct HB as [Hw _]. apply usize_max_mono in Hw. unfold checked_add. destruct (N.leb_spec (a + b) (@usize_max B)) as [L|L]; [|apply rres_panic].
    replace (a + b <=? @usize_max B')%N with true by (symmetry; apply N.leb_le; eapply N.le_trans; eassumption). apply rres_ret. reflexivity.
  Qed.
End Builds.

Section SimDef.
  Context {K V V' : Type} (RV : V -> V' -> Prop).
  Definition rp : K * V -> K * V' -> Prop := rprod eq RV.
  Context (O : VebOps K V) (O' : VebOps K V') (R : vt O -> vt O' -> Prop).
  Definition rlens : K * V * (V -> vt O) -> K * V' * (V' -> vt O') -> Prop := rprod rp (rfun RV R).
  Definition rtaken : option (vt O) * (K * V) -> option (vt O') * (K * V') -> Prop := rprod (ropt R) rp.
  Record Sim : Prop := {
    s_from : forall k v v', RV v v' -> R (v_from_monad O k v) (v_from_monad O' k v');
    s_is_monad : forall t t', R t t' -> rres eq (v_is_monad O t) (v_is_monad O' t');
    s_into_monad : forall t t', R t t' -> rres (rresult rp R) (v_into_monad O t) (v_into_monad O' t');
    s_min : forall t t', R t t' -> rres rp (v_min_val O t) (v_min_val O' t');
    s_max : forall t t', R t t' -> rres rp (v_max_val O t) (v_max_val O' t');
    s_min_mut : forall t t', R t t' -> rres rlens (v_min_val_mut O t) (v_min_val_mut O' t');
    s_max_mut : forall t t', R t t' -> rres rlens (v_max_val_mut O t) (v_max_val_mut O' t');
    s_find : forall t t' k, R t t' -> rres (ropt rp) (v_find O t k) (v_find O' t' k);
    s_pred : forall t t' k, R t t' -> rres (ropt rp) (v_predecessor O t k) (v_predecessor O' t' k);
    s_succ : forall t t' k, R t t' -> rres (ropt rp) (v_successor O t k) (v_successor O' t' k);
    s_find_mut : forall t t' k, R t t' -> rres (ropt rlens) (v_find_mut O t k) (v_find_mut O' t' k);
    s_pred_mut : forall t t' k, R t t' -> rres (ropt rlens) (v_predecessor_mut O t k) (v_predecessor_mut O' t' k);
    s_succ_mut : forall t t' k, R t t' -> rres (ropt rlens) (v_successor_mut O t k) (v_successor_mut O' t' k);
    s_insert : forall t t' k v v', R t t' -> RV v v' -> rres (rprod R (ropt rp)) (v_insert O t k v) (v_insert O' t' k v');
    s_remove : forall t t' k, R t t' -> rres (rresult rtaken R) (v_remove O t k) (v_remove O' t' k);
    s_remove_min : forall t t', R t t' -> rres rtaken (v_remove_min O t) (v_remove_min O' t');
    s_remove_max : forall t t', R t t' -> rres rtaken (v_remove_max O t) (v_remove_max O' t')
  }.
End SimDef.
Arguments s_from {K V V' RV O O' R}.
Arguments s_is_monad {K V V' RV O O' R}.
Arguments s_into_monad {K V V' RV O O' R}.
Arguments s_min {K V V' RV O O' R}.
Arguments s_max {K V V' RV O O' R}.
Arguments s_min_mut {K V V' RV O O' R}.
Arguments s_max_mut {K V V' RV O O' R}.
Arguments s_find {K V V' RV O O' R}.
Arguments s_pred {K V V' RV O O' R}.
Arguments s_succ {K V V' RV O O' R}.
Arguments s_find_mut {K V V' RV O O' R}.
Arguments s_pred_mut {K V V' RV O O' R}.
Arguments s_succ_mut {K V V' RV O O' R}.
Arguments s_insert {K V V' RV O O' R}.
Arguments s_remove {K V V' RV O O' R}.
Arguments s_remove_min {K V V' RV O O' R}.
Arguments s_remove_max {K V V' RV O O' R}.

Section CSimDef.
  Context {Hi Lo V V' : Type} (RV : V -> V' -> Prop) {Tr : VebOps Lo V} {Tr' : VebOps Lo V'} (RT : vt Tr -> vt Tr' -> Prop).
  Context (C : CollOps Hi Lo V Tr) (C' : CollOps Hi Lo V' Tr') (RC : ct C -> ct C' -> Prop).
  Notation tkn := (rtaken RV Tr Tr' RT).
  Definition rleft : option (ct C * bool) * (Lo * V) -> option (ct C' * bool) * (Lo * V') -> Prop :=
    rprod (ropt (rprod RC eq)) (rp RV).
  Record CSim : Prop := {
    cs_create : forall h t t', RT t t' -> rres RC (c_create C h t) (c_create C' h t');
    cs_get : forall c c' h, RC c c' -> rres (ropt RT) (c_get C c h) (c_get C' c' h);
    cs_get_mut : forall c c' h, RC c c' -> rres (ropt (rprod RT (rfun RT RC))) (c_get_mut C c h) (c_get_mut C' c' h);
    cs_insert : forall c c' h lv lv', RC c c' -> rp RV lv lv' ->
      rres (rprod RC (rresult eq (rprod eq (ropt (rp RV))))) (c_insert_key C c h lv) (c_insert_key C' c' h lv');
    cs_remove : forall c c' h f f', RC c c' -> (forall t t', RT t t' -> rres tkn (f t) (f' t')) ->
      rres rleft (c_remove_key C c h f) (c_remove_key C' c' h f');
    cs_maybe : forall c c' h f f', RC c c' -> (forall t t', RT t t' -> rres (rresult tkn RT) (f t) (f' t')) ->
      rres (rresult rleft RC) (c_maybe_remove_key C c h f) (c_maybe_remove_key C' c' h f')
  }.
End CSimDef.
Arguments cs_create {Hi Lo V V' RV Tr Tr' RT C C' RC}.
Arguments cs_get {Hi Lo V V' RV Tr Tr' RT C C' RC}.
Arguments cs_get_mut {Hi Lo V V' RV Tr Tr' RT C C' RC}.
Arguments cs_insert {Hi Lo V V' RV Tr Tr' RT C C' RC}.
Arguments cs_remove {Hi Lo V V' RV Tr Tr' RT C C' RC}.
Arguments cs_maybe {Hi Lo V V' RV Tr Tr' RT C C' RC}.

(** *** Runs *)
Section RunSim.
  Context {K V V' : Type} {RV : V -> V' -> Prop} {O : VebOps K V} {O' : VebOps K V'} {R : vt O -> vt O' -> Prop} (X : Sim RV O O' R).
  Definition rop (c : op K V) (c' : op K V') : Prop :=
    match c, c' with
    | Insert k v, Insert k' v' => k = k' /\ RV v v'
    | Remove k, Remove k' | Find k, Find k' | Pred k, Pred k' | Succ k, Succ k' => k = k'
    | RemoveMin, RemoveMin | RemoveMax, RemoveMax | IntoMonad, IntoMonad | IsMonad, IsMonad | Min, Min | Max, Max => True
    | MinMut w, MinMut w' | MaxMut w, MaxMut w' => RV w w'
    | FindMut k w, FindMut k' w' | PredMut k w, PredMut k' w' | SuccMut k w, SuccMut k' w' => k = k' /\ RV w w'
    | _, _ => False
    end.
  Definition rout (o : out K V) (o' : out K V') : Prop :=
    match o, o' with OP p, OP p' => ropt (rp RV) p p' | OB b, OB b' => b = b' | _, _ => False end.
  Notation ans := (rprod (ropt R) rout).

  Lemma sim_query m m' t t' : R t t' -> rres (ropt (rp RV)) (m t) (m' t') -> rres ans (query O m t) (query O' m' t').
  Proof. intros H Hm. eapply rres_bind; [exact Hm|]. intros o o' Ho. apply rres_ret. split; auto. Qed.
  Lemma sim_query1 m m' t t' : R t t' -> rres (rp RV) (m t) (m' t') -> rres ans (query1 O m t) (query1 O' m' t').
  Proof. intros H Hm. eapply rres_bind; [exact Hm|]. intros o o' Ho. apply rres_ret. split; auto. Qed.
  Lemma sim_write m m' w w' t t' : R t t' -> RV w w' -> rres (ropt (rlens RV O O' R)) (m t) (m' t') ->
    rres ans (write O m w t) (write O' m' w' t').
  Proof.
    intros H Hw Hm. eapply rres_bind; [exact Hm|]. intros [[p put]|] [[p' put']|] Ho; cbn in Ho; try tauto.
    - destruct Ho as [H1 H2]. apply rres_ret. split; [apply H2; auto|exact H1].
    - apply rres_ret. split; [exact H|exact I].
  Qed.
  Lemma sim_write1 m m' w w' t t' : R t t' -> RV w w' -> rres (rlens RV O O' R) (m t) (m' t') ->
    rres ans (write1 O m w t) (write1 O' m' w' t').
  Proof.
    intros H Hw Hm. eapply rres_bind; [exact Hm|]. intros [p put] [p' put'] [H1 H2].
    apply rres_ret. split; [apply H2; auto|exact H1].
  Qed.
  Lemma sim_step c c' ot ot' : rop c c' -> ropt R ot ot' -> rres ans (step O c ot) (step O' c' ot').
  Proof.
    intros Hc Ht. destruct ot as [t|], ot' as [t'|]; cbn in Ht; try tauto.
    2:{ destruct c, c'; cbn in Hc; try tauto; apply rres_ret; cbn; try (split; [exact I|exact I]).
        - destruct Hc as [-> Hc]. split; [apply (s_from X); auto|exact I].
        - split; [exact I|reflexivity]. }
    destruct c, c'; cbn in Hc; try tauto;
      match type of Hc with _ /\ _ => destruct Hc as [-> Hc] | ?a = _ => subst a | _ => idtac end; cbn [step].
    - eapply rres_bind; [apply (s_insert X); eassumption|]. intros [a b] [a' b'] [H1 H2]. apply rres_ret. split; auto.
    - eapply rres_bind; [apply (s_remove X); eassumption|]. intros [[a b]|a] [[a' b']|a'] H; cbn in H; try tauto; apply rres_ret.
      + destruct H. split; auto.
      + split; [exact H|exact I].
    - eapply rres_bind; [apply (s_remove_min X); eassumption|]. intros [a b] [a' b'] [H1 H2]. apply rres_ret. split; auto.
    - eapply rres_bind; [apply (s_remove_max X); eassumption|]. intros [a b] [a' b'] [H1 H2]. apply rres_ret. split; auto.
    - eapply rres_bind; [apply (s_into_monad X); eassumption|]. intros [a|a] [a'|a'] H; cbn in H; try tauto; apply rres_ret.
      + split; [exact I|exact H].
      + split; [exact H|exact I].
    - eapply rres_bind; [apply (s_is_monad X); eassumption|]. intros b b' ->. apply rres_ret. split; [exact Ht|reflexivity].
    - apply sim_query1; auto. apply (s_min X); auto.
    - apply sim_query1; auto. apply (s_max X); auto.
    - apply (sim_query (fun t => v_find O t k0) (fun t => v_find O' t k0)); auto. apply (s_find X); auto.
    - apply (sim_query (fun t => v_predecessor O t k0) (fun t => v_predecessor O' t k0)); auto. apply (s_pred X); auto.
    - apply (sim_query (fun t => v_successor O t k0) (fun t => v_successor O' t k0)); auto. apply (s_succ X); auto.
    - apply sim_write1; auto. apply (s_min_mut X); auto.
    - apply sim_write1; auto. apply (s_max_mut X); auto.
    - apply (sim_write (fun t => v_find_mut O t k0) (fun t => v_find_mut O' t k0)); auto. apply (s_find_mut X); auto.
    - apply (sim_write (fun t => v_predecessor_mut O t k0) (fun t => v_predecessor_mut O' t k0)); auto. apply (s_pred_mut X); auto.
    - apply (sim_write (fun t => v_successor_mut O t k0) (fun t => v_successor_mut O' t k0)); auto. apply (s_succ_mut X); auto.
  Qed.
  Lemma sim_run cs : forall cs' ot ot', Forall2 rop cs cs' -> ropt R ot ot' ->
    rres (rprod (ropt R) (Forall2 rout)) (run O cs ot) (run O' cs' ot').
  Proof.
    induction cs as [|c cs IH]; intros cs' ot ot' Hc Ht; inversion Hc as [|? c' ? cs1 Hc1 Hc2]; subst; cbn [run].
    - apply rres_ret. split; [exact Ht|constructor].
    - eapply rres_bind; [apply sim_step; eassumption|]. intros [a b] [a' b'] [H1 H2].
      eapply rres_bind; [apply IH; eassumption|]. intros [x y] [x' y'] [H3 H4]. apply rres_ret. split; [exact H3|].
      constructor; auto.
  Qed.
End RunSim.

(** *** Values related by identity *)
Section EqRun.
  Context {K V : Type} {O O' : VebOps K V} {R : vt O -> vt O' -> Prop} (X : Sim eq O O' R).
  Lemma rop_refl (c : op K V) : rop (RV := eq) c c.
  Proof. destruct c; cbn; auto. Qed.
  Lemma rp_eq (p p' : K * V) : rp eq p p' -> p = p'.
  Proof. destruct p, p'. intros [H1 H2]. cbn in *. congruence. Qed.
  Lemma rout_eq (o o' : out K V) : rout (RV := eq) o o' -> o = o'.
  Proof.
    destruct o as [[p|]|b], o' as [[p'|]|b']; cbn; try tauto; try congruence. intros H. rewrite (rp_eq _ _ H). reflexivity.
  Qed.
  Lemma sim_run_eq cs ot ot1 os ot' : ropt R ot ot' -> run O cs ot = Ret (ot1, os) ->
    exists ot2, run O' cs ot' = Ret (ot2, os) /\ ropt R ot1 ot2.
  Proof.
    intros Ht E. destruct (sim_run X cs cs ot ot') with (a := (ot1, os)) as [[ot2 os'] [E' [H1 H2]]]; auto.
    - clear E. induction cs; constructor; auto using rop_refl.
    - cbn [fst snd] in *. exists ot2. split; auto. rewrite E'. do 2 f_equal. symmetry. clear E E'.
      induction H2; f_equal; auto using rout_eq.
  Qed.
End EqRun.

(** *** Box and SizedVebTree *)
Section Wrappers.
  Context {K V V' : Type} {RV : V -> V' -> Prop} {O : VebOps K V} {O' : VebOps K V'} {R : vt O -> vt O' -> Prop} (X : Sim RV O O' R).
  Definition box_rel (b : vt (Box_ops O)) (t' : vt O') : Prop := R (unbox b) t'.
  Lemma box_sim : Sim RV (Box_ops O) O' box_rel.
  Proof.
    assert (Hl : forall m m', rres (rlens RV O O' R) m m' -> rres (rlens RV (Box_ops O) O' box_rel) (rmap (box_lens O) m) m').
    { intros m m' H x E. destruct m as [[p put]|]; [|discriminate E]. destruct (H _ eq_refl) as [[p' put'] [-> [H1 H2]]].
      injection E as <-. eexists. split; [reflexivity|]. split; [exact H1|]. intros w w' Hw. apply H2. auto. }
    assert (Ho : forall m m', rres (ropt (rlens RV O O' R)) m m' -> rres (ropt (rlens RV (Box_ops O) O' box_rel)) (rmap (omap (box_lens O)) m) m').
    { intros m m' H x E. destruct m as [[[p put]|]|]; [| |discriminate E]; destruct (H _ eq_refl) as [[[p' put']|] [-> Hp]]; cbn in Hp; try tauto;
        injection E as <-; eexists; (split; [reflexivity|]); auto. }
    assert (Hr : forall m m', rres (rtaken RV O O' R) m m' -> rres (rtaken RV (Box_ops O) O' box_rel) (rmap (box_rm O) m) m').
    { intros m m' H x E. destruct m as [[[t|] p]|]; [| |discriminate E]; destruct (H _ eq_refl) as [[[t'|] p'] [-> [H1 H2]]]; cbn in H1; try tauto;
        injection E as <-; eexists; (split; [reflexivity|]); split; auto. }
    constructor; intros; cbn [Box_ops v_from_monad v_is_monad v_into_monad v_min_val v_max_val v_min_val_mut v_max_val_mut v_find v_predecessor
      v_successor v_find_mut v_predecessor_mut v_successor_mut v_insert v_remove v_remove_min v_remove_max].
    - apply (s_from X); auto.
    - apply (s_is_monad X); auto.
    - intros x E. destruct (v_into_monad O (unbox t)) as [r|] eqn:Er; [|discriminate E].
      destruct (s_into_monad X _ _ H _ Er) as [r' [-> Hr']]. cbn in E. exists r'. split; auto.
      destruct r; injection E as <-; destruct r'; cbn in *; auto.
    - apply (s_min X); auto.
    - apply (s_max X); auto.
    - apply Hl, (s_min_mut X); auto.
    - apply Hl, (s_max_mut X); auto.
    - apply (s_find X); auto.
    - apply (s_pred X); auto.
    - apply (s_succ X); auto.
    - apply Ho, (s_find_mut X); auto.
    - apply Ho, (s_pred_mut X); auto.
    - apply Ho, (s_succ_mut X); auto.
    - intros x E. destruct (v_insert O (unbox t) k v) as [[t1 r]|] eqn:Er; [|discriminate E].
      destruct (s_insert X _ _ k _ _ H H0 _ Er) as [[t1' r'] [-> [H1 H2]]]. cbn in E. injection E as <-. eexists. split; [reflexivity|]. split; auto.
    - intros x E. destruct (v_remove O (unbox t) k) as [r|] eqn:Er; [|discriminate E].
      destruct (s_remove X _ _ k H _ Er) as [r' [-> Hr']]. cbn in E. exists r'. split; auto.
      destruct r as [[[t1|] p]|t1]; injection E as <-; destruct r' as [[[t1'|] p']|t1']; cbn in *; auto.
    - apply Hr, (s_remove_min X); auto.
    - apply Hr, (s_remove_max X); auto.
  Qed.

  Definition box_rel' (t : vt O) (b' : vt (Box_ops O')) : Prop := R t (unbox b').
  Lemma box_sim' : Sim RV O (Box_ops O') box_rel'.
  Proof.
    assert (Hl : forall m m', rres (rlens RV O O' R) m m' -> rres (rlens RV O (Box_ops O') box_rel') m (rmap (box_lens O') m')).
    { intros m m' H x E. destruct (H _ E) as [[p' put'] [-> [H1 H2]]]. eexists. split; [reflexivity|]. split; [exact H1|]. exact H2. }
    assert (Ho : forall m m', rres (ropt (rlens RV O O' R)) m m' -> rres (ropt (rlens RV O (Box_ops O') box_rel')) m (rmap (omap (box_lens O')) m')).
    { intros m m' H x E. destruct (H _ E) as [[[p' put']|] [-> Hp]]; eexists; (split; [reflexivity|]); exact Hp. }
    assert (Hr : forall m m', rres (rtaken RV O O' R) m m' -> rres (rtaken RV O (Box_ops O') box_rel') m (rmap (box_rm O') m')).
    { intros m m' H x E. destruct (H _ E) as [[[t'|] p'] [-> [H1 H2]]]; eexists; (split; [reflexivity|]); split; auto. }
    constructor; intros; cbn [Box_ops v_from_monad v_is_monad v_into_monad v_min_val v_max_val v_min_val_mut v_max_val_mut v_find v_predecessor
      v_successor v_find_mut v_predecessor_mut v_successor_mut v_insert v_remove v_remove_min v_remove_max].
    - apply (s_from X); auto.
    - apply (s_is_monad X); auto.
    - intros x E. destruct (s_into_monad X _ _ H _ E) as [r' [-> Hr']]. cbn. destruct x, r'; cbn in Hr'; try contradiction;
        eexists; (split; [reflexivity|]); exact Hr'.
    - apply (s_min X); auto.
    - apply (s_max X); auto.
    - apply Hl, (s_min_mut X); auto.
    - apply Hl, (s_max_mut X); auto.
    - apply (s_find X); auto.
    - apply (s_pred X); auto.
    - apply (s_succ X); auto.
    - apply Ho, (s_find_mut X); auto.
    - apply Ho, (s_pred_mut X); auto.
    - apply Ho, (s_succ_mut X); auto.
    - intros x E. destruct (s_insert X _ _ k _ _ H H0 _ E) as [[t1' r'] [-> [H1 H2]]]. eexists. split; [reflexivity|]. split; auto.
    - intros x E. destruct (s_remove X _ _ k H _ E) as [r' [-> Hr']]. cbn.
      destruct x as [[[t1|] p]|t1]; destruct r' as [[[t1'|] p']|t1']; cbn in Hr'; try contradiction;
        eexists; (split; [reflexivity|]); exact Hr'.
    - apply Hr, (s_remove_min X); auto.
    - apply Hr, (s_remove_max X); auto.
  Qed.

  Definition sized_rel {B : Build} (b : vt (Sized_ops O)) (t' : vt O') : Prop := R (sz_tree b) t'.
  Lemma sized_sim {B : Build} : Sim RV (Sized_ops O) O' sized_rel.
  Proof.
    assert (Hl : forall t m m', rres (rlens RV O O' R) m m' -> rres (rlens RV (Sized_ops O) O' sized_rel) (rmap (sz_lens O t) m) m').
    { intros t m m' H x E. destruct m as [[p put]|]; [|discriminate E]. destruct (H _ eq_refl) as [[p' put'] [-> [H1 H2]]].
      injection E as <-. eexists. split; [reflexivity|]. split; [exact H1|]. intros w w' Hw. apply H2. auto. }
    assert (Ho : forall t m m', rres (ropt (rlens RV O O' R)) m m' -> rres (ropt (rlens RV (Sized_ops O) O' sized_rel)) (rmap (omap (sz_lens O t)) m) m').
    { intros t m m' H x E. destruct m as [[[p put]|]|]; [| |discriminate E]; destruct (H _ eq_refl) as [[[p' put']|] [-> Hp]]; cbn in Hp; try tauto;
        injection E as <-; eexists; (split; [reflexivity|]); auto. }
    assert (Hr : forall t t' rm m', R (sz_tree t) t' -> rres (rtaken RV O O' R) (rm (sz_tree t)) m' ->
                 rres (rtaken RV (Sized_ops O) O' sized_rel) (sz_remove_end O rm t) m').
    { intros t t' rm m' _ H x E. unfold sz_remove_end in E. destruct (checked_sub (sz_size t) 1) as [n|]; [|discriminate E]. cbn [bind] in E.
      destruct (rm (sz_tree t)) as [[[t1|] p]|]; [| |discriminate E]; destruct (H _ eq_refl) as [[[t1'|] p'] [-> [H1 H2]]]; cbn in H1; try tauto;
        cbn [bind] in E.
      - destruct (expect (nonzero n)); [|discriminate E]. injection E as <-. eexists; (split; [reflexivity|]); split; auto.
      - injection E as <-. eexists; (split; [reflexivity|]); split; auto. }
    constructor; intros; cbn [Sized_ops v_from_monad v_is_monad v_into_monad v_min_val v_max_val v_min_val_mut v_max_val_mut v_find v_predecessor
      v_successor v_find_mut v_predecessor_mut v_successor_mut v_insert v_remove v_remove_min v_remove_max].
    - apply (s_from X); auto.
    - intros x E. destruct (v_is_monad O (sz_tree t)) as [b|] eqn:Eb; [|discriminate E].
      destruct (s_is_monad X _ _ H _ Eb) as [b' [-> <-]]. cbn in E. exists b. split; auto. destruct b; [|congruence].
      destruct (debug_assert (sz_size t =? 1)%N); [|discriminate E]. cbn in E. congruence.
    - intros x E. destruct (v_into_monad O (sz_tree t)) as [r|] eqn:Er; [|discriminate E].
      destruct (s_into_monad X _ _ H _ Er) as [r' [-> Hr']]. cbn in E. exists r'. split; auto.
      destruct r; injection E as <-; destruct r'; cbn in *; auto.
    - apply (s_min X); auto.
    - apply (s_max X); auto.
    - apply Hl, (s_min_mut X); auto.
    - apply Hl, (s_max_mut X); auto.
    - apply (s_find X); auto.
    - apply (s_pred X); auto.
    - apply (s_succ X); auto.
    - apply Ho, (s_find_mut X); auto.
    - apply Ho, (s_pred_mut X); auto.
    - apply Ho, (s_succ_mut X); auto.
    - intros x E. unfold sz_insert in E. destruct (v_insert O (sz_tree t) k v) as [[t1 r]|] eqn:Er; [|discriminate E].
      destruct (s_insert X _ _ k _ _ H H0 _ Er) as [[t1' r'] [-> [H1 H2]]]. cbn [bind] in E. cbn in H1, H2. destruct r.
      + injection E as <-. eexists. split; [reflexivity|]. split; auto.
      + destruct (expect (checked_add (sz_size t) 1)); [|discriminate E]. injection E as <-. eexists. split; [reflexivity|]. split; auto.
    - intros x E. unfold sz_remove in E. destruct (v_remove O (sz_tree t) k) as [r|] eqn:Er; [|discriminate E].
      destruct (s_remove X _ _ k H _ Er) as [r' [-> Hr']]. cbn [bind] in E. exists r'. split; auto.
      destruct r as [[[t1|] p]|t1]; destruct r' as [[[t1'|] p']|t1']; cbn in Hr'; try tauto.
      + destruct (checked_sub (sz_size t) 1) as [n|]; [|discriminate E]. cbn [bind] in E.
        destruct (expect (nonzero n)); [|discriminate E]. injection E as <-. exact Hr'.
      + destruct Hr' as [[] _].
      + destruct Hr' as [[] _].
      + injection E as <-. exact Hr'.
      + injection E as <-. exact Hr'.
    - apply (Hr t t'); auto. apply (s_remove_min X); auto.
    - apply (Hr t t'); auto. apply (s_remove_max X); auto.
  Qed.

  (** both sides counted, in two builds *)
  Context {B B' : Build} (HB : lenient B B').
  Notation Z := (Sized_ops (B := B) O).
  Notation Z' := (Sized_ops (B := B') O').
  Definition sized2_rel (b : vt Z) (b' : vt Z') : Prop := R (sz_tree b) (sz_tree b') /\ sz_size b = sz_size b'.
  Lemma sized2_sim : Sim RV Z Z' sized2_rel.
  Proof.
    assert (Hl : forall t t' m m', sized2_rel t t' -> rres (rlens RV O O' R) m m' ->
              rres (rlens RV Z Z' sized2_rel) (rmap (sz_lens O t) m) (rmap (sz_lens O' t') m')).
    { intros t t' m m' Ht H x E. destruct m as [[p put]|]; [|discriminate E]. destruct (H _ eq_refl) as [[p' put'] [-> [H1 H2]]].
      injection E as <-. eexists. split; [reflexivity|]. split; [exact H1|]. intros w w' Hw. split; [apply H2; auto|apply Ht]. }
    assert (Ho : forall t t' m m', sized2_rel t t' -> rres (ropt (rlens RV O O' R)) m m' ->
              rres (ropt (rlens RV Z Z' sized2_rel)) (rmap (omap (sz_lens O t)) m) (rmap (omap (sz_lens O' t')) m')).
    { intros t t' m m' Ht H x E. destruct m as [[[p put]|]|]; [| |discriminate E]; destruct (H _ eq_refl) as [[[p' put']|] [-> Hp]]; cbn in Hp; try tauto;
        injection E as <-; eexists; (split; [reflexivity|]); [|exact I]. destruct Hp as [H1 H2]. split; [exact H1|].
      intros w w' Hw. split; [apply H2; auto|apply Ht]. }
    assert (Hr : forall t t' rm rm', sized2_rel t t' -> rres (rtaken RV O O' R) (rm (sz_tree t)) (rm' (sz_tree t')) ->
                 rres (rtaken RV Z Z' sized2_rel) (sz_remove_end (B := B) O rm t) (sz_remove_end (B := B') O' rm' t')).
    { intros t t' rm rm' [H1 H2] H. unfold sz_remove_end. rewrite H2. eapply rres_bind; [apply rres_sub, HB|]. intros n _ <-.
      eapply rres_bind; [exact H|]. intros [[t1|] p] [[t1'|] p'] [H3 H4]; cbn in H3; try contradiction.
      - eapply (rres_bind eq); [apply rres_eq; reflexivity|]. intros n' _ <-. apply rres_ret. split; [split; [exact H3|reflexivity]|exact H4].
      - apply rres_ret. split; [exact I|exact H4]. }
    constructor; intros; cbn [Sized_ops v_from_monad v_is_monad v_into_monad v_min_val v_max_val v_min_val_mut v_max_val_mut v_find v_predecessor
      v_successor v_find_mut v_predecessor_mut v_successor_mut v_insert v_remove v_remove_min v_remove_max].
    - split; [apply (s_from X); auto|reflexivity].
    - destruct H as [H1 H2]. rewrite H2. eapply rres_bind; [apply (s_is_monad X), H1|]. intros b _ <-. destruct b; [|apply rres_ret; reflexivity].
      eapply rres_bind; [apply rres_assert, HB|]. intros _ _ _. apply rres_ret. reflexivity.
    - destruct H as [H1 H2]. eapply rres_bind; [apply (s_into_monad X), H1|]. intros [p|t1] [p'|t1'] H3; cbn in H3; try contradiction; apply rres_ret.
      + exact H3.
      + split; [exact H3|exact H2].
    - apply (s_min X), H.
    - apply (s_max X), H.
    - apply Hl; [exact H|]. apply (s_min_mut X), H.
    - apply Hl; [exact H|]. apply (s_max_mut X), H.
    - apply (s_find X), H.
    - apply (s_pred X), H.
    - apply (s_succ X), H.
    - apply Ho; [exact H|]. apply (s_find_mut X), H.
    - apply Ho; [exact H|]. apply (s_pred_mut X), H.
    - apply Ho; [exact H|]. apply (s_succ_mut X), H.
    - destruct H as [H1 H2]. unfold sz_insert. rewrite H2. eapply rres_bind; [apply (s_insert X); [exact H1|exact H0]|].
      intros [t1 r] [t1' r'] [H3 H4]. cbn in H3, H4. destruct r as [p|], r' as [p'|]; cbn in H4; try contradiction.
      + apply rres_ret. split; [split; [exact H3|reflexivity]|exact H4].
      + eapply (rres_bind eq); [apply rres_checked_add, HB|]. intros n _ <-. apply rres_ret. split; [split; [exact H3|reflexivity]|exact I].
    - destruct H as [H1 H2]. unfold sz_remove. rewrite H2. eapply rres_bind; [apply (s_remove X), H1|].
      intros [[[t1|] p]|t1] [[[t1'|] p']|t1'] H3; cbn in H3; try contradiction; try (destruct H3 as [[] _]; fail).
      + destruct H3 as [H3 H4]. eapply rres_bind; [apply rres_sub, HB|]. intros n _ <-.
        eapply (rres_bind eq); [apply rres_eq; reflexivity|]. intros n' _ <-. apply rres_ret. split; [split; [exact H3|reflexivity]|exact H4].
      + apply rres_ret. exact H3.
      + apply rres_ret. split; [exact H3|reflexivity].
    - apply Hr; [exact H|]. apply (s_remove_min X), H.
    - apply Hr; [exact H|]. apply (s_remove_max X), H.
  Qed.
End Wrappers.
