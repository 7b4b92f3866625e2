(** Simulations up to a relation between keys: two tree types answer alike, panics included, when their keys are related. *)
From Verif Require Import Base Spec Ops Boxed SizedT Tree Hist Sim.

(** both panic, or both return and the results are related *)
Definition both {A A'} (R : A -> A' -> Prop) (m : res A) (m' : res A') : Prop :=
  match m, m' with Ret a, Ret a' => R a a' | Panic, Panic => True | _, _ => False end.
Lemma both_ret {A A'} (R : A -> A' -> Prop) a a' : R a a' -> both R (Ret a) (Ret a').
Proof. intros H. exact H. Qed.
Lemma both_bind {A A' B B'} (Q : A -> A' -> Prop) (R : B -> B' -> Prop) m m' f f' :
  both Q m m' -> (forall a a', Q a a' -> both R (f a) (f' a')) -> both R (bind m f) (bind m' f').
Proof. destruct m, m'; cbn; try tauto. intros H Hf. apply Hf, H. Qed.
Lemma both_map {A A' B B'} (Q : A -> A' -> Prop) (R : B -> B' -> Prop) m m' f f' :
  both Q m m' -> (forall a a', Q a a' -> R (f a) (f' a')) -> both R (rmap f m) (rmap f' m').
Proof. destruct m, m'; cbn; try tauto. intros H Hf. apply Hf, H. Qed.
Lemma both_expect {A A'} (R : A -> A' -> Prop) o o' : ropt R o o' -> both R (expect o) (expect o').
Proof. destruct o, o'; cbn; tauto. Qed.
Lemma both_refl {A} (R : A -> A -> Prop) m : (forall a, R a a) -> both R m m.
Proof. destruct m; cbn; auto. Qed.
Lemma both_impl {A A'} (Q R : A -> A' -> Prop) m m' : (forall a a', Q a a' -> R a a') -> both Q m m' -> both R m m'.
Proof. destruct m, m'; cbn; auto. Qed.
Lemma ropt_map {A A' B B'} (Q : A -> A' -> Prop) (R : B -> B' -> Prop) o o' f f' :
  ropt Q o o' -> (forall a a', Q a a' -> R (f a) (f' a')) -> ropt R (omap f o) (omap f' o').
Proof. destruct o, o'; cbn; auto. Qed.

Section KSimDef.
  Context {K K' V : Type} (RK : K -> K' -> Prop).
  Definition kp : K * V -> K' * V -> Prop := rprod RK eq.
  Context (O : VebOps K V) (O' : VebOps K' V) (R : vt O -> vt O' -> Prop).
  Definition klens : K * V * (V -> vt O) -> K' * V * (V -> vt O') -> Prop := rprod kp (fun f f' => forall v, R (f v) (f' v)).
  Definition ktaken : option (vt O) * (K * V) -> option (vt O') * (K' * V) -> Prop := rprod (ropt R) kp.
  Record KSim : Prop := {
    q_from : forall k k' v, RK k k' -> R (v_from_monad O k v) (v_from_monad O' k' v);
    q_is_monad : forall t t', R t t' -> both eq (v_is_monad O t) (v_is_monad O' t');
    q_into_monad : forall t t', R t t' -> both (rresult kp R) (v_into_monad O t) (v_into_monad O' t');
    q_min : forall t t', R t t' -> both kp (v_min_val O t) (v_min_val O' t');
    q_max : forall t t', R t t' -> both kp (v_max_val O t) (v_max_val O' t');
    q_min_mut : forall t t', R t t' -> both klens (v_min_val_mut O t) (v_min_val_mut O' t');
    q_max_mut : forall t t', R t t' -> both klens (v_max_val_mut O t) (v_max_val_mut O' t');
    q_find : forall t t' k k', R t t' -> RK k k' -> both (ropt kp) (v_find O t k) (v_find O' t' k');
    q_pred : forall t t' k k', R t t' -> RK k k' -> both (ropt kp) (v_predecessor O t k) (v_predecessor O' t' k');
    q_succ : forall t t' k k', R t t' -> RK k k' -> both (ropt kp) (v_successor O t k) (v_successor O' t' k');
    q_find_mut : forall t t' k k', R t t' -> RK k k' -> both (ropt klens) (v_find_mut O t k) (v_find_mut O' t' k');
    q_pred_mut : forall t t' k k', R t t' -> RK k k' -> both (ropt klens) (v_predecessor_mut O t k) (v_predecessor_mut O' t' k');
    q_succ_mut : forall t t' k k', R t t' -> RK k k' -> both (ropt klens) (v_successor_mut O t k) (v_successor_mut O' t' k');
    q_insert : forall t t' k k' v, R t t' -> RK k k' -> both (rprod R (ropt kp)) (v_insert O t k v) (v_insert O' t' k' v);
    q_remove : forall t t' k k', R t t' -> RK k k' -> both (rresult ktaken R) (v_remove O t k) (v_remove O' t' k');
    q_remove_min : forall t t', R t t' -> both ktaken (v_remove_min O t) (v_remove_min O' t');
    q_remove_max : forall t t', R t t' -> both ktaken (v_remove_max O t) (v_remove_max O' t');
    q_hint : forall t t', R t t' -> both eq (v_len_hint O t) (v_len_hint O' t')
  }.
End KSimDef.
Arguments q_from {K K' V RK O O' R}.
Arguments q_is_monad {K K' V RK O O' R}.
Arguments q_into_monad {K K' V RK O O' R}.
Arguments q_min {K K' V RK O O' R}.
Arguments q_max {K K' V RK O O' R}.
Arguments q_min_mut {K K' V RK O O' R}.
Arguments q_max_mut {K K' V RK O O' R}.
Arguments q_find {K K' V RK O O' R}.
Arguments q_pred {K K' V RK O O' R}.
Arguments q_succ {K K' V RK O O' R}.
Arguments q_find_mut {K K' V RK O O' R}.
Arguments q_pred_mut {K K' V RK O O' R}.
Arguments q_succ_mut {K K' V RK O O' R}.
Arguments q_insert {K K' V RK O O' R}.
Arguments q_remove {K K' V RK O O' R}.
Arguments q_hint {K K' V RK O O' R}.
Arguments q_remove_min {K K' V RK O O' R}.
Arguments q_remove_max {K K' V RK O O' R}.

Section KCSimDef.
  Context {Hi Hi' Lo Lo' V : Type} (RH : Hi -> Hi' -> Prop) (RL : Lo -> Lo' -> Prop) {Tr : VebOps Lo V} {Tr' : VebOps Lo' V}
    (RT : vt Tr -> vt Tr' -> Prop).
  Context (C : CollOps Hi Lo V Tr) (C' : CollOps Hi' Lo' V Tr') (RC : ct C -> ct C' -> Prop).
  Notation tkn := (ktaken RL Tr Tr' RT).
  Definition kleft : option (ct C * bool) * (Lo * V) -> option (ct C' * bool) * (Lo' * V) -> Prop :=
    rprod (ropt (rprod RC eq)) (kp RL).
  Record KCSim : Prop := {
    qc_create : forall h h' t t', RH h h' -> RT t t' -> both RC (c_create C h t) (c_create C' h' t');
    qc_get : forall c c' h h', RC c c' -> RH h h' -> both (ropt RT) (c_get C c h) (c_get C' c' h');
    qc_get_mut : forall c c' h h', RC c c' -> RH h h' -> both (ropt (rprod RT (rfun RT RC))) (c_get_mut C c h) (c_get_mut C' c' h');
    qc_insert : forall c c' h h' lv lv', RC c c' -> RH h h' -> kp RL lv lv' ->
      both (rprod RC (rresult RH (rprod RH (ropt (kp RL))))) (c_insert_key C c h lv) (c_insert_key C' c' h' lv');
    qc_remove : forall c c' h h' f f', RC c c' -> RH h h' -> (forall t t', RT t t' -> both tkn (f t) (f' t')) ->
      both kleft (c_remove_key C c h f) (c_remove_key C' c' h' f');
    qc_maybe : forall c c' h h' f f', RC c c' -> RH h h' -> (forall t t', RT t t' -> both (rresult tkn RT) (f t) (f' t')) ->
      both (rresult kleft RC) (c_maybe_remove_key C c h f) (c_maybe_remove_key C' c' h' f')
  }.
End KCSimDef.
Arguments qc_create {Hi Hi' Lo Lo' V RH RL Tr Tr' RT C C' RC}.
Arguments qc_get {Hi Hi' Lo Lo' V RH RL Tr Tr' RT C C' RC}.
Arguments qc_get_mut {Hi Hi' Lo Lo' V RH RL Tr Tr' RT C C' RC}.
Arguments qc_insert {Hi Hi' Lo Lo' V RH RL Tr Tr' RT C C' RC}.
Arguments qc_remove {Hi Hi' Lo Lo' V RH RL Tr Tr' RT C C' RC}.
Arguments qc_maybe {Hi Hi' Lo Lo' V RH RL Tr Tr' RT C C' RC}.

(** *** Runs *)
Section RunKSim.
  Context {Bd : Build}.
  Context {K K' V : Type} {RK : K -> K' -> Prop} {O : VebOps K V} {O' : VebOps K' V} {R : vt O -> vt O' -> Prop} (X : KSim RK O O' R).
  Definition kop (c : op K V) (c' : op K' V) : Prop :=
    match c, c' with
    | Insert k v, Insert k' v' => RK k k' /\ v = v'
    | Remove k, Remove k' | Find k, Find k' | Pred k, Pred k' | Succ k, Succ k' => RK k k'
    | RemoveMin, RemoveMin | RemoveMax, RemoveMax | IntoMonad, IntoMonad | IsMonad, IsMonad | Min, Min | Max, Max => True
    | MinMut w, MinMut w' | MaxMut w, MaxMut w' => w = w'
    | FindMut k w, FindMut k' w' | PredMut k w, PredMut k' w' | SuccMut k w, SuccMut k' w' => RK k k' /\ w = w'
    | _, _ => False
    end.
  Definition kout (o : out K V) (o' : out K' V) : Prop :=
    match o, o' with OP p, OP p' => ropt (kp RK) p p' | OB b, OB b' => b = b' | _, _ => False end.
  Notation ans := (rprod (ropt R) kout).

  Lemma ksim_query m m' t t' : R t t' -> both (ropt (kp RK)) (m t) (m' t') -> both ans (query O m t) (query O' m' t').
  Proof. intros H Hm. eapply both_bind; [exact Hm|]. intros o o' Ho. apply both_ret. split; auto. Qed.
  Lemma ksim_query1 m m' t t' : R t t' -> both (kp RK) (m t) (m' t') -> both ans (query1 O m t) (query1 O' m' t').
  Proof. intros H Hm. eapply both_bind; [exact Hm|]. intros o o' Ho. apply both_ret. split; auto. Qed.
  Lemma ksim_write m m' w t t' : R t t' -> both (ropt (klens RK O O' R)) (m t) (m' t') ->
    both ans (write O m w t) (write O' m' w t').
  Proof.
    intros H Hm. eapply both_bind; [exact Hm|]. intros [[p put]|] [[p' put']|] Ho; cbn in Ho; try tauto.
    - destruct Ho as [H1 H2]. apply both_ret. split; [apply H2|exact H1].
    - apply both_ret. split; [exact H|exact I].
  Qed.
  Lemma ksim_write1 m m' w t t' : R t t' -> both (klens RK O O' R) (m t) (m' t') -> both ans (write1 O m w t) (write1 O' m' w t').
  Proof.
    intros H Hm. eapply both_bind; [exact Hm|]. intros [p put] [p' put'] [H1 H2].
    apply both_ret. split; [apply H2|exact H1].
  Qed.
  Lemma ksim_step c c' ot ot' : kop c c' -> ropt R ot ot' -> both ans (step O c ot) (step O' c' ot').
  Proof.
    intros Hc Ht. destruct ot as [t|], ot' as [t'|]; cbn in Ht; try tauto.
    2:{ destruct c, c'; cbn in Hc; try tauto; apply both_ret; cbn; try (split; [exact I|exact I]).
        - destruct Hc as [Hc ->]. split; [apply (q_from X); auto|exact I].
        - split; [exact I|reflexivity]. }
    destruct c, c'; cbn in Hc; try tauto;
      match type of Hc with _ /\ _ => destruct Hc as [Hc ->] | ?a = _ => subst a | _ => idtac end; cbn [step].
    - eapply both_bind; [apply (q_insert X); eassumption|]. intros [a b] [a' b'] [H1 H2]. apply both_ret. split; auto.
    - eapply both_bind; [apply (q_remove X); eassumption|]. intros [[a b]|a] [[a' b']|a'] H; cbn in H; try contradiction; apply both_ret.
      + split; apply H.
      + split; [exact H|exact I].
    - eapply both_bind; [apply (q_remove_min X); eassumption|]. intros [a b] [a' b'] [H1 H2]. apply both_ret. split; auto.
    - eapply both_bind; [apply (q_remove_max X); eassumption|]. intros [a b] [a' b'] [H1 H2]. apply both_ret. split; auto.
    - eapply both_bind; [apply (q_into_monad X); eassumption|]. intros [a|a] [a'|a'] H; cbn in H; try contradiction; apply both_ret.
      + split; [exact I|exact H].
      + split; [exact H|exact I].
    - eapply both_bind; [apply (q_is_monad X); eassumption|]. intros b b' ->. apply both_ret. split; [exact Ht|reflexivity].
    - apply ksim_query1; auto. apply (q_min X); auto.
    - apply ksim_query1; auto. apply (q_max X); auto.
    - apply (ksim_query (fun t => v_find O t k) (fun t => v_find O' t k0)); auto. apply (q_find X); auto.
    - apply (ksim_query (fun t => v_predecessor O t k) (fun t => v_predecessor O' t k0)); auto. apply (q_pred X); auto.
    - apply (ksim_query (fun t => v_successor O t k) (fun t => v_successor O' t k0)); auto. apply (q_succ X); auto.
    - apply ksim_write1; auto. apply (q_min_mut X); auto.
    - apply ksim_write1; auto. apply (q_max_mut X); auto.
    - apply (ksim_write (fun t => v_find_mut O t k) (fun t => v_find_mut O' t k0)); auto. apply (q_find_mut X); auto.
    - apply (ksim_write (fun t => v_predecessor_mut O t k) (fun t => v_predecessor_mut O' t k0)); auto. apply (q_pred_mut X); auto.
    - apply (ksim_write (fun t => v_successor_mut O t k) (fun t => v_successor_mut O' t k0)); auto. apply (q_succ_mut X); auto.
  Qed.
  Lemma ksim_run cs : forall cs' ot ot', Forall2 kop cs cs' -> ropt R ot ot' ->
    both (rprod (ropt R) (Forall2 kout)) (run O cs ot) (run O' cs' ot').
  Proof.
    induction cs as [|c cs IH]; intros cs' ot ot' Hc Ht; inversion Hc as [|? c' ? cs1 Hc1 Hc2]; subst; cbn [run].
    - apply both_ret. split; [exact Ht|constructor].
    - eapply both_bind; [apply ksim_step; eassumption|]. intros [a b] [a' b'] [H1 H2].
      eapply both_bind; [apply IH; eassumption|]. intros [x y] [x' y'] [H3 H4]. apply both_ret. split; [exact H3|].
      constructor; auto.
  Qed.
End RunKSim.

(** *** The same keys and trees *)
Lemma ksim_refl {K V} (O : VebOps K V) : KSim eq O O eq.
Proof.
  assert (Hp : forall p : K * V, kp eq p p) by (intros p; split; reflexivity).
  assert (Ho : forall o : option (K * V), ropt (kp eq) o o) by (intros [p|]; cbn; auto).
  assert (Hl : forall l : K * V * (V -> vt O), klens eq O O eq l l) by (intros [p f]; split; [apply Hp|reflexivity]).
  assert (Hol : forall o : option (K * V * (V -> vt O)), ropt (klens eq O O eq) o o) by (intros [p|]; cbn; auto).
  assert (Ht : forall o : option (vt O) * (K * V), ktaken eq O O eq o o).
  { intros [o p]. split; [destruct o; cbn; auto|apply Hp]. }
  constructor; intros; subst; try (apply both_refl; auto; fail).
  - reflexivity.
  - apply both_refl. intros [p|t]; cbn; auto.
  - apply both_refl. intros [t o]. split; auto.
  - apply both_refl. intros [p|t]; cbn; auto.
Qed.

(** *** Box and SizedVebTree *)
Section Wrappers.
  Context {Bd : Build}.
  Context {K K' V : Type} {RK : K -> K' -> Prop} {O : VebOps K V} {O' : VebOps K' V} {R : vt O -> vt O' -> Prop} (X : KSim RK O O' R).
  Definition kbox_rel (b : vt (Box_ops O)) (b' : vt (Box_ops O')) : Prop := R (unbox b) (unbox b').
  Lemma kbox_sim : KSim RK (Box_ops O) (Box_ops O') kbox_rel.
  Proof.
    assert (Hl : forall l l', klens RK O O' R l l' -> klens RK (Box_ops O) (Box_ops O') kbox_rel (box_lens O l) (box_lens O' l')).
    { intros [p f] [p' f'] [H1 H2]. split; [exact H1|]. exact H2. }
    assert (Hr : forall l l', ktaken RK O O' R l l' -> ktaken RK (Box_ops O) (Box_ops O') kbox_rel (box_rm O l) (box_rm O' l')).
    { intros [[t|] p] [[t'|] p'] [H1 H2]; cbn in H1; try contradiction; split; auto. }
    constructor; intros; cbn [Box_ops v_from_monad v_is_monad v_into_monad v_min_val v_max_val v_min_val_mut v_max_val_mut v_find v_predecessor
      v_successor v_find_mut v_predecessor_mut v_successor_mut v_insert v_remove v_remove_min v_remove_max].
    - apply (q_from X); auto.
    - apply (q_is_monad X); auto.
    - eapply both_bind; [apply (q_into_monad X), H|]. intros [p|t1] [p'|t1'] H1; cbn in H1; try contradiction; apply both_ret; exact H1.
    - apply (q_min X); auto.
    - apply (q_max X); auto.
    - eapply both_map; [apply (q_min_mut X), H|exact Hl].
    - eapply both_map; [apply (q_max_mut X), H|exact Hl].
    - apply (q_find X); auto.
    - apply (q_pred X); auto.
    - apply (q_succ X); auto.
    - eapply both_map; [apply (q_find_mut X); eauto|]. intros; eapply ropt_map; eauto.
    - eapply both_map; [apply (q_pred_mut X); eauto|]. intros; eapply ropt_map; eauto.
    - eapply both_map; [apply (q_succ_mut X); eauto|]. intros; eapply ropt_map; eauto.
    - eapply both_bind; [apply (q_insert X); eauto|]. intros [t1 r] [t1' r'] [H1 H2]. apply both_ret. split; auto.
    - eapply both_bind; [apply (q_remove X); eauto|]. intros [p|t1] [p'|t1'] H1; cbn in H1; try contradiction; apply both_ret; [|exact H1].
      apply Hr, H1.
    - eapply both_map; [apply (q_remove_min X), H|exact Hr].
    - eapply both_map; [apply (q_remove_max X), H|exact Hr].
    - apply (q_hint X); auto.
  Qed.

  Definition ksized_rel (b : vt (Sized_ops O)) (b' : vt (Sized_ops O')) : Prop := R (sz_tree b) (sz_tree b') /\ sz_size b = sz_size b'.
  Lemma ksized_sim : KSim RK (Sized_ops O) (Sized_ops O') ksized_rel.
  Proof.
    assert (Hl : forall t t' l l', ksized_rel t t' -> klens RK O O' R l l' ->
      klens RK (Sized_ops O) (Sized_ops O') ksized_rel (sz_lens O t l) (sz_lens O' t' l')).
    { intros t t' [p f] [p' f'] [_ H0] [H1 H2]. split; [exact H1|]. intros v. split; [apply H2|exact H0]. }
    assert (Hr : forall rm rm' t t', ksized_rel t t' -> (forall t t', R t t' -> both (ktaken RK O O' R) (rm t) (rm' t')) ->
      both (ktaken RK (Sized_ops O) (Sized_ops O') ksized_rel) (sz_remove_end O rm t) (sz_remove_end O' rm' t')).
    { intros rm rm' t t' [H1 H2] H. unfold sz_remove_end. rewrite H2.
      eapply (both_bind eq); [apply both_refl; auto|]. intros n n' <-. eapply both_bind; [apply H, H1|].
      intros [[t1|] p] [[t1'|] p'] [H3 H4]; cbn in H3, H4; try contradiction.
      - eapply (both_bind eq); [apply both_refl; auto|]. intros m m' <-. apply both_ret. split; [split; auto|exact H4].
      - apply both_ret. split; [exact I|exact H4]. }
    constructor; intros; cbn [Sized_ops v_from_monad v_is_monad v_into_monad v_min_val v_max_val v_min_val_mut v_max_val_mut v_find v_predecessor
      v_successor v_find_mut v_predecessor_mut v_successor_mut v_insert v_remove v_remove_min v_remove_max].
    - split; [apply (q_from X); auto|reflexivity].
    - destruct H as [H1 H2]. eapply both_bind; [apply (q_is_monad X), H1|]. intros b b' <-. rewrite H2. apply both_refl. auto.
    - destruct H as [H1 H2]. eapply both_bind; [apply (q_into_monad X), H1|].
      intros [p|t1] [p'|t1'] H3; cbn in H3; try contradiction; apply both_ret; [exact H3|]. split; [exact H3|exact H2].
    - apply (q_min X), H.
    - apply (q_max X), H.
    - eapply both_map; [apply (q_min_mut X), H|]. auto.
    - eapply both_map; [apply (q_max_mut X), H|]. auto.
    - apply (q_find X); auto. apply H.
    - apply (q_pred X); auto. apply H.
    - apply (q_succ X); auto. apply H.
    - eapply both_map; [apply (q_find_mut X); [apply H|eassumption]|]. intros; eapply ropt_map; eauto.
    - eapply both_map; [apply (q_pred_mut X); [apply H|eassumption]|]. intros; eapply ropt_map; eauto.
    - eapply both_map; [apply (q_succ_mut X); [apply H|eassumption]|]. intros; eapply ropt_map; eauto.
    - destruct H as [H1 H2]. eapply both_bind; [apply (q_insert X); eassumption|]. intros [t1 r] [t1' r'] [H3 H4]. cbn in H3, H4.
      destruct r as [p|], r' as [p'|]; cbn in H4; try contradiction.
      + apply both_ret. split; [split; auto|exact H4].
      + rewrite H2. eapply (both_bind eq); [apply both_refl; auto|]. intros n n' <-. apply both_ret. split; [split; auto|exact I].
    - destruct H as [H1 H2]. eapply both_bind; [apply (q_remove X); eassumption|].
      intros [[[t1|] p]|t1] [[[t1'|] p']|t1'] H3; cbn in H3; try contradiction; try (destruct H3 as [[] _]; fail).
      + destruct H3 as [H3 H4]. rewrite H2. eapply (both_bind eq); [apply both_refl; auto|]. intros n n' <-.
        eapply (both_bind eq); [apply both_refl; auto|]. intros m m' <-. apply both_ret. split; [split; auto|exact H4].
      + apply both_ret. exact H3.
      + apply both_ret. split; [exact H3|exact H2].
    - apply Hr; auto. apply (q_remove_min X).
    - apply Hr; auto. apply (q_remove_max X).
    - destruct H as [_ H]. cbn [Sized_ops v_len_hint]. rewrite H. apply both_refl. reflexivity.
  Qed.
End Wrappers.
