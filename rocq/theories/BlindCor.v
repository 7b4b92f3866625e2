(** No operation looks at a value. *)
From Verif Require Import Base Ints Ops Spec ByteSet ByteMap Coll Boxed BTree SizedT Tree Lists Laws CollProofs
  Hist Types HistProofs TypesProofs HistCor Sim TreeSim CollSim LeafSim Core CoreCor CloneCor Rel RelCor Iter IterSpec Blind.

Section Checked.
Context {B : Build} (Hd : @dbg B = true).

Lemma core_at_own {fixed K V cmp O} (T : VebType fixed K V cmp O) : core T = core_at T V.
Proof.
  induction T as [|V|K V cmp OL|K Hi Lo V ko KL S Tr C TS IHS TT IHT CT|K V cmp O T IH|K V cmp O T IH]; cbn [core core_at]; auto.
  rewrite IHS, IHT. reflexivity.
Qed.

Section Values.
  Context {V W : Type} (R : V -> W -> Prop).
  Lemma hash_rel {Hi Lo} (eqf : Hi -> Hi -> bool) (Heq : forall a b, eqf a b = true <-> a = b) (Hdec : forall a b : Hi, {a = b} + {a <> b})
    (Tr : VebOps Lo V) (Tr' : VebOps Lo W) RT (XT : Sim R Tr Tr' RT) :
    exists RC, CSim R RT (Hash_coll eqf Tr) (Hash_coll eqf Tr') RC.
  Proof.
    eexists. apply (coll_sim (Hash_coll_laws eqf Heq Tr) (coll_panics Hd (CT_Hash Tr Hi eqf Heq)) (Hash_coll_laws eqf Heq Tr') XT Hdec).
  Qed.
  Lemma values_sim {fixed K V0 cmp O} (T : VebType fixed K V0 cmp O) : exists Q, Sim R (core_at T V) (core_at T W) Q.
  Proof.
    induction T as [|V0|K V0 cmp OL|K Hi Lo V0 ko KL S Tr C TS _ TT [RT XT] CT|K V0 cmp O T [Q X]|K V0 cmp O T [Q X]]; cbn [core_at].
    - eexists. apply btree_sim.
    - eexists. apply btree_sim.
    - eexists. apply btree_sim.
    - destruct (hash_rel (eqb (hi_cmp ko)) (eqb_eq (KL_hi KL)) (key_dec (KL_hi KL)) _ _ RT XT) as [RC XC].
      eexists. eapply tree_sim; [apply lenient_refl| |exact XT|exact XC].
      apply (unit_sim (core_at TS unit) eq). intros [] []. reflexivity.
    - eauto.
    - eauto.
  Qed.
  Lemma op_rel_rop {K} (c : op K V) (c' : op K W) : op_rel R c c' -> rop (RV := R) c c'.
  Proof. destruct 1; cbn; auto. Qed.
  Lemma rout_out_rel {K} (o : out K V) (o' : out K W) : rout (RV := R) o o' -> out_rel R o o'.
  Proof.
    destruct o as [[[k v]|]|b], o' as [[[k' w]|]|b']; cbn; try contradiction.
    - intros [E H]. cbn in E, H. subst k'. constructor. exact H.
    - constructor.
    - intros <-. constructor.
  Qed.
  Lemma ops_rop {K} (cs : list (op K V)) (cs' : list (op K W)) : Forall2 (op_rel R) cs cs' -> Forall2 (rop (RV := R)) cs cs'.
  Proof. induction 1; constructor; auto. apply op_rel_rop. auto. Qed.
  Lemma routs_rel {K} (os : list (out K V)) (os' : list (out K W)) : Forall2 (rout (RV := R)) os os' -> Forall2 (out_rel R) os os'.
  Proof. induction 1; constructor; auto. apply rout_out_rel. auto. Qed.
  Lemma ropt_none {A A'} {Q : A -> A' -> Prop} {o o'} : ropt Q o o' -> (o = None <-> o' = None).
  Proof. destruct o, o'; cbn; try contradiction; split; congruence. Qed.

  Lemma values_run {fixed K cmp} {O : VebOps K V} (T : VebType fixed K V cmp O) cs cs' ot os :
    Forall2 (op_rel R) cs cs' -> run O cs None = Ret (ot, os) ->
    exists ot' os', run (core_at T W) cs' None = Ret (ot', os') /\ Forall2 (out_rel R) os os' /\ (ot = None <-> ot' = None).
  Proof.
    intros Hc E. assert (C := core_run Hd T cs ot os E). rewrite core_at_own in C. destruct C as [o1 [E1 H1]].
    destruct (values_sim T) as [Q X]. destruct (sim_run X cs cs' None None (ops_rop _ _ Hc) I _ E1) as [[o2 os2] [E2 [H2 H3]]].
    cbn in H2, H3. apply ropt_none in H2. apply routs_rel in H3. exists o2, os2. split; auto. split; auto. tauto.
  Qed.
  Lemma related_runs {fixed K cmp cmp'} {O : VebOps K V} {O' : VebOps K W} (T : VebType fixed K V cmp O) (T' : VebType fixed K W cmp' O') cs cs' ot os ot' os' :
    nested_alike T T' -> Forall2 (op_rel R) cs cs' -> run O cs None = Ret (ot, os) -> run O' cs' None = Ret (ot', os') ->
    Forall2 (out_rel R) os os' /\ (ot = None <-> ot' = None).
  Proof.
    intros HT Hc E E'. destruct (values_run T cs cs' ot os Hc E) as [o2 [os2 [E2 [H2 H3]]]]. assert (C := core_run Hd T' cs' ot' os' E').
    rewrite core_at_own, <- (HT W) in C. destruct C as [o3 [E3 H4]]. assert (X := eq_trans (eq_sym E2) E3). injection X as -> ->. tauto.
  Qed.
  Lemma op_rel_len {K} (cs : list (op K V)) (cs' : list (op K W)) : Forall2 (op_rel R) cs cs' -> length cs = length cs'.
  Proof. induction 1; cbn; congruence. Qed.
  Lemma related {fixed K cmp cmp'} {O : VebOps K V} {O' : VebOps K W} (T : VebType fixed K V cmp O) (T' : VebType fixed K W cmp' O') cs cs' :
    nested_alike T T' -> Forall2 (op_rel R) cs cs' -> (N.of_nat (length cs) <= usize_max)%N ->
    exists ot os ot' os', run O cs None = Ret (ot, os) /\ run O' cs' None = Ret (ot', os') /\ Forall2 (out_rel R) os os' /\ (ot = None <-> ot' = None).
  Proof.
    intros HT Hc Hl. assert (H := no_panic_run (type_laws T) cs Hl). assert (H' := no_panic_run (type_laws T') cs'). rewrite <- (op_rel_len cs cs' Hc) in H'.
    specialize (H' Hl). destruct (run O cs None) as [[ot os]|] eqn:E; [|congruence]. destruct (run O' cs' None) as [[ot' os']|] eqn:E'; [|congruence].
    exists ot, os, ot', os'. split; [reflexivity|]. split; [reflexivity|]. exact (related_runs T T' cs cs' ot os ot' os' HT Hc E E').
  Qed.
  Lemma related_builds (B1 B2 : Build) {fixed K cmp cmp'} {O : VebOps K V} {O' : VebOps K W}
    (T : @VebType B fixed K V cmp O) (T' : @VebType B fixed K W cmp' O') cs cs' :
    (@usize_bits B <= @usize_bits B1)%N -> (@usize_bits B <= @usize_bits B2)%N ->
    nested_alike T T' -> Forall2 (op_rel R) cs cs' -> (N.of_nat (length cs) <= @usize_max B)%N ->
    exists ot os ot' os', run (recompiled B1 T) cs None = Ret (ot, os) /\ run (recompiled B2 T') cs' None = Ret (ot', os') /\
      Forall2 (out_rel R) os os' /\ (ot = None <-> ot' = None).
  Proof.
    intros W1 W2 HT Hc Hl. destruct (related T T' cs cs' HT Hc Hl) as [ot [os [ot' [os' [E [E' [H1 H2]]]]]]].
    destruct (recompiled_run B1 Hd W1 T cs ot os E) as [o1 [E1 H3]]. destruct (recompiled_run B2 Hd W2 T' cs' ot' os' E') as [o2 [E2 H4]].
    exists o1, os, o2, os'. split; [exact E1|]. split; [exact E2|]. split; [exact H1|]. tauto.
  Qed.

  (** *** Iterators *)
  Section Iters.
    Context {K : Type} {O : VebOps K V} {O' : VebOps K W} {Q : vt O -> vt O' -> Prop} (X : Sim R O O' Q) (keq : K -> K -> bool).
    Context (t : vt O) (t' : vt O') (Ht : Q t t').
    Notation ans := (rprod (@eq (Iter K)) (ropt (rp (K := K) R))).
    Lemma emit_rel (it : Iter K) d (p : K * V) (p' : K * W) : rp R p p' -> rres ans (emit it d p) (emit it d p').
    Proof.
      intros H. unfold emit. eapply rres_bind; [apply (rres_eq eq); reflexivity|]. intros n _ <-. apply rres_ret. split; [reflexivity|exact H].
    Qed.
    Lemma fst_rel (p : K * V) (p' : K * W) : rp R p p' -> fst p' = fst p.
    Proof. intros [E _]. symmetry. exact E. Qed.
    Lemma call_rel d it : rres ans (it_call O keq t d it) (it_call O' keq t' d it).
    Proof.
      assert (Hs : forall i : Iter K, rres ans (@stop K V i) (@stop K W i)) by (intros; apply rres_ret; split; [reflexivity|exact I]).
      assert (Ha : forall i : Iter K, rres ans (_ <- debug_assert false ;; @stop K V i) (_ <- debug_assert false ;; @stop K W i)) by (intros i; cbn; destruct (@dbg B); [apply rres_panic|apply Hs]).
      unfold it_call, it_next, it_next_back. destruct d; destruct (it_data it) as [[|k|k|f b]|]; try apply Hs.
      - eapply rres_bind; [apply (s_max X), Ht|]. intros p p' Hp. rewrite (fst_rel _ _ Hp). apply emit_rel; auto.
      - eapply rres_bind; [apply (s_max X), Ht|]. intros p p' Hp. rewrite (fst_rel _ _ Hp). destruct (keq k (fst p)); [apply Hs|apply emit_rel; auto].
      - eapply rres_bind; [apply (s_pred X), Ht|]. intros [p|] [p'|] Hp; cbn in Hp; try contradiction; [|apply Hs]. rewrite (fst_rel _ _ Hp). apply emit_rel; auto.
      - eapply rres_bind; [apply (s_pred X), Ht|]. intros [p|] [p'|] Hp; cbn in Hp; try contradiction; [|apply Ha].
        rewrite (fst_rel _ _ Hp). destruct (keq f (fst p)); [apply Hs|apply emit_rel; auto].
      - eapply rres_bind; [apply (s_min X), Ht|]. intros p p' Hp. rewrite (fst_rel _ _ Hp). apply emit_rel; auto.
      - eapply rres_bind; [apply (s_succ X), Ht|]. intros [p|] [p'|] Hp; cbn in Hp; try contradiction; [|apply Hs]. rewrite (fst_rel _ _ Hp). apply emit_rel; auto.
      - eapply rres_bind; [apply (s_min X), Ht|]. intros p p' Hp. rewrite (fst_rel _ _ Hp). destruct (keq (fst p) k); [apply Hs|apply emit_rel; auto].
      - eapply rres_bind; [apply (s_succ X), Ht|]. intros [p|] [p'|] Hp; cbn in Hp; try contradiction; [|apply Ha].
        rewrite (fst_rel _ _ Hp). destruct (keq (fst p) b); [apply Hs|apply emit_rel; auto].
    Qed.
    Lemma iter_rel dirs : forall it, rres (rprod eq (Forall2 (ropt (rp R)))) (it_run O keq t dirs it) (it_run O' keq t' dirs it).
    Proof.
      induction dirs as [|d ds IH]; intros it; cbn [it_run]; [apply rres_ret; split; [reflexivity|constructor]|].
      eapply rres_bind; [apply call_rel|]. intros [i o] [i' o'] [E Ho]. cbn in E, Ho. subst i'. eapply rres_bind; [apply IH|].
      intros [i2 os] [i2' os'] [E Hos]. cbn in E, Hos. subst i2'. apply rres_ret. split; [reflexivity|]. constructor; auto.
    Qed.
  End Iters.
End Values.

Lemma iter_eq_sim {K V} {O O' : VebOps K V} {Q : vt O -> vt O' -> Prop} (X : Sim eq O O' Q) keq t t' (Ht : Q t t') dirs it r :
  it_run O keq t dirs it = Ret r -> it_run O' keq t' dirs it = Ret r.
Proof. intros E. destruct (iter_sim B Hd (N.le_refl _) X keq t t' Ht dirs it r E) as [r' [E' <-]]. exact E'. Qed.

(** yielded pairs, up to values *)
Lemma related_iters {V W} (R : V -> W -> Prop) {fixed K cmp cmp'} {O : VebOps K V} {O' : VebOps K W} (T : VebType fixed K V cmp O) (T' : VebType fixed K W cmp' O')
  keq cs cs' t os t' os' dirs it ps it' ps' :
  nested_alike T T' -> Forall2 (op_rel R) cs cs' -> run O cs None = Ret (Some t, os) -> run O' cs' None = Ret (Some t', os') ->
  it_run O keq t dirs it_new = Ret (it, ps) -> it_run O' keq t' dirs it_new = Ret (it', ps') ->
  it = it' /\ Forall2 (fun p p' => out_rel R (OP p) (OP p')) ps ps'.
Proof.
  intros HT Hc E E' Hi Hi'.
  destruct (core_sim Hd T) as [Q1 X1]. destruct (sim_run_eq X1 cs None _ _ None I E) as [[t1|] [E1 H1]]; cbn in H1; [|contradiction].
  assert (I1 := iter_eq_sim X1 keq t t1 H1 dirs _ _ Hi).
  destruct (core_sim Hd T') as [Q2 X2]. destruct (sim_run_eq X2 cs' None _ _ None I E') as [[t2|] [E2 H2]]; cbn in H2; [|contradiction].
  assert (I2 := iter_eq_sim X2 keq t' t2 H2 dirs _ _ Hi').
  clear Q1 X1 H1 Q2 X2 H2. revert t1 E1 I1 t2 E2 I2. rewrite !core_at_own, <- (HT W). intros t1 E1 I1 t2 E2 I2.
  destruct (values_sim R T) as [Q X]. destruct (sim_run X cs cs' None None (ops_rop R _ _ Hc) I _ E1) as [[o3 os3] [E3 [H3 _]]].
  rewrite E2 in E3. injection E3 as <- <-. cbn in H3.
  destruct (iter_rel R X keq t1 t2 H3 dirs it_new _ I1) as [[i4 ps4] [E4 [H4 H5]]]. rewrite I2 in E4. injection E4 as <- <-. cbn in H4, H5.
  split; [exact H4|]. clear -H5. induction H5 as [|[[k v]|] [[k' w]|] l l' H _ IH]; constructor; auto; cbn in H; try contradiction.
  - destruct H as [E H]. cbn in E, H. subst k'. constructor. exact H.
  - constructor.
Qed.

(** *** Functions *)
Lemma op_map_rel {K V W} (f : V -> W) (cs : list (op K V)) : Forall2 (op_rel (fun v w => w = f v)) cs (map (op_map f) cs).
Proof. induction cs as [|c cs IH]; cbn; constructor; auto. destruct c; cbn; constructor; reflexivity. Qed.
Lemma out_rel_map {K V W} (f : V -> W) (os : list (out K V)) os' : Forall2 (out_rel (fun v w => w = f v)) os os' -> os' = map (out_map f) os.
Proof. induction 1 as [|o o' os os' H _ IH]; cbn; auto. f_equal; auto. destruct H; cbn; congruence. Qed.
Lemma mapped {fixed K V W cmp cmp'} {O : VebOps K V} {O' : VebOps K W} (T : VebType fixed K V cmp O) (T' : VebType fixed K W cmp' O') (f : V -> W) cs :
  nested_alike T T' -> (N.of_nat (length cs) <= usize_max)%N ->
  exists ot os ot', run O cs None = Ret (ot, os) /\ run O' (map (op_map f) cs) None = Ret (ot', map (out_map f) os) /\ (ot = None <-> ot' = None).
Proof.
  intros HT Hl. destruct (related _ T T' cs _ HT (op_map_rel f cs) Hl) as [ot [os [ot' [os' [E [E' [H1 H2]]]]]]].
  apply out_rel_map in H1. subst os'. exists ot, os, ot'. auto.
Qed.

(** *** Nothing is made up *)
Lemma given_rel {K V} (cs : list (op K V)) (l : list V) : incl (concat (map given cs)) l -> Forall2 (op_rel (fun v w => v = w /\ In v l)) cs cs.
Proof.
  induction cs as [|c cs IH]; intros Hl; constructor.
  - assert (H : incl (given c) l) by (intros v Hv; apply Hl; cbn; apply in_or_app; auto).
    destruct c; constructor; split; auto; apply H; left; auto.
  - apply IH. intros v Hv. apply Hl. cbn. apply in_or_app. auto.
Qed.
Lemma from_history {fixed K V cmp} {O : VebOps K V} (T : VebType fixed K V cmp O) cs ot os k v : run O cs None = Ret (ot, os) ->
  In (OP (Some (k, v))) os -> exists c, In c cs /\ In v (given c).
Proof.
  intros E Hin. destruct (related_runs _ T T cs cs ot os ot os (fun X => eq_refl) (given_rel cs _ (incl_refl _)) E E) as [H _].
  assert (Hv : In v (concat (map given cs))).
  { clear -H Hin. induction H as [|o o' os os' H _ IH]; [contradiction|]. destruct Hin as [->|Hin]; auto. inversion H as [k0 v0 w [E H1]| |]; subst. exact H1. }
  apply in_concat in Hv. destruct Hv as [x [H1 H2]]. apply in_map_iff in H1. destruct H1 as [c [<- H1]]. eauto.
Qed.
Lemma erased_rel {K V} (cs cs' : list (op K V)) : map (op_map (fun _ => tt)) cs = map (op_map (fun _ => tt)) cs' -> Forall2 (op_rel (fun _ _ => True)) cs cs'.
Proof.
  revert cs'. induction cs as [|c cs IH]; intros [|c' cs'] E; try discriminate E; constructor.
  - injection E as E _. destruct c, c'; cbn in E; try discriminate E; try (injection E as <-); constructor; exact I.
  - injection E as _ E. auto.
Qed.
Lemma erased {fixed K V cmp} {O : VebOps K V} (T : VebType fixed K V cmp O) cs cs' ot os ot' os' :
  map (op_map (fun _ => tt)) cs = map (op_map (fun _ => tt)) cs' -> run O cs None = Ret (ot, os) -> run O cs' None = Ret (ot', os') ->
  map (out_map (fun _ => tt)) os = map (out_map (fun _ => tt)) os'.
Proof.
  intros Hc E E'. destruct (related_runs _ T T cs cs' ot os ot' os' (fun X => eq_refl) (erased_rel cs cs' Hc) E E') as [H _].
  clear -H. induction H as [|o o' os os' H _ IH]; cbn; auto. f_equal; auto. destruct H; reflexivity.
Qed.
End Checked.
