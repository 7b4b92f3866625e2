(** A clone behaves as the original. *)
From Verif Require Import Base Ints Ops Spec ByteSet ByteMap Coll Boxed BTree SizedT Tree Lists Laws ByteSetProofs ByteMapProofs BTreeProofs CollProofs
  TreeChildren TreeUpd TreeProofs WrapProofs Hist Types HistProofs TypesProofs HistCor Sim TreeSim CollSim LeafSim Clone.

Section AllBuilds.
Context {Bd : Build}.

(** *** Faithful clones are identities *)
Lemma map_same {K V} (cv : V -> V) (l : list (K * V)) : (forall v, cv v = v) -> map (on_value cv) l = l.
Proof. intros H. induction l as [|[k v] l IH]; cbn; auto. unfold on_value at 1. cbn. rewrite H, IH. auto. Qed.
Lemma box_same {T} (f : T -> T) b : (forall t, f t = t) -> mkbox (f (unbox b)) = b.
Proof. intros H. destruct b. cbn. rewrite H. auto. Qed.
Lemma coll_clone_same {Lo V} {Tr : VebOps Lo V} {Hi C} (CT : CollType Tr Hi C) f g : (forall t, f t = t) ->
  coll_clone CT f = Some g -> forall c, g c = c.
Proof.
  intros Hf. revert g. induction CT as [| | |Hi C CT IH]; cbn; intros g E; try discriminate E.
  - injection E as <-. intros c. apply map_same. auto.
  - destruct (coll_clone CT f) as [g'|]; [|discriminate E]. injection E as <-. intros b. apply box_same. auto.
Qed.
Lemma clone_same {fixed K V cmp O} (T : VebType fixed K V cmp O) : forall cv f, (forall v, cv v = v) -> clone_of T cv = Some f ->
  forall t, f t = t.
Proof.
  induction T as [|V|K V cmp OL|K Hi Lo V ko KL S Tr C TS IHS TT IHT CT|K V cmp O T IH|K V cmp O T IH]; cbn; intros cv f Hv E; try discriminate E.
  - injection E as <-. auto.
  - injection E as <-. intros t. apply map_same. auto.
  - destruct (clone_of TS _) as [cs|] eqn:Es; [|discriminate E]. destruct (clone_of TT cv) as [ct1|] eqn:Et; [|discriminate E].
    destruct (coll_clone CT ct1) as [cc|] eqn:Ec; [|discriminate E]. injection E as <-.
    assert (Hs := IHS _ _ (fun u => eq_refl) Es). assert (Ht := IHT _ _ Hv Et). assert (Hc := coll_clone_same CT _ _ Ht Ec).
    intros [[k v] [[[k1 v1] [[s c]|]]|]]; unfold clone_tree, clone_data; cbn; rewrite ?Hv, ?Hs, ?Hc; auto.
  - destruct (clone_of T cv) as [f'|] eqn:Ef; [|discriminate E]. injection E as <-. intros b. apply box_same. eauto.
Qed.

(** *** In general *)
Definition rv {V} (cv : V -> V) (v v' : V) : Prop := cv v = v'.
Lemma unit_sim {K} (O : VebOps K unit) (RV : unit -> unit -> Prop) : (forall a b, RV a b) -> Sim RV O O eq.
Proof.
  intros HR. assert (Hp : forall p : K * unit, rp RV p p) by (intros p; split; auto).
  assert (Hop : forall o : option (K * unit), ropt (rp RV) o o) by (intros [p|]; cbn; auto).
  assert (Hl : forall x, rlens RV O O eq x x) by (intros x; split; auto; intros [] [] _; auto).
  assert (Hol : forall x, ropt (rlens RV O O eq) x x) by (intros [x|]; cbn; auto).
  assert (Hr : forall x, rtaken RV O O eq x x) by (intros [[t|] p]; split; cbn; auto).
  constructor; intros; try subst t'; try (apply rres_eq; auto; fail).
  - destruct v, v'. auto.
  - apply rres_eq. intros [p|t1]; cbn; auto.
  - destruct v, v'. apply rres_eq. intros [t1 o]. split; cbn; auto.
  - apply rres_eq. intros [x|t1]; cbn; auto.
Qed.
Lemma prel_map {Hi T} (f : T -> T) (R : T -> T -> Prop) (l : list (Hi * T)) : (forall h t, In (h, t) l -> R t (f t)) -> prel R l (map (on_value f) l).
Proof.
  intros H. exists (map (on_value f) l). split; auto. induction l as [|[h t] l IH]; cbn; constructor.
  - split; auto. apply (H h). left. auto.
  - apply IH. intros h' t' Hin. apply (H h'). right. auto.
Qed.
Lemma coll_clone_rel {Lo V} {Tr : VebOps Lo V} {Hi C} (CT : CollType Tr Hi C) (RT : vt Tr -> vt Tr -> Prop) f g : coll_clone CT f = Some g -> forall c,
  cinv (coll_laws CT) c -> (forall h t, In (h, t) (cents (coll_laws CT) c) -> RT t (f t)) ->
  coll_rel (RT := RT) (coll_laws CT) (coll_laws CT) c (g c).
Proof.
  revert g. induction CT as [|Hi eq Heq| |Hi C CT IH]; cbn [coll_clone coll_laws]; intros g E; try discriminate E.
  - injection E as <-. intros c Hc Ht. split; [exact Hc|]. split; [|apply prel_map; exact Ht].
    destruct Hc as [H1 H2]. split.
    + cbn. replace (map fst (map (on_value f) c)) with (map fst c); auto. rewrite map_map. apply map_ext. auto.
    + cbn. intros E. apply map_eq_nil in E. auto.
  - destruct (coll_clone CT f) as [g'|] eqn:Eg; [|discriminate E]. injection E as <-. intros [c] Hc Ht. exact (IH g' eq_refl c Hc Ht).
Qed.
Lemma clone_panics {Lo V} {Tr : VebOps Lo V} {Hi C} (CT : CollType Tr Hi C) f g : coll_clone CT f = Some g -> absent_panics (coll_laws CT).
Proof.
  intros E. apply coll_panics_if. right. revert f g E. induction CT; cbn; intros f g E; try discriminate E; auto.
  destruct (coll_clone CT f) as [g'|] eqn:Eg; [|discriminate E]. eapply IHCT; eauto.
Qed.
Lemma clone_sim {fixed K V cmp O} (T : VebType fixed K V cmp O) : forall cv f, clone_of T cv = Some f ->
  exists R, Sim (rv cv) O O R /\ forall t, winv (type_laws T) t -> R t (f t).
Proof.
  induction T as [|V|K V cmp OL|K Hi Lo V ko KL S Tr C TS IHS TT IHT CT|K V cmp O T IH|K V cmp O T IH]; cbn [clone_of type_laws]; intros cv f E; try discriminate E.
  - injection E as <-. eexists. split; [apply unit_sim; intros [] []; unfold rv; destruct (cv tt); auto|]. auto.
  - injection E as <-. eexists. split; [apply btree_sim|]. intros t _. induction t as [|[k v] t IH]; cbn; constructor; auto. split; auto. reflexivity.
  - destruct (clone_of TS _) as [cs|] eqn:Es; [|discriminate E]. destruct (clone_of TT cv) as [ct1|] eqn:Et; [|discriminate E].
    destruct (coll_clone CT ct1) as [cc|] eqn:Ec; [|discriminate E]. injection E as <-.
    destruct (IHS _ _ Es) as [RS [XS Hs]], (IHT _ _ Et) as [RT [XT Ht]].
    exists (tree_rel fixed ko (rv cv) S S Tr Tr C C RS (coll_rel (RT := RT) (coll_laws CT) (coll_laws CT))). split.
    + eapply tree_sim; [apply lenient_refl|exact XS|exact XT|]. apply (coll_sim (coll_laws CT) (clone_panics CT _ _ Ec) (coll_laws CT) XT (key_dec (KL_hi KL))).
    + intros [[k v] [[[k1 v1] [[s c]|]]|]] Hw; unfold clone_tree, clone_data; cbn.
      * cbn in Hw. destruct Hw as [H1 [H2 [H3 H4]]]. cbn in H1, H2, H3, H4.
        split; [split; reflexivity|]. split; [split; reflexivity|]. split; [apply Hs, H1|].
        apply (coll_clone_rel CT RT ct1 cc Ec); auto. intros h t Hin. apply Ht. eapply H4. eauto.
      * split; [split; reflexivity|]. split; [split; reflexivity|]. exact I.
      * split; [split; reflexivity|]. exact I.
  - destruct (clone_of T cv) as [f'|] eqn:Ef; [|discriminate E]. injection E as <-. destruct (IH _ _ Ef) as [R [X Hw]].
    eexists. split; [exact (box_sim (box_sim' X))|]. intros [t] Ht. apply Hw. exact Ht.
Qed.

Lemma clone_ops {K V} (cv : V -> V) (cs : list (op K V)) : Forall2 (rop (RV := rv cv)) cs (map (clone_op cv) cs).
Proof. induction cs as [|c cs IH]; cbn; constructor; auto. destruct c; cbn; unfold rv; auto. Qed.
Lemma clone_outs {K V} (cv : V -> V) (os os' : list (out K V)) : Forall2 (rout (RV := rv cv)) os os' -> os' = map (clone_out cv) os.
Proof.
  induction 1 as [|o o' os os' H _ IH]; cbn; auto. f_equal; auto. destruct o as [[[k v]|]|b], o' as [[[k' v']|]|b']; cbn in H; try contradiction; auto.
  - destruct H as [E H]. cbn in E, H. unfold rv in H. subst. auto.
  - cbn. congruence.
Qed.
Lemma clone_run {fixed K V cmp O} (T : VebType fixed K V cmp O) cv f t cs ot os : clone_of T cv = Some f -> reachable O t ->
  run O cs (Some t) = Ret (ot, os) ->
  exists ot', run O (map (clone_op cv) cs) (Some (f t)) = Ret (ot', map (clone_out cv) os) /\ (ot = None <-> ot' = None).
Proof.
  intros Ef Hr E. destruct (clone_sim T cv f Ef) as [R [X Hw]]. assert (Ht := Hw t (reachable_weak (type_laws T) t Hr)).
  destruct (sim_run X cs (map (clone_op cv) cs) (Some t) (Some (f t)) (clone_ops cv cs) Ht _ E) as [[ot' os'] [E' [H1 H2]]].
  cbn in H1, H2. apply clone_outs in H2. subst os'. exists ot'. split; auto. destruct ot, ot'; cbn in H1; try contradiction; split; congruence.
Qed.
Lemma drain_sim {K V} {RV : V -> V -> Prop} {O : VebOps K V} {R} (X : Sim RV O O R) n : forall ot ot', ropt R ot ot' ->
  rres (rprod (ropt R) (Forall2 (rp RV))) (drain (v_remove_min O) n ot) (drain (v_remove_min O) n ot').
Proof.
  induction n as [|n IH]; intros ot ot' H; cbn [drain].
  - apply rres_ret. split; [exact H|constructor].
  - destruct ot as [t|], ot' as [t'|]; cbn in H; try contradiction; [|apply rres_ret; split; [exact I|constructor]].
    eapply rres_bind; [apply (s_remove_min X), H|]. intros [a p] [a' p'] [H1 H2]. eapply rres_bind; [apply IH, H1|].
    intros [b ps] [b' ps'] [H3 H4]. apply rres_ret. split; [exact H3|]. constructor; auto.
Qed.
Lemma clone_contents {fixed K V cmp O} (T : VebType fixed K V cmp O) cv f t d : clone_of T cv = Some f -> reachable O t ->
  contents O t d -> contents O (f t) (map (on_value cv) d).
Proof.
  intros Ef Hr [n E]. destruct (clone_sim T cv f Ef) as [R [X Hw]]. assert (Ht := Hw t (reachable_weak (type_laws T) t Hr)).
  destruct (drain_sim X n (Some t) (Some (f t)) Ht _ E) as [[ot' d'] [E' [H1 H2]]]. cbn in H1, H2. destruct ot'; [contradiction|].
  exists n. rewrite E'. do 2 f_equal. clear -H2. induction H2 as [|[k v] [k' v'] l l' [H1 H2] _ IH]; cbn; auto.
  cbn in H1, H2. unfold rv in H2. subst. reflexivity.
Qed.
End AllBuilds.
