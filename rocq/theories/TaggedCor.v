(** The pairs of [Tagged] answer alike. *)
From Verif Require Import Base Ints Ops Spec Key ByteSet ByteMap Coll Boxed BTree SizedT Tree Laws CollProofs Hist Types
  HistProofs TypesProofs HistCor Fits FitsCor Iter IterSpec IterProofs Sim KSim KTreeSim KCollSim Tagged Concrete.

Lemma key_rel {K' Hi' Lo' K Hi Lo} {p : K' -> K} {ph : Hi' -> Hi} {pl : Lo' -> Lo} {ko' : KeyOps K' Hi' Lo'} {ko : KeyOps K Hi Lo} :
  KeyMap p ph pl ko' ko -> KeyRel (fun a b => p a = b) (fun a b => ph a = b) (fun a b => pl a = b) ko' ko.
Proof.
  intros M. constructor.
  - intros a a' b b' <- <-. apply (km_cmp M).
  - intros k k' <-. rewrite (km_val M). split; reflexivity.
  - intros k k' <-. rewrite (km_ref M). split; reflexivity.
  - intros h h' l l' <- <-. apply (km_join M).
Qed.
Lemma coll_tag {B : Build} {Lo' Lo V} {Tr' : VebOps Lo' V} {Tr : VebOps Lo V} {pl : Lo' -> Lo} {RT : vt Tr' -> vt Tr -> Prop}
  (XT : KSim (fun a b => pl a = b) Tr' Tr RT) {Hi' Hi ph C' C} (CT : TagColl Tr' Tr Hi' Hi ph C' C) :
  exists RC, KCSim (fun a b => ph a = b) (fun a b => pl a = b) RT C' C RC.
Proof.
  induction CT as [Hi' Hi ph ix' ix IL Hcard Hidx|Hi' Hi ph e' e Heq He| |Hi' Hi ph C' C CT [RC IH]].
  - eexists. apply (karray XT Hcard). intros h h' <-. apply Hidx.
  - eexists. apply (khash XT). intros a a' b b' <- <-. apply He.
  - eexists. exact (kbytes XT).
  - eexists. exact (kboxc IH).
Qed.
Lemma tag_sim {B : Build} {fixed K' V K p cmp O' O} (T : Tagged fixed K' V K p cmp O' O) : exists R, KSim (fun a b => p a = b) O' O R.
Proof.
  induction T as [K V cmp O T|K' V K p cmp' cmp OL Hc|K' Hi' Lo' V K Hi Lo p ph pl ko' ko KL KM S' S Tr' Tr C' C TS [RS IHS] TT [RT IHT] CT
    |K' V K p cmp O' O T [R IH]|K' V K p cmp O' O T [R IH]].
  - exists eq. exact (ksim_refl O).
  - eexists. apply kbtree. intros a a' b b' <- <-. apply Hc.
  - destruct (coll_tag IHT CT) as [RC XC]. eexists. exact (ktree_sim fixed (key_rel KM) IHS IHT XC).
  - eexists. exact (kbox_sim IH).
  - eexists. exact (ksized_sim IH).
Qed.

Lemma kop_key {K' K V} (p : K' -> K) (cs : list (op K' V)) : Forall2 (kop (RK := fun a b => p a = b)) cs (map (op_key p) cs).
Proof. induction cs as [|c cs IH]; cbn [map]; constructor; auto. destruct c; cbn; auto. Qed.
Lemma kp_map {K' K V} (p : K' -> K) (o : option (K' * V)) o' : ropt (kp (fun a b => p a = b)) o o' -> omap (fun kv => (p (fst kv), snd kv)) o = o'.
Proof. destruct o as [[k v]|], o' as [[k' v']|]; cbn; try tauto. intros [H1 H2]. cbn in H1, H2. subst. reflexivity. Qed.
Lemma kout_key {K' K V} (p : K' -> K) (os : list (out K' V)) os' : Forall2 (kout (RK := fun a b => p a = b)) os os' -> map (out_key p) os = os'.
Proof.
  intros H. induction H as [|o o' os os' Ho H IH]; cbn [map]; auto. rewrite IH. f_equal.
  destruct o, o'; cbn in Ho; try contradiction; cbn [out_key]; [rewrite (kp_map p _ _ Ho)|rewrite Ho]; auto.
Qed.

(** C46 *)
Lemma tag_run {B : Build} {fixed K' V K p cmp O' O} (T : Tagged fixed K' V K p cmp O' O) cs :
  rmap (fun r => (fst r, map (out_key p) (snd r))) (seen (run O' cs None)) = seen (run O (map (op_key p) cs) None).
Proof.
  destruct (tag_sim T) as [R X]. pose proof (ksim_run X cs (map (op_key p) cs) None None (kop_key p cs) I) as H.
  destruct (run O' cs None) as [[ot' os']|], (run O (map (op_key p) cs) None) as [[ot os]|]; cbn in H; try contradiction; auto.
  destruct H as [H1 H2]. cbn in H1, H2. unfold seen, rmap; cbn [bind fst snd]. rewrite (is_none_rel _ _ _ H1), (kout_key p _ _ H2). reflexivity.
Qed.
Lemma tag_answers {B : Build} {fixed K' V K p cmp O' O} (T : Tagged fixed K' V K p cmp O' O) cs ot os :
  run O (map (op_key p) cs) None = Ret (ot, os) ->
  exists ot' os', run O' cs None = Ret (ot', os') /\ map (out_key p) os' = os /\ (ot' = None <-> ot = None).
Proof.
  intros E. pose proof (tag_run T cs) as H. rewrite E in H. destruct (run O' cs None) as [[ot' os']|] eqn:E'; [|discriminate H].
  unfold seen, rmap in H; cbn [bind fst snd] in H. injection H as H1 H2. exists ot', os'. split; auto. split; auto.
  destruct ot, ot'; cbn in H1; try discriminate H1; split; auto; discriminate.
Qed.
Lemma tag_no_panic {B : Build} {fixed K' V K p cmp O' O} (T : Tagged fixed K' V K p cmp O' O) cs :
  (N.of_nat (length cs) <= usize_max)%N -> run O' cs None <> Panic.
Proof.
  intros Hl. assert (H : run O (map (op_key p) cs) None <> Panic).
  { apply (no_panic_run (type_laws (lawful T))). rewrite map_length. exact Hl. }
  destruct (run O (map (op_key p) cs) None) as [[ot os]|] eqn:E; [|congruence].
  destruct (tag_answers T cs ot os E) as [ot' [os' [E' _]]]. congruence.
Qed.
Lemma tag_sorted_map {B : Build} {fixed K' V K p cmp O' O} (T : Tagged fixed K' V K p cmp O' O) cs :
  admissible cmp (adm_fits (lawful T)) (map (op_key p) cs) [] ->
  exists ot os, run O' cs None = Ret (ot, os) /\ map (out_key p) os = snd (sp_run cmp (map (op_key p) cs) []) /\
    (ot = None <-> fst (sp_run cmp (map (op_key p) cs) []) = []).
Proof.
  intros H. destruct (sorted_map (type_ord (lawful T)) (type_laws (lawful T)) (covered_fits (lawful T)) _ H) as [ot [E Hn]].
  destruct (tag_answers T cs _ _ E) as [ot' [os' [H1 [H2 H3]]]]. exists ot', os'. split; auto. split; auto. tauto.
Qed.
Lemma tag_fixed_sorted_map {B : Build} {K' V K p cmp O' O} (T : Tagged true K' V K p cmp O' O) cs :
  admissible cmp adm_any (map (op_key p) cs) [] ->
  exists ot os, run O' cs None = Ret (ot, os) /\ map (out_key p) os = snd (sp_run cmp (map (op_key p) cs) []) /\
    (ot = None <-> fst (sp_run cmp (map (op_key p) cs) []) = []).
Proof.
  intros H. destruct (sorted_map (type_ord (lawful T)) (type_laws (lawful T)) (covered_fixed (lawful T)) _ H) as [ot [E Hn]].
  destruct (tag_answers T cs _ _ E) as [ot' [os' [H1 [H2 H3]]]]. exists ot', os'. split; auto. split; auto. tauto.
Qed.

(** iterators *)
Section KIter.
  Context {Bd : Build} {K' K V : Type} (p : K' -> K) {O' : VebOps K' V} {O : VebOps K V} {R : vt O' -> vt O -> Prop}
          (X : KSim (fun a b => p a = b) O' O R) {e' : K' -> K' -> bool} {e : K -> K -> bool} (He : forall a b, e' a b = e (p a) (p b)).
  Notation kq := (kp (V := V) (fun a b => p a = b)).
  Definition it_same (r : res (Iter K' * option (K' * V))) (r' : res (Iter K * option (K * V))) : Prop :=
    both (rprod (fun i i' => it_key p i = i') (ropt kq)) r r'.
  Lemma kemit n d q q' : kq q q' -> it_same (emit (IT None n) d q) (emit (IT None n) (itd_key p d) q').
  Proof. intros H. unfold emit, it_same. eapply (both_bind eq); [apply both_refl; auto|]. intros m m' <-. apply both_ret. split; [reflexivity|exact H]. Qed.
  Lemma kstop n : it_same (stop (IT None n)) (stop (IT None n)).
  Proof. apply both_ret. split; [reflexivity|exact I]. Qed.
  Lemma kcall d t t' it : R t t' -> it_same (it_call O' e' t d it) (it_call O e t' d (it_key p it)).
  Proof.
    intros H. destruct it as [[[|k|k|k1 k2]|] n]; destruct d; unfold it_call, it_next, it_next_back; cbn [it_key it_data it_emitted omap itd_key].
    all: try (apply kstop).
    all: try (eapply both_bind; [first [apply (q_min X), H|apply (q_max X), H]|]; intros [a v] [a' v'] [H1 H2]; cbn in H1, H2; subst a' v'; cbn [fst];
      rewrite ?He; try (match goal with |- both _ (if ?b then _ else _) _ => destruct b; [apply kstop|] end); apply (kemit n); split; reflexivity).
    all: eapply both_bind; [first [apply (q_succ X); [exact H|reflexivity]|apply (q_pred X); [exact H|reflexivity]]|];
      intros [[a v]|] [[a' v']|] H1; cbn in H1; try contradiction; try apply kstop;
      try (destruct H1 as [H1 H2]; cbn in H1, H2; subst a' v'; cbn [fst]; rewrite ?He;
        try (match goal with |- both _ (if ?b then _ else _) _ => destruct b; [apply kstop|] end); apply (kemit n); split; reflexivity).
    all: eapply (both_bind eq); [apply both_refl; auto|]; intros _ _ _; apply kstop.
  Qed.
  Lemma kit_run dirs t t' : R t t' -> forall it,
    both (rprod (fun i i' => it_key p i = i') (Forall2 (ropt kq))) (it_run O' e' t dirs it) (it_run O e t' dirs (it_key p it)).
  Proof.
    intros H. induction dirs as [|d ds IH]; intros it; cbn [it_run].
    - apply both_ret. split; [reflexivity|constructor].
    - eapply both_bind; [apply (kcall d t t' it H)|]. intros [i o] [i' o'] [H1 H2]. cbn in H1, H2. subst i'.
      eapply both_bind; [apply IH|]. intros [i2 os] [i2' os'] [H3 H4]. cbn in H3, H4. apply both_ret. split; [exact H3|]. constructor; auto.
  Qed.
  Lemma kit_hint t t' it : R t t' -> it_size_hint O' t it = it_size_hint O t' (it_key p it).
  Proof.
    intros H. unfold it_size_hint. destruct it as [[d|] n]; cbn [it_key it_data it_emitted omap]; auto.
    pose proof (q_hint X t t' H) as Hh. destruct (v_len_hint O' t) as [h|], (v_len_hint O t') as [h'|]; cbn in Hh; try contradiction; [subst h'|]; reflexivity.
  Qed.
End KIter.
Lemma kp_maps {K' K V} (p : K' -> K) (os : list (option (K' * V))) os' : Forall2 (ropt (kp (fun a b => p a = b))) os os' ->
  map (omap (fun kv => (p (fst kv), snd kv))) os = os'.
Proof. intros H. induction H as [|o o' os os' Ho H IH]; cbn [map]; auto. rewrite IH, (kp_map p _ _ Ho). reflexivity. Qed.
(** the trees of a history and of its image, iterated *)
Lemma tag_iter {B : Build} {fixed K' V K p cmp O' O} (T : Tagged fixed K' V K p cmp O' O) (e' : K' -> K' -> bool)
  (He : forall a b, e' a b = eqb cmp (p a) (p b)) cs t os dirs : run O' cs None = Ret (Some t, os) ->
  exists t' os', run O (map (op_key p) cs) None = Ret (Some t', os') /\
    rmap (fun r => (it_key p (fst r), map (omap (fun kv => (p (fst kv), snd kv))) (snd r))) (it_run O' e' t dirs it_new) =
    it_run O (eqb cmp) t' dirs it_new /\
    forall it ps, it_run O' e' t dirs it_new = Ret (it, ps) -> it_size_hint O' t it = it_size_hint O t' (it_key p it).
Proof.
  intros E. destruct (tag_sim T) as [R X]. pose proof (ksim_run X cs (map (op_key p) cs) None None (kop_key p cs) I) as H. rewrite E in H.
  destruct (run O (map (op_key p) cs) None) as [[ot' os']|]; cbn in H; try contradiction. destruct H as [H _]. cbn in H.
  destruct ot' as [t'|]; [|contradiction H]. exists t', os'. split; [reflexivity|]. split.
  - pose proof (kit_run p X He dirs t t' H it_new) as H1. change (it_key p it_new) with (@it_new K) in H1.
    destruct (it_run O' e' t dirs it_new) as [[i ps]|], (it_run O (eqb cmp) t' dirs it_new) as [[i' ps']|]; cbn in H1; try contradiction; auto.
    destruct H1 as [H1 H2]. cbn in H1, H2. unfold rmap; cbn [bind fst snd]. rewrite H1, (kp_maps p _ _ H2). reflexivity.
  - intros it ps _. apply (kit_hint p X); auto.
Qed.

Lemma tag_deque {B : Build} {fixed K' V K p cmp O' O} (T : Tagged fixed K' V K p cmp O' O) (e' : K' -> K' -> bool)
  (He : forall a b, e' a b = eqb cmp (p a) (p b)) cs t os dirs : admissible cmp (adm_fits (lawful T)) (map (op_key p) cs) [] ->
  run O' cs None = Ret (Some t, os) ->
  exists it ps, it_run O' e' t dirs it_new = Ret (it, ps) /\
    map (omap (fun kv => (p (fst kv), snd kv))) ps = fst (sp_pops dirs (fst (sp_run cmp (map (op_key p) cs) []))).
Proof.
  intros Ha E. destruct (tag_iter T e' He cs t os dirs E) as [t' [os' [E' [E1 _]]]].
  destruct (iter_deque (type_ord (lawful T)) (type_laws (lawful T)) (covered_fits (lawful T)) t' (fst (sp_run cmp (map (op_key p) cs) [])) dirs) as [it E2].
  { exists (map (op_key p) cs), os'. auto. }
  rewrite E2 in E1. destruct (it_run O' e' t dirs it_new) as [[i ps]|]; [|discriminate E1]. unfold rmap in E1; cbn [bind fst snd] in E1.
  injection E1 as _ E1. exists i, ps. auto.
Qed.

(** the arrays *)
Section Arrays.
  Context {T' T : Type} (f : T' -> T) (cmp' : T' -> T' -> comparison) (cmp : T -> T -> comparison) (Hc : forall a b, cmp' a b = cmp (f a) (f b)).
  Lemma lex_map a : forall b, lex cmp' a b = lex cmp (map f a) (map f b).
  Proof. induction a as [|x a IH]; intros [|y b]; cbn; auto. rewrite Hc, IH. reflexivity. Qed.
  Ltac arrays := repeat match goal with x : arr2 _ |- _ => destruct x | x : arr3 _ |- _ => destruct x | x : arr4 _ |- _ => destruct x
    | x : arr5 _ |- _ => destruct x | x : arr6 _ |- _ => destruct x | x : arr7 _ |- _ => destruct x | x : arr8 _ |- _ => destruct x
    | x : arr16 _ |- _ => destruct x end.
  Ltac key := constructor; intros; arrays; try reflexivity; apply lex_map.
  Lemma arr2_map : KeyMap (m2 f) f f (arr2_key cmp') (arr2_key cmp). Proof. key. Qed.
  Lemma arr3_map : KeyMap (m3 f) f (m2 f) (arr3_key cmp') (arr3_key cmp). Proof. key. Qed.
  Lemma arr4_map : KeyMap (m4 f) (m2 f) (m2 f) (arr4_key cmp') (arr4_key cmp). Proof. key. Qed.
  Lemma arr5_map : KeyMap (m5 f) (m2 f) (m3 f) (arr5_key cmp') (arr5_key cmp). Proof. key. Qed.
  Lemma arr6_map : KeyMap (m6 f) (m3 f) (m3 f) (arr6_key cmp') (arr6_key cmp). Proof. key. Qed.
  Lemma arr7_map : KeyMap (m7 f) (m3 f) (m4 f) (arr7_key cmp') (arr7_key cmp). Proof. key. Qed.
  Lemma arr8_map : KeyMap (m8 f) (m4 f) (m4 f) (arr8_key cmp') (arr8_key cmp). Proof. key. Qed.
  Lemma arr16_map : KeyMap (m16 f) (m8 f) (m8 f) (arr16_key cmp') (arr16_key cmp). Proof. key. Qed.
  Lemma array_maps : KeyMap (m2 f) f f (arr2_key cmp') (arr2_key cmp) /\ KeyMap (m3 f) f (m2 f) (arr3_key cmp') (arr3_key cmp) /\
    KeyMap (m4 f) (m2 f) (m2 f) (arr4_key cmp') (arr4_key cmp) /\ KeyMap (m5 f) (m2 f) (m3 f) (arr5_key cmp') (arr5_key cmp) /\
    KeyMap (m6 f) (m3 f) (m3 f) (arr6_key cmp') (arr6_key cmp) /\ KeyMap (m7 f) (m3 f) (m4 f) (arr7_key cmp') (arr7_key cmp) /\
    KeyMap (m8 f) (m4 f) (m4 f) (arr8_key cmp') (arr8_key cmp) /\ KeyMap (m16 f) (m8 f) (m8 f) (arr16_key cmp') (arr16_key cmp).
  Proof. exact (conj arr2_map (conj arr3_map (conj arr4_map (conj arr5_map (conj arr6_map (conj arr7_map (conj arr8_map arr16_map))))))). Qed.
End Arrays.

(** for the examples *)
Lemma n_cmp_laws : OrdLaws N.compare.
Proof.
  split.
  - exact N.compare_eq_iff.
  - exact N.compare_antisym.
  - intros a b c. rewrite !N.compare_lt_iff. apply N.lt_trans.
Qed.
Definition arr_eq (a b : arr2 N) : bool := let '(A2 x y) := a in let '(A2 z w) := b in N.eqb x z && N.eqb y w.
Lemma arr_eq_ok : forall a b, arr_eq a b = true <-> a = b.
Proof.
  intros [x y] [z w]. unfold arr_eq. rewrite andb_true_iff, !N.eqb_eq. split; [intros [-> ->]; reflexivity|intros E; injection E; auto].
Qed.

Lemma some_test {A} (P : A -> bool) (o : option A) : match o with Some d => P d | None => false end = true -> exists d, o = Some d /\ P d = true.
Proof. destruct o as [d|]; [intros H; exists d; auto|discriminate]. Qed.

(** C47 *)
Section Replace.
  Context {K V : Type} (cmp : K -> K -> comparison).
  Lemma btree_replace (t : vt (BTree_ops V cmp)) k v k0 v0 : v_find (BTree_ops V cmp) t k = Ret (Some (k0, v0)) ->
    exists t', v_insert (BTree_ops V cmp) t k v = Ret (t', Some (k, v0)) /\ map fst t' = map fst t.
  Proof.
    cbn. unfold bt_find, bt_insert. intros E. injection E as E. rewrite E. eexists. split; [reflexivity|].
    clear E. induction t as [|[a w] t IH]; cbn [map_put map fst]; auto. destruct (cmp k0 a); cbn [map fst]; rewrite ?IH; auto.
  Qed.
End Replace.
Lemma tree_replace_min {B : Build} {fixed K Hi Lo V} {ko : KeyOps K Hi Lo} {S Tr} {C : CollOps Hi Lo V Tr} (t : vt (Tree_ops fixed ko S Tr C)) k v :
  k_cmp ko k (fst (t_min t)) = Eq ->
  exists t', v_insert (Tree_ops fixed ko S Tr C) t k v = Ret (t', Some (t_min t)) /\ t_min t' = (k, v) /\ t_data t' = t_data t.
Proof. intros E. cbn. unfold tr_insert. rewrite E. eexists. split; [reflexivity|]. split; reflexivity. Qed.
Lemma tree_replace_max {B : Build} {fixed K Hi Lo V} {ko : KeyOps K Hi Lo} {S Tr} {C : CollOps Hi Lo V Tr} (t : vt (Tree_ops fixed ko S Tr C)) d k v :
  t_data t = Some d -> k_cmp ko k (fst (t_min t)) = Gt -> k_cmp ko k (fst (d_max d)) = Eq ->
  exists t', v_insert (Tree_ops fixed ko S Tr C) t k v = Ret (t', Some (d_max d)) /\
    t_min t' = t_min t /\ t_data t' = Some (TD (k, v) (d_children d)).
Proof. intros Ed E1 E2. cbn. unfold tr_insert. rewrite E1, Ed, E2. eexists. split; [reflexivity|]. split; reflexivity. Qed.
