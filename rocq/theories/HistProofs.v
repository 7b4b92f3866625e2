(** The laws carried along histories. *)
From Verif Require Import Base Spec Ops Boxed Lists Laws Hist.

Section Refine.
  Context {B : Build} {K V : Type} {cmp : K -> K -> comparison} (OL : OrdLaws cmp) {O : VebOps K V} (L : VebLaws cmp O).
  Notation T := (vt O).
  Notation asc := (@ascending K V cmp).
  Implicit Types (t : T) (l : list (K * V)) (ot : option T).

  (** *** Refinement of the sorted list *)
  Definition repr t l : Prop := winv L t /\ ord L t /\ asc l /\ Permutation l (ents L t).
  Definition reprO ot l : Prop := match ot with Some t => repr t l | None => l = [] end.

  Lemma repr_in t l p : repr t l -> In p (ents L t) <-> In p l.
  Proof. intros [_ [_ [_ H]]]. split; apply Permutation_in; auto using Permutation_sym. Qed.
  Lemma repr_keys t l k : repr t l -> In k (keys (ents L t)) <-> In k (keys l).
  Proof. intros [_ [_ [_ H]]]. apply keys_perm in H. split; apply Permutation_in; auto using Permutation_sym. Qed.
  Lemma repr_ne t l : repr t l -> l <> [].
  Proof. intros [H [_ [_ HP]]] ->. apply Permutation_nil in HP. apply (L_nonempty L t); auto. Qed.
  Lemma repr_len t l : repr t l -> length (ents L t) = length l.
  Proof. intros [_ [_ [_ H]]]. symmetry. apply Permutation_length. auto. Qed.
  Lemma repr_nodup t l : repr t l -> NoDup (keys l).
  Proof. intros [_ [_ [H _]]]. apply (asc_nodup OL). auto. Qed.
  Lemma repr_from k v : repr (v_from_monad O k v) [(k, v)].
  Proof.
    destruct (L_from_monad L k v) as [H1 [H2 H3]]. split; auto. split; auto. rewrite H3. split; auto.
    apply asc_cons. split; [apply asc_nil|intros q []].
  Qed.
  Lemma repr_is_monad t l : repr t l -> v_is_monad O t = Ret (length l =? 1).
  Proof. intros H. rewrite <- (repr_len t l H). apply L_is_monad. apply H. Qed.
  Lemma repr_min t l : repr t l -> exists p, v_min_val O t = Ret p /\ sp_min l = Some p.
  Proof.
    intros H. destruct (L_min L t (proj1 H)) as [p [E [H1 H2]]]. exists p. split; auto. apply (sp_min_spec OL).
    - apply H.
    - apply (repr_in t l p H). auto.
    - intros q Hq. apply H2; [apply H|]. apply (repr_in t l q H). auto.
  Qed.
  Lemma repr_max t l : repr t l -> exists p, v_max_val O t = Ret p /\ sp_max l = Some p.
  Proof.
    intros H. destruct (L_max L t (proj1 H)) as [p [E [H1 H2]]]. exists p. split; auto. apply (sp_max_spec OL).
    - apply H.
    - apply (repr_in t l p H). auto.
    - intros q Hq. apply H2; [apply H|]. apply (repr_in t l q H). auto.
  Qed.
  Lemma repr_find t l k : repr t l -> v_find O t k = Ret (sp_find cmp k l).
  Proof.
    intros H. destruct (L_find L t k (proj1 H)) as [o [E H1]]. rewrite E. f_equal. symmetry. destruct o as [[k' v]|].
    - destruct H1 as [H1 H2]. cbn in H2. subst k'. apply (sp_find_some OL); [eapply repr_nodup; eauto|].
      apply (repr_in t l _ H). auto.
    - apply (sp_find_none OL). rewrite <- (repr_keys t l k H). apply H1. apply H.
  Qed.
  Lemma repr_pred t l k : repr t l -> v_predecessor O t k = Ret (sp_pred cmp k l).
  Proof.
    intros H. destruct (L_pred L t k (proj1 H)) as [o [E H1]]. rewrite E. f_equal. symmetry. destruct o as [p|].
    - destruct H1 as [H1 H2]. destruct (H2 (proj1 (proj2 H))) as [H3 H4]. apply (sp_pred_spec OL); auto; try apply H.
      + apply (repr_in t l _ H). auto.
      + intros q Hq. apply H4. apply (repr_in t l _ H). auto.
    - apply (sp_pred_none). intros q Hq. apply H1; [apply H|]. apply (repr_in t l _ H). auto.
  Qed.
  Lemma repr_succ t l k : repr t l -> v_successor O t k = Ret (sp_succ cmp k l).
  Proof.
    intros H. destruct (L_succ L t k (proj1 H)) as [o [E H1]]. rewrite E. f_equal. symmetry. destruct o as [p|].
    - destruct H1 as [H1 H2]. destruct (H2 (proj1 (proj2 H))) as [H3 H4]. apply (sp_succ_spec OL); auto; try apply H.
      + apply (repr_in t l _ H). auto.
      + intros q Hq. apply H4. apply (repr_in t l _ H). auto.
    - apply (sp_succ_none). intros q Hq. apply H1; [apply H|]. apply (repr_in t l _ H). auto.
  Qed.
  Lemma repr_into_monad t l : repr t l ->
    v_into_monad O t = Ret (match l with [p] => Ok p | _ => Err t end).
  Proof.
    intros H. assert (Hl := repr_len t l H). destruct (L_into_monad L t (proj1 H)) as [[p [E H1]]|[E H1]]; rewrite E.
    - destruct H as [_ [_ [_ HP]]]. rewrite H1 in HP. apply Permutation_sym, Permutation_length_1_inv in HP. subst. auto.
    - rewrite Hl in H1. destruct l as [|p [|q l]]; auto. elim H1. auto.
  Qed.

  (** taking out a pair *)
  Lemma repr_taken t l p ot : repr t l -> taken (winv L) (ord L) (ents L) t p ot ->
    reprO ot (sp_remove cmp (fst p) l) /\ sp_find cmp (fst p) l = Some p.
  Proof.
    intros H Ht. assert (Hn := repr_nodup t l H). destruct H as [Hw [Ho [Ha HP]]].
    assert (HP' : exists rest, Permutation l (p :: rest)).
    { destruct ot as [t'|]; cbn in Ht.
      - exists (ents L t'). rewrite HP. apply Ht.
      - exists []. rewrite HP, Ht. auto. }
    assert (Hf : sp_find cmp (fst p) l = Some p).
    { destruct HP' as [rest HP']. destruct p as [k v]. apply (sp_find_some OL); auto.
      apply Permutation_sym in HP'. apply (Permutation_in _ HP'). left. auto. }
    split; auto. destruct ot as [t'|]; cbn in *.
    - destruct Ht as [H1 [H2 H3]]. split; auto. split; auto. split; [apply (sp_remove_asc OL); auto|].
      apply (sp_remove_perm OL); auto. rewrite HP. auto.
    - assert (HP2 : Permutation l [p]) by (rewrite HP, Ht; auto).
      apply Permutation_nil. apply Permutation_sym. apply (sp_remove_perm OL); auto.
  Qed.
  Lemma sp_remove_min p l : asc (p :: l) -> sp_remove cmp (fst p) (p :: l) = l.
  Proof.
    intros Ha. assert (Hn := asc_nodup OL _ Ha). apply (asc_perm_eq OL).
    - apply (sp_remove_asc OL). auto.
    - apply asc_cons in Ha. apply Ha.
    - apply (sp_remove_perm OL); auto.
  Qed.
  Lemma sp_remove_max p l : asc (l ++ [p]) -> sp_remove cmp (fst p) (l ++ [p]) = l.
  Proof.
    intros Ha. assert (Hn := asc_nodup OL _ Ha). apply (asc_perm_eq OL).
    - apply (sp_remove_asc OL). auto.
    - apply asc_app in Ha. apply Ha.
    - apply (sp_remove_perm OL); auto. apply Permutation_sym, Permutation_cons_append.
  Qed.
  Lemma repr_remove t l k : repr t l ->
    match sp_find cmp k l with
    | Some p => exists ot, v_remove O t k = Ret (Ok (ot, p)) /\ reprO ot (sp_remove cmp k l)
    | None => v_remove O t k = Ret (Err t) /\ sp_remove cmp k l = l
    end.
  Proof.
    intros H. destruct (L_remove L t k (proj1 H)) as [[ot [p [E [H1 H2]]]]|[E H1]].
    - destruct (repr_taken t l p ot H H2) as [H3 H4]. rewrite H1 in *. rewrite H4. eauto.
    - rewrite (repr_keys t l k H) in H1. rewrite (sp_find_none OL) by auto. split; auto.
      apply (sp_remove_fresh OL); auto. apply H.
  Qed.
  Lemma repr_remove_min t l : repr t l ->
    exists ot p, v_remove_min O t = Ret (ot, p) /\ sp_min l = Some p /\ reprO ot (tl l).
  Proof.
    intros H. destruct (L_remove_min L t (proj1 H)) as [ot [p [E [H1 H2]]]].
    destruct (repr_min t l H) as [p' [E' Hp']]. assert (p' = p) by congruence. subst p'.
    exists ot, p. split; auto. split; auto. destruct (repr_taken t l p ot H H2) as [H3 _].
    destruct l as [|q l]; [discriminate|]. injection Hp' as ->. rewrite sp_remove_min in H3; auto. apply H.
  Qed.
  Lemma removelast_app1 {A} (l : list A) a : removelast (l ++ [a]) = l.
  Proof. rewrite removelast_app by discriminate. cbn. apply app_nil_r. Qed.
  Lemma repr_remove_max t l : repr t l ->
    exists ot p, v_remove_max O t = Ret (ot, p) /\ sp_max l = Some p /\ reprO ot (removelast l).
  Proof.
    intros H. destruct (L_remove_max L t (proj1 H)) as [ot [p [E [H1 H2]]]].
    destruct (repr_max t l H) as [p' [E' Hp']]. assert (p' = p) by congruence. subst p'.
    exists ot, p. split; auto. split; auto. destruct (repr_taken t l p ot H H2) as [H3 _].
    apply last_error_in in Hp'. destruct Hp' as [l' ->]. rewrite removelast_app1. rewrite sp_remove_max in H3; auto. apply H.
  Qed.

  (** writing *)
  Lemma repr_lens t l p put w : repr t l -> lens_ok (winv L) (ord L) (ents L) t p put ->
    repr (put w) (sp_write cmp (fst p) w l).
  Proof.
    intros H [rest [H1 H2]]. assert (Hn := repr_nodup t l H). destruct H as [Hw [Ho [Ha HP]]].
    destruct (H2 w) as [H3 [H4 H5]]. split; auto. split; auto. split; [apply sp_write_asc; auto|].
    rewrite H4. apply (sp_write_perm OL); auto. rewrite HP. auto.
  Qed.
  Lemma repr_mut t l m i o w : repr t l -> mut_ok (winv L) (ord L) (ents L) t (m t) i -> i = Ret o ->
    exists ot, write O m w t = Ret (ot, snd (sp_mut cmp o w l)) /\ reprO ot (fst (sp_mut cmp o w l)).
  Proof.
    intros H [o' [E [E1 H1]]] Ei. unfold write. rewrite E. cbn [bind]. rewrite Ei in E1. injection E1 as ->.
    destruct o' as [[p put]|]; cbn.
    - eexists. split; [reflexivity|]. apply repr_lens with t; auto.
    - eexists. split; [reflexivity|]. exact H.
  Qed.
  Lemma repr_mut1 t l m i p w : repr t l -> mut1_ok (winv L) (ord L) (ents L) t (m t) i -> i = Ret p ->
    exists ot, write1 O m w t = Ret (ot, snd (sp_mut cmp (Some p) w l)) /\ reprO ot (fst (sp_mut cmp (Some p) w l)).
  Proof.
    intros H [p' [put [E [E1 H1]]]] Ei. unfold write1. rewrite E. cbn [bind]. assert (p' = p) by congruence. subst p'. cbn.
    eexists. split; [reflexivity|]. apply repr_lens with t; auto.
  Qed.

  (** inserting *)
  Lemma repr_insert t l k v : repr t l -> (N.of_nat (length l) < usize_max)%N -> safe L t k ->
    exists t', v_insert O t k v = Ret (t', sp_find cmp k l) /\ repr t' (sp_insert cmp k v l).
  Proof.
    intros H Hl Hs. assert (Hn := repr_nodup t l H). destruct (L_insert L t k v (proj1 H)) as [t' [r [E [H1 [H2 [H3 H4]]]]]].
    { rewrite (repr_len t l H). auto. }
    destruct H as [Hw [Ho [Ha HP]]]. assert (Hn' : NoDup (keys (ents L t'))) by (apply L_nodup; auto).
    assert (HP' := keys_perm _ _ HP).
    exists t'. rewrite E. destruct r as [[k' old]|].
    - destruct H2 as [rest [H5 H6]].
      assert (k' = k) as ->.
      { destruct (key_dec OL k' k) as [Ek|Ek]; auto. exfalso.
        assert (Hk : In k (keys rest) -> False).
        { intros Hin. apply keys_perm in H6. apply (NoDup_perm _ _ H6) in Hn'. cbn in Hn'.
          apply NoDup_cons_iff in Hn'. tauto. }
        assert (Hin : ~ In k (keys (ents L t))).
        { apply keys_perm in H5. intros Hin. apply (Permutation_in _ H5) in Hin. cbn in Hin. tauto. }
        assert (Er : Some (k', old) = None) by (apply H3; [eapply NoDup_perm; eauto|exact Hin]). discriminate Er. }
      assert (HPr : Permutation l ((k, old) :: rest)) by (rewrite HP; auto).
      rewrite (sp_find_some OL k old l); auto.
      + split; auto. split; auto. split; auto. split; [apply (sp_insert_asc OL); auto|].
        rewrite H6. apply (sp_insert_perm_old OL (k, old)); auto.
      + apply Permutation_sym in HPr. apply (Permutation_in _ HPr). left. auto.
    - assert (Hin : ~ In k (keys l)).
      { intros Hin. apply keys_perm in H2. apply (NoDup_perm _ _ H2) in Hn'. cbn in Hn'. apply NoDup_cons_iff in Hn'.
        apply (proj1 Hn'). apply (Permutation_in _ HP'). auto. }
      rewrite (sp_find_none OL) by auto. split; auto. split; auto. split; auto. split; [apply (sp_insert_asc OL); auto|].
      rewrite H2, <- HP. apply (sp_insert_perm_new OL); auto.
  Qed.

  (** *** Steps and histories *)
  Definition covered (adm : list (K * V) -> K -> Prop) : Prop :=
    forall t l k, repr t l -> adm l k -> safe L t k.

  Lemma step_refines adm c ot l : covered adm -> reprO ot l ->
    match c with Insert k _ => adm l k /\ (N.of_nat (length l) < usize_max)%N | _ => True end ->
    exists ot', step O c ot = Ret (ot', snd (sp_step cmp c l)) /\ reprO ot' (fst (sp_step cmp c l)).
  Proof.
    intros Hcov H Hadm. destruct ot as [t|]; cbn in H.
    2:{ subst l. destruct c; try (eexists; split; [reflexivity|]; reflexivity).
        cbn. eexists. split; [reflexivity|]. apply repr_from. }
    destruct (repr_min t l H) as [mn [Emn Smn]]. destruct (repr_max t l H) as [mx [Emx Smx]].
    assert (Hw := proj1 H).
    destruct c; cbn [step sp_step]; unfold query, query1.
    - destruct Hadm as [Hadm Hl]. destruct (repr_insert t l k v H Hl (Hcov _ _ _ H Hadm)) as [t' [E H']].
      rewrite E. cbn. eauto.
    - assert (Hr := repr_remove t l k H). cbn. destruct (sp_find cmp k l) as [p|].
      + destruct Hr as [ot [E H']]. rewrite E. cbn. eauto.
      + destruct Hr as [E ->]. rewrite E. cbn. exists (Some t). auto.
    - destruct (repr_remove_min t l H) as [ot [p [E [Ep H']]]]. rewrite E, Ep. cbn. eauto.
    - destruct (repr_remove_max t l H) as [ot [p [E [Ep H']]]]. rewrite E, Ep. cbn. eauto.
    - rewrite (repr_into_monad t l H). cbn. destruct l as [|p [|q l]]; cbn.
      + exists (Some t). auto.
      + exists None. split; reflexivity.
      + exists (Some t). auto.
    - rewrite (repr_is_monad t l H). cbn. exists (Some t). auto.
    - rewrite Emn, Smn. cbn. exists (Some t). auto.
    - rewrite Emx, Smx. cbn. exists (Some t). auto.
    - rewrite (repr_find t l k H). cbn. exists (Some t). auto.
    - rewrite (repr_pred t l k H). cbn. exists (Some t). auto.
    - rewrite (repr_succ t l k H). cbn. exists (Some t). auto.
    - rewrite Smn. exact (repr_mut1 t l (v_min_val_mut O) _ _ w H (L_min_mut L t Hw) Emn).
    - rewrite Smx. exact (repr_mut1 t l (v_max_val_mut O) _ _ w H (L_max_mut L t Hw) Emx).
    - exact (repr_mut t l (fun t => v_find_mut O t k) _ _ w H (L_find_mut L t k Hw) (repr_find t l k H)).
    - exact (repr_mut t l (fun t => v_predecessor_mut O t k) _ _ w H (L_pred_mut L t k Hw) (repr_pred t l k H)).
    - exact (repr_mut t l (fun t => v_successor_mut O t k) _ _ w H (L_succ_mut L t k Hw) (repr_succ t l k H)).
  Qed.

  Lemma run_refines adm cs : covered adm -> forall ot l, reprO ot l -> admissible cmp adm cs l ->
    exists ot', run O cs ot = Ret (ot', snd (sp_run cmp cs l)) /\ reprO ot' (fst (sp_run cmp cs l)).
  Proof.
    intros Hcov. induction cs as [|c cs IH]; intros ot l H Hadm; cbn.
    - exists ot. auto.
    - destruct Hadm as [Ha1 Ha2]. destruct (step_refines adm c ot l Hcov H Ha1) as [ot1 [E1 H1]].
      rewrite E1. cbn [bind]. rewrite (surjective_pairing (sp_step cmp c l)).
      destruct (IH ot1 _ H1 Ha2) as [ot2 [E2 H2]]. rewrite E2. cbn [bind].
      rewrite (surjective_pairing (sp_run cmp cs (fst (sp_step cmp c l)))). exists ot2. auto.
  Qed.
  Lemma reached_repr adm t l : covered adm -> reached cmp O adm t l -> repr t l.
  Proof.
    intros Hcov [cs [os [H1 [H2 H3]]]]. destruct (run_refines adm cs Hcov None [] eq_refl H1) as [ot [E H]].
    rewrite E in H2. injection H2 as -> _. rewrite H3 in H. exact H.
  Qed.

  (** ascending insertions are always covered *)
  Lemma covered_ascending : covered (adm_ascending cmp).
  Proof.
    intros t l k H [Hk|Hk].
    - apply L_safe_in; try apply H. apply (repr_keys t l k H). auto.
    - apply L_safe_gt; try apply H. intros k' Hk'. apply Hk. apply (repr_keys t l k' H). auto.
  Qed.
  Lemma covered_any : (forall t k, safe L t k) -> covered (@adm_any K V).
  Proof. intros H t l k _ _. apply H. Qed.

  (** draining *)
  Lemma drain_min t l n : repr t l -> length l <= n -> drain (v_remove_min O) n (Some t) = Ret (None, l).
  Proof.
    revert t l. induction n as [|n IH]; intros t l H Hn.
    - elim (repr_ne t l H). apply length_zero_iff_nil. lia.
    - cbn. destruct (repr_remove_min t l H) as [ot [p [E [Ep Hr]]]]. rewrite E. cbn [bind].
      destruct l as [|q l]; [discriminate|]. injection Ep as ->. cbn in Hr, Hn. destruct ot as [t'|]; cbn in Hr.
      + rewrite (IH t' l Hr) by lia. auto.
      + subst l. destruct n; auto.
  Qed.
  Lemma drain_max t l n : repr t l -> length l <= n -> drain (v_remove_max O) n (Some t) = Ret (None, rev l).
  Proof.
    revert t l. induction n as [|n IH]; intros t l H Hn.
    - elim (repr_ne t l H). apply length_zero_iff_nil. lia.
    - cbn. destruct (repr_remove_max t l H) as [ot [p [E [Ep Hr]]]]. rewrite E. cbn [bind].
      apply last_error_in in Ep. destruct Ep as [l' ->]. rewrite removelast_app1 in Hr.
      rewrite app_length in Hn. cbn in Hn. rewrite rev_app_distr. cbn. destruct ot as [t'|]; cbn in Hr.
      + rewrite (IH t' l' Hr) by lia. auto.
      + subst l'. destruct n; auto.
  Qed.

  (** *** What holds on every history *)
  Definition weak t (bag : list (K * V)) : Prop := winv L t /\ Permutation bag (ents L t).
  Definition weakO ot bag : Prop := match ot with Some t => weak t bag | None => bag = [] end.

  Lemma weak_taken t bag p ot : weak t bag -> taken (winv L) (ord L) (ents L) t p ot ->
    exists bag', weakO ot bag' /\ Permutation bag (p :: bag').
  Proof.
    intros [Hw HP] Ht. destruct ot as [t'|]; cbn in Ht.
    - exists (ents L t'). split; [split; [apply Ht|auto]|]. rewrite HP. apply Ht.
    - exists []. split; [reflexivity|]. rewrite HP, Ht. auto.
  Qed.
  (** [bag'] is [bag] with the pairs [o] taken out and the pairs [i] put in *)
  Definition bag_step (i o bag bag' : list (K * V)) : Prop :=
    exists rest, Permutation bag (o ++ rest) /\ Permutation bag' (i ++ rest).
  Lemma bag_same bag : bag_step [] [] bag bag.
  Proof. exists bag. auto. Qed.

  Lemma weak_write t bag m i w : weak t bag -> mut_ok (winv L) (ord L) (ents L) t (m t) i ->
    exists ot o bag', write O m w t = Ret (ot, OP o) /\ weakO ot bag' /\
      bag_step (match o with Some p => [(fst p, w)] | None => [] end) (match o with Some p => [p] | None => [] end) bag bag'.
  Proof.
    intros [Hw HP] [o [E [_ H]]]. unfold write. rewrite E. cbn [bind]. destruct o as [[p put]|].
    - destruct (H p put eq_refl) as [rest [H1 H2]]. destruct (H2 w) as [H3 [H4 _]].
      eexists _, _, (ents L (put w)). split; [reflexivity|]. split; [split; auto|]. exists rest. cbn. split; auto. rewrite HP. auto.
    - eexists _, _, bag. split; [reflexivity|]. split; [split; auto|apply bag_same].
  Qed.
  Lemma weak_write1 t bag m i w : weak t bag -> mut1_ok (winv L) (ord L) (ents L) t (m t) i ->
    exists ot p bag', write1 O m w t = Ret (ot, OP (Some p)) /\ weakO ot bag' /\ bag_step [(fst p, w)] [p] bag bag'.
  Proof.
    intros [Hw HP] [p [put [E [_ H]]]]. unfold write1. rewrite E. cbn [bind].
    destruct H as [rest [H1 H2]]. destruct (H2 w) as [H3 [H4 _]].
    eexists _, _, (ents L (put w)). split; [reflexivity|]. split; [split; auto|]. exists rest. cbn. split; auto. rewrite HP. auto.
  Qed.

  Lemma step_weak c ot bag : weakO ot bag ->
    match c with Insert _ _ => (N.of_nat (length bag) < usize_max)%N | _ => True end ->
    exists ot' o bag', step O c ot = Ret (ot', o) /\ weakO ot' bag' /\ bag_step (pairs_in c o) (pairs_out c o) bag bag'.
  Proof.
    intros H Hl. destruct ot as [t|]; cbn in H.
    2:{ subst bag. destruct c; try (eexists _, _, []; split; [reflexivity|]; split; [reflexivity|apply bag_same]).
        cbn. destruct (L_from_monad L k v) as [H1 [H2 H3]]. eexists _, _, [(k, v)]. split; [reflexivity|]. split.
        - split; auto. rewrite H3. auto.
        - exists []. auto. }
    assert (Hw := proj1 H). assert (HP := proj2 H).
    assert (Hq : forall m, (exists o, m t = Ret o) -> exists ot' o bag', query O m t = Ret (ot', OP o) /\ weakO ot' bag' /\ bag_step [] [] bag bag').
    { intros m [o E]. unfold query. rewrite E. eexists _, _, bag. split; [reflexivity|]. split; [exact H|apply bag_same]. }
    destruct c; cbn [step]; unfold query1.
    - destruct (L_insert L t k v Hw) as [t' [r [E [H1 [H2 _]]]]].
      { rewrite <- (Permutation_length HP). auto. }
      rewrite E. cbn [bind]. eexists _, _, (ents L t'). split; [reflexivity|]. split; [split; auto|]. destruct r as [q|].
      + destruct H2 as [rest [H5 H6]]. exists rest. cbn. split; auto. rewrite HP. auto.
      + exists bag. cbn. split; auto. rewrite H2, HP. auto.
    - destruct (L_remove L t k Hw) as [[ot [p [E [H1 H2]]]]|[E H1]]; rewrite E; cbn [bind].
      + destruct (weak_taken t bag p ot H H2) as [bag' [H3 H4]]. eexists _, _, bag'. split; [reflexivity|]. split; auto.
        exists bag'. auto.
      + eexists _, _, bag. split; [reflexivity|]. split; [exact H|]. apply bag_same.
    - destruct (L_remove_min L t Hw) as [ot [p [E [H1 H2]]]]. rewrite E; cbn [bind].
      destruct (weak_taken t bag p ot H H2) as [bag' [H3 H4]]. eexists _, _, bag'. split; [reflexivity|]. split; auto.
      exists bag'. auto.
    - destruct (L_remove_max L t Hw) as [ot [p [E [H1 H2]]]]. rewrite E; cbn [bind].
      destruct (weak_taken t bag p ot H H2) as [bag' [H3 H4]]. eexists _, _, bag'. split; [reflexivity|]. split; auto.
      exists bag'. auto.
    - destruct (L_into_monad L t Hw) as [[p [E H1]]|[E H1]]; rewrite E; cbn [bind].
      + eexists _, _, []. split; [reflexivity|]. split; [reflexivity|]. exists []. cbn. split; auto. rewrite HP, H1. auto.
      + eexists _, _, bag. split; [reflexivity|]. split; [exact H|]. apply bag_same.
    - rewrite (L_is_monad L t Hw). cbn [bind]. eexists _, _, bag. split; [reflexivity|]. split; [exact H|]. apply bag_same.
    - destruct (L_min L t Hw) as [p [E _]]. rewrite E. cbn [bind]. eexists _, _, bag. split; [reflexivity|]. split; [exact H|]. apply bag_same.
    - destruct (L_max L t Hw) as [p [E _]]. rewrite E. cbn [bind]. eexists _, _, bag. split; [reflexivity|]. split; [exact H|]. apply bag_same.
    - destruct (L_find L t k Hw) as [o [E _]]. destruct (Hq (fun t => v_find O t k)) as [ot' [o' [b [E' [H1 H2]]]]]; [eauto|].
      rewrite E'. eexists _, _, b. split; [reflexivity|]. split; auto. destruct o'; auto.
    - destruct (L_pred L t k Hw) as [o [E _]]. destruct (Hq (fun t => v_predecessor O t k)) as [ot' [o' [b [E' [H1 H2]]]]]; [eauto|].
      rewrite E'. eexists _, _, b. split; [reflexivity|]. split; auto. destruct o'; auto.
    - destruct (L_succ L t k Hw) as [o [E _]]. destruct (Hq (fun t => v_successor O t k)) as [ot' [o' [b [E' [H1 H2]]]]]; [eauto|].
      rewrite E'. eexists _, _, b. split; [reflexivity|]. split; auto. destruct o'; auto.
    - destruct (weak_write1 t bag (v_min_val_mut O) _ w H (L_min_mut L t Hw)) as [ot' [p [b [E [H1 H2]]]]].
      rewrite E. eexists _, _, b. split; [reflexivity|]. auto.
    - destruct (weak_write1 t bag (v_max_val_mut O) _ w H (L_max_mut L t Hw)) as [ot' [p [b [E [H1 H2]]]]].
      rewrite E. eexists _, _, b. split; [reflexivity|]. auto.
    - destruct (weak_write t bag (fun t => v_find_mut O t k) _ w H (L_find_mut L t k Hw)) as [ot' [o [b [E [H1 H2]]]]].
      rewrite E. eexists _, _, b. split; [reflexivity|]. split; [exact H1|]. destruct o; exact H2.
    - destruct (weak_write t bag (fun t => v_predecessor_mut O t k) _ w H (L_pred_mut L t k Hw)) as [ot' [o [b [E [H1 H2]]]]].
      rewrite E. eexists _, _, b. split; [reflexivity|]. split; [exact H1|]. destruct o; exact H2.
    - destruct (weak_write t bag (fun t => v_successor_mut O t k) _ w H (L_succ_mut L t k Hw)) as [ot' [o [b [E [H1 H2]]]]].
      rewrite E. eexists _, _, b. split; [reflexivity|]. split; [exact H1|]. destruct o; exact H2.
  Qed.

  Lemma run_weak cs : forall ot bag ot' os, weakO ot bag -> run O cs ot = Ret (ot', os) -> fitting cs os (length bag) ->
    exists bag', weakO ot' bag' /\ Permutation (total pairs_in cs os ++ bag) (total pairs_out cs os ++ bag').
  Proof.
    induction cs as [|c cs IH]; intros ot bag ot' os H E Hf; cbn in E.
    - injection E as <- <-. exists bag. auto.
    - destruct (step O c ot) as [[ot1 o]|] eqn:E1; [|discriminate]. cbn [bind] in E.
      destruct (run O cs ot1) as [[ot2 os1]|] eqn:E2; [|discriminate]. injection E as <- <-. cbn in Hf. destruct Hf as [Hf1 Hf2].
      assert (Hb : match c with Insert _ _ => (N.of_nat (length bag) < usize_max)%N | _ => True end) by (destruct c; auto).
      destruct (step_weak c ot bag H Hb) as [ot1' [o' [bag1 [E1' [H1 [rest [HP1 HP2]]]]]]]. rewrite E1 in E1'. injection E1' as <- <-.
      assert (Hlen : length bag1 = length bag + length (pairs_in c o) - length (pairs_out c o)).
      { rewrite (Permutation_length HP1), (Permutation_length HP2), !app_length. lia. }
      rewrite <- Hlen in Hf2. destruct (IH ot1 bag1 ot2 os1 H1 E2 Hf2) as [bag' [H2 HP3]].
      exists bag'. split; auto. cbn. rewrite HP1.
      transitivity (pairs_out c o ++ (total pairs_in cs os1 ++ bag1)).
      + rewrite HP2, Permutation_app_swap_app. apply Permutation_app_head. rewrite <- app_assoc.
        apply Permutation_app_swap_app.
      + rewrite HP3. rewrite app_assoc. apply Permutation_refl.
  Qed.
  Lemma reachable_weak t : reachable O t -> winv L t.
  Proof. intros [cs [os [E Hf]]]. destruct (run_weak cs None [] _ _ eq_refl E Hf) as [bag [[H _] _]]. exact H. Qed.

  (** A history all of whose answers so far leave room never panics. *)
  Lemma run_total cs : forall ot bag, weakO ot bag -> (N.of_nat (length bag) + N.of_nat (length cs) <= usize_max)%N ->
    exists ot' os, run O cs ot = Ret (ot', os) /\ fitting cs os (length bag).
  Proof.
    induction cs as [|c cs IH]; intros ot bag H Hl; cbn.
    - exists ot, []. auto.
    - assert (Hb : match c with Insert _ _ => (N.of_nat (length bag) < usize_max)%N | _ => True end)
        by (destruct c; auto; cbn [length] in Hl; lia).
      destruct (step_weak c ot bag H Hb) as [ot1 [o [bag1 [E1 [H1 [rest [HP1 HP2]]]]]]]. rewrite E1. cbn [bind].
      assert (Hlen : length bag1 = length bag + length (pairs_in c o) - length (pairs_out c o)).
      { rewrite (Permutation_length HP1), (Permutation_length HP2), !app_length. lia. }
      assert (Hin : length (pairs_in c o) <= 1).
      { destruct c, o as [[p|]|]; cbn; auto. }
      destruct (IH ot1 bag1 H1) as [ot2 [os [E2 Hf]]].
      { cbn [length] in Hl. rewrite Hlen. lia. }
      rewrite E2. cbn [bind]. exists ot2, (o :: os). split; auto. cbn. rewrite <- Hlen. split; auto.
  Qed.

  (** draining hands back exactly the bag *)
  Lemma drain_weak rm n : (forall t, winv L t -> exists ot p, rm t = Ret (ot, p) /\ taken (winv L) (ord L) (ents L) t p ot) ->
    forall ot bag, weakO ot bag -> length bag <= n ->
    exists ps, drain rm n ot = Ret (None, ps) /\ Permutation ps bag.
  Proof.
    intros Hrm. induction n as [|n IH]; intros ot bag H Hn.
    - assert (bag = []) by (apply length_zero_iff_nil; lia). subst bag. destruct ot as [t|].
      + destruct H as [Hw HP]. apply Permutation_nil in HP. elim (L_nonempty L t Hw HP).
      + exists []. auto.
    - cbn. destruct ot as [t|].
      + destruct (Hrm t (proj1 H)) as [ot [p [E Ht]]]. rewrite E. cbn [bind].
        destruct (weak_taken t bag p ot H Ht) as [bag' [H1 H2]]. assert (Hl := Permutation_length H2). cbn in Hl.
        destruct (IH ot bag' H1 ltac:(lia)) as [ps [E' HP]]. rewrite E'. cbn [bind]. exists (p :: ps). split; auto.
        rewrite H2. auto.
      + cbn in H. subst bag. exists []. auto.
  Qed.
  Lemma rm_min_ok t : winv L t -> exists ot p, v_remove_min O t = Ret (ot, p) /\ taken (winv L) (ord L) (ents L) t p ot.
  Proof. intros H. destruct (L_remove_min L t H) as [ot [p [E [_ H']]]]. eauto. Qed.
  Lemma rm_max_ok t : winv L t -> exists ot p, v_remove_max O t = Ret (ot, p) /\ taken (winv L) (ord L) (ents L) t p ot.
  Proof. intros H. destruct (L_remove_max L t H) as [ot [p [E [_ H']]]]. eauto. Qed.
End Refine.
