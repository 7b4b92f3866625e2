(** Consequences of the laws for reachable trees. *)
From Verif Require Import Base Spec Ops Boxed SizedT Lists Laws Hist HistProofs WrapProofs.

Lemma drain_mono {T P} (rm : T -> res (option T * P)) n : forall ot d m, n <= m ->
  drain rm n ot = Ret (None, d) -> drain rm m ot = Ret (None, d).
Proof.
  induction n as [|n IH]; intros ot d m Hm H.
  - cbn in H. injection H as -> <-. destruct m; auto.
  - destruct m as [|m]; [lia|]. cbn in H |- *. destruct ot as [t|]; auto.
    destruct (rm t) as [[ot' p]|]; [|discriminate]. cbn [bind] in H |- *.
    destruct (drain rm n ot') as [[ot2 ps]|] eqn:E; [|discriminate]. cbn [bind] in H. injection H as -> <-.
    rewrite (IH ot' ps m) by (auto; lia). auto.
Qed.
Lemma contents_fun {K V} (O : VebOps K V) t d d' : contents O t d -> contents O t d' -> d = d'.
Proof.
  intros [n H] [m H']. destruct (Nat.le_ge_cases n m) as [Hl|Hl].
  - apply (drain_mono _ _ _ _ _ Hl) in H. congruence.
  - apply (drain_mono _ _ _ _ _ Hl) in H'. congruence.
Qed.

Section Weak.
  Context {B : Build} {K V : Type} {cmp : K -> K -> comparison} {O : VebOps K V} (L : VebLaws cmp O).
  Implicit Types (t : vt O) (d : list (K * V)).

  Lemma contents_ents t : winv L t -> exists d, contents O t d /\ Permutation d (ents L t).
  Proof.
    intros H. destruct (drain_weak L (v_remove_min O) (length (ents L t)) (rm_min_ok L) (Some t) (ents L t)) as [d [E HP]]; auto.
    - split; auto.
    - exists d. split; auto. exists (length (ents L t)). auto.
  Qed.
  Lemma contents_perm t d : winv L t -> contents O t d -> Permutation d (ents L t).
  Proof. intros H Hc. destruct (contents_ents t H) as [d' [Hc' HP]]. rewrite (contents_fun O t d d'); auto. Qed.
  Lemma contents_ex t : reachable O t -> exists d, contents O t d.
  Proof. intros H. apply (reachable_weak L) in H. destruct (contents_ents t H) as [d [H1 _]]. eauto. Qed.

  (** C01 *)
  Lemma no_panic cs ot os c : run O cs None = Ret (ot, os) -> fitting cs os 0 ->
    (forall k v, c = Insert k v -> (N.of_nat (balance cs os) < usize_max)%N) -> step O c ot <> Panic.
  Proof.
    intros E Hf Hb. destruct (run_weak L cs None [] ot os eq_refl E Hf) as [bag [H HP]]. rewrite app_nil_r in HP.
    assert (Hl : length bag = balance cs os).
    { unfold balance. rewrite (Permutation_length HP), app_length. lia. }
    destruct (step_weak L c ot bag H) as [ot' [o [bag' [E' _]]]].
    - destruct c; auto. rewrite Hl. eauto.
    - congruence.
  Qed.
  Lemma no_panic_run cs : (N.of_nat (length cs) <= usize_max)%N -> run O cs None <> Panic.
  Proof.
    intros H. destruct (run_total L cs None [] eq_refl) as [ot [os [E _]]]; [cbn; auto|]. congruence.
  Qed.
  Lemma no_panic_len_hint t : reachable O t -> v_len_hint O t <> Panic.
  Proof.
    intros H. apply (reachable_weak L) in H. destruct (L_len_hint L t H) as [lo [hi [E _]]]. congruence.
  Qed.

  (** C02 *)
  Lemma conserved rm n cs ot os :
    (forall t, winv L t -> exists ot p, rm t = Ret (ot, p) /\ taken (winv L) (ord L) (ents L) t p ot) ->
    run O cs None = Ret (ot, os) -> fitting cs os 0 -> balance cs os <= n ->
    exists d, drain rm n ot = Ret (None, d) /\ Permutation (total pairs_in cs os) (total pairs_out cs os ++ d).
  Proof.
    intros Hrm E Hf Hb. destruct (run_weak L cs None [] ot os eq_refl E Hf) as [bag [H HP]]. rewrite app_nil_r in HP.
    assert (Hl : length bag = balance cs os).
    { unfold balance. rewrite (Permutation_length HP), app_length. lia. }
    destruct (drain_weak L rm n Hrm ot bag H) as [d [Ed HPd]]; [lia|]. exists d. split; auto. rewrite HPd. auto.
  Qed.

  (** C03 *)
  Lemma remove_either t k : reachable O t -> exists d, contents O t d /\
    ((exists ot p, v_remove O t k = Ret (Ok (ot, p)) /\ fst p = k /\ In p d) \/
     (v_remove O t k = Ret (Err t) /\ ~ In k (keys d))).
  Proof.
    intros H. apply (reachable_weak L) in H. destruct (contents_ents t H) as [d [Hd HP]]. exists d. split; auto.
    destruct (L_remove L t k H) as [[ot [p [E [Hk Ht]]]]|[E Hk]].
    - left. exists ot, p. split; auto. split; auto. apply (Permutation_in _ (Permutation_sym HP)).
      destruct ot as [t'|]; cbn in Ht.
      + destruct Ht as [_ [HP' _]]. apply (Permutation_in _ (Permutation_sym HP')). left. auto.
      + rewrite Ht. left. auto.
    - right. split; auto. intros Hin. apply Hk. apply (Permutation_in _ (keys_perm _ _ HP)). auto.
  Qed.

  (** C18 *)
  Lemma mut_same t : reachable O t ->
    (exists p put, v_min_val_mut O t = Ret (p, put) /\ v_min_val O t = Ret p) /\
    (exists p put, v_max_val_mut O t = Ret (p, put) /\ v_max_val O t = Ret p) /\
    (forall k, exists o, v_find_mut O t k = Ret o /\ v_find O t k = Ret (omap fst o)) /\
    (forall k, exists o, v_predecessor_mut O t k = Ret o /\ v_predecessor O t k = Ret (omap fst o)) /\
    (forall k, exists o, v_successor_mut O t k = Ret o /\ v_successor O t k = Ret (omap fst o)).
  Proof.
    intros H. apply (reachable_weak L) in H. split; [|split; [|split; [|split]]].
    - destruct (L_min_mut L t H) as [p [put [E1 [E2 _]]]]. eauto.
    - destruct (L_max_mut L t H) as [p [put [E1 [E2 _]]]]. eauto.
    - intros k. destruct (L_find_mut L t k H) as [o [E1 [E2 _]]]. eauto.
    - intros k. destruct (L_pred_mut L t k H) as [o [E1 [E2 _]]]. eauto.
    - intros k. destruct (L_succ_mut L t k H) as [o [E1 [E2 _]]]. eauto.
  Qed.

  (** C19 *)
  Lemma mut_write t p put : reachable O t -> mut_query O t p put ->
    exists d rest, contents O t d /\ Permutation d (p :: rest) /\
      forall w, exists d', contents O (put w) d' /\ Permutation d' ((fst p, w) :: rest).
  Proof.
    intros H Hq. apply (reachable_weak L) in H.
    assert (Hl : lens_ok (winv L) (ord L) (ents L) t p put).
    { destruct Hq as [p put E|p put E|k p put E|k p put E|k p put E].
      - destruct (L_min_mut L t H) as [p' [put' [E1 [E2 E3]]]]. rewrite E in E1. injection E1 as <- <-. auto.
      - destruct (L_max_mut L t H) as [p' [put' [E1 [E2 E3]]]]. rewrite E in E1. injection E1 as <- <-. auto.
      - destruct (L_find_mut L t k H) as [o [E1 [E2 E3]]]. rewrite E in E1. injection E1 as <-. auto.
      - destruct (L_pred_mut L t k H) as [o [E1 [E2 E3]]]. rewrite E in E1. injection E1 as <-. auto.
      - destruct (L_succ_mut L t k H) as [o [E1 [E2 E3]]]. rewrite E in E1. injection E1 as <-. auto. }
    destruct Hl as [rest [H1 H2]]. destruct (contents_ents t H) as [d [Hd HP]]. exists d, rest. split; auto.
    split; [rewrite HP; auto|]. intros w. destruct (H2 w) as [H3 [H4 _]].
    destruct (contents_ents (put w) H3) as [d' [Hd' HP']]. exists d'. split; auto. rewrite HP'. auto.
  Qed.

  (** C20 *)
  Lemma monads t : reachable O t -> exists d, contents O t d /\
    v_is_monad O t = Ret (length d =? 1) /\
    v_into_monad O t = Ret (match d with [p] => Ok p | _ => Err t end) /\
    (forall k ot p, v_remove O t k = Ret (Ok (ot, p)) -> (ot = None <-> length d = 1)) /\
    (exists ot p, v_remove_min O t = Ret (ot, p) /\ (ot = None <-> length d = 1)) /\
    (exists ot p, v_remove_max O t = Ret (ot, p) /\ (ot = None <-> length d = 1)).
  Proof.
    intros H. apply (reachable_weak L) in H. destruct (contents_ents t H) as [d [Hd HP]]. exists d. split; auto.
    assert (Hl := Permutation_length HP).
    assert (Ht : forall ot p, taken (winv L) (ord L) (ents L) t p ot -> ot = None <-> length d = 1).
    { intros ot p Ht. rewrite Hl. destruct ot as [t'|]; cbn in Ht.
      - split; [discriminate|]. destruct Ht as [Hw [HP' _]]. intros E. exfalso. rewrite (Permutation_length HP') in E. cbn in E.
        apply (L_nonempty L t' Hw). apply length_zero_iff_nil. lia.
      - rewrite Ht. split; auto. }
    split; [rewrite Hl; apply L_is_monad; auto|]. split; [|split; [|split]].
    - destruct (L_into_monad L t H) as [[p [E H1]]|[E H1]]; rewrite E.
      + rewrite H1 in HP. apply Permutation_sym, Permutation_length_1_inv in HP. subst d. auto.
      + rewrite <- Hl in H1. destruct d as [|p [|q d]]; auto. elim H1. auto.
    - intros k ot p E. destruct (L_remove L t k H) as [[ot' [p' [E' [_ H']]]]|[E' _]]; rewrite E in E'; [|discriminate].
      injection E' as <- <-. eauto.
    - destruct (L_remove_min L t H) as [ot [p [E [_ H']]]]. exists ot, p. split; auto. eapply Ht; eauto.
    - destruct (L_remove_max L t H) as [ot [p [E [_ H']]]]. exists ot, p. split; auto. eapply Ht; eauto.
  Qed.
End Weak.

Section Strong.
  Context {B : Build} {K V : Type} {cmp : K -> K -> comparison} (OL : OrdLaws cmp) {O : VebOps K V} (L : VebLaws cmp O)
          {adm : list (K * V) -> K -> Prop} (Hcov : covered L adm).
  Implicit Types (t : vt O) (l : list (K * V)).

  Lemma run_app cs1 cs2 ot ot1 os1 : run O cs1 ot = Ret (ot1, os1) ->
    run O (cs1 ++ cs2) ot = (' (ot2, os2) <- run O cs2 ot1 ;; Ret (ot2, os1 ++ os2)).
  Proof.
    revert ot ot1 os1. induction cs1 as [|c cs1 IH]; intros ot ot1 os1 E; cbn in E |- *.
    - injection E as -> <-. destruct (run O cs2 ot1) as [[? ?]|]; auto.
    - destruct (step O c ot) as [[ot' o]|]; [|discriminate]. cbn [bind] in E |- *.
      destruct (run O cs1 ot') as [[ot2 os2]|] eqn:E2; [|discriminate]. cbn [bind] in E. injection E as <- <-.
      rewrite (IH _ _ _ E2). destruct (run O cs2 ot2) as [[? ?]|]; auto.
  Qed.
  Lemma sp_run_app cs1 cs2 l : fst (sp_run cmp (cs1 ++ cs2) l) = fst (sp_run cmp cs2 (fst (sp_run cmp cs1 l))).
  Proof.
    revert l. induction cs1 as [|c cs1 IH]; intros l; cbn; auto. destruct (sp_step cmp c l) as [l1 o].
    specialize (IH l1). destruct (sp_run cmp (cs1 ++ cs2) l1). destruct (sp_run cmp cs1 l1). auto.
  Qed.
  Lemma sp_run_cons c cs l : fst (sp_run cmp (c :: cs) l) = fst (sp_run cmp cs (fst (sp_step cmp c l))).
  Proof. cbn. destruct (sp_step cmp c l) as [l1 o]. cbn. destruct (sp_run cmp cs l1). auto. Qed.
  Lemma admissible_app cs1 cs2 l : admissible cmp adm cs1 l -> admissible cmp adm cs2 (fst (sp_run cmp cs1 l)) ->
    admissible cmp adm (cs1 ++ cs2) l.
  Proof.
    revert l. induction cs1 as [|c cs1 IH]; intros l H1 H2; auto. destruct H1 as [H0 H1]. split; auto.
    apply IH; auto. rewrite sp_run_cons in H2. auto.
  Qed.

  (** one more call after an admissible history *)
  Lemma reached_step t l c t' o : reached cmp O adm t l ->
    match c with Insert k _ => adm l k /\ (N.of_nat (length l) < usize_max)%N | _ => True end ->
    step O c (Some t) = Ret (Some t', o) -> reached cmp O adm t' (fst (sp_step cmp c l)).
  Proof.
    intros [cs [os [H1 [H2 H3]]]] Hc E. exists (cs ++ [c]), (os ++ [o]). subst l. split; [|split].
    - apply admissible_app; auto. split; [exact Hc|exact I].
    - rewrite (run_app _ _ _ _ _ H2). cbn [run]. rewrite E. auto.
    - rewrite sp_run_app. cbn. destruct (sp_step cmp c _). auto.
  Qed.
  Lemma reached_asc t l : reached cmp O adm t l -> ascending cmp l.
  Proof. intros H. apply (reached_repr OL L adm t l Hcov H). Qed.

  (** the refinement, C04-C09, C38 *)
  Lemma sorted_map cs : admissible cmp adm cs [] ->
    exists ot, run O cs None = Ret (ot, snd (sp_run cmp cs [])) /\ (ot = None <-> fst (sp_run cmp cs []) = []).
  Proof.
    intros H. destruct (run_refines OL L adm cs Hcov None [] eq_refl H) as [ot [E Hr]]. exists ot. split; auto.
    destruct ot as [t|]; cbn in Hr.
    - split; [discriminate|]. intros E'. elim (repr_ne L t _ Hr E').
    - rewrite Hr. tauto.
  Qed.

  Lemma in_sp_insert k v l q : ascending cmp l ->
    In q (sp_insert cmp k v l) <-> q = (k, v) \/ In q l /\ fst q <> k.
  Proof.
    intros Ha. unfold sp_insert. rewrite in_app_iff. cbn. rewrite (in_below (cmp := cmp)), (in_above (cmp := cmp)). split.
    - intros [[H1 H2]|[H|[H1 H2]]]; auto.
      + right. split; auto. apply (lt_neq OL). auto.
      + right. split; auto. intros E. apply (lt_neq OL _ _ H2). auto.
    - intros [H|[H1 H2]]; auto. destruct (cmp (fst q) k) eqn:E; auto.
      + apply (cmp_eq_eq OL) in E. contradiction.
      + apply (cmp_gt_lt OL) in E. auto.
  Qed.
  Lemma in_sp_remove k l q : In q (sp_remove cmp k l) <-> In q l /\ fst q <> k.
  Proof.
    unfold sp_remove. rewrite in_app_iff, (in_below (cmp := cmp)), (in_above (cmp := cmp)). split.
    - intros [[H1 H2]|[H1 H2]]; split; auto.
      + apply (lt_neq OL). auto.
      + intros E. apply (lt_neq OL _ _ H2). auto.
    - intros [H1 H2]; auto. destruct (cmp (fst q) k) eqn:E; auto.
      + apply (cmp_eq_eq OL) in E. contradiction.
      + apply (cmp_gt_lt OL) in E. auto.
  Qed.
  Lemma sp_find_dec k l : ascending cmp l ->
    match sp_find cmp k l with Some p => In p l /\ fst p = k | None => ~ In k (keys l) end.
  Proof.
    intros Ha. destruct (sp_find cmp k l) as [p|] eqn:E.
    - apply (sp_find_in OL). auto.
    - intros H. apply keys_in in H. destruct H as [v H]. rewrite (sp_find_some OL k v) in E; auto; [discriminate|].
      apply (asc_nodup OL). auto.
  Qed.
  Lemma sp_find_iff k v l : ascending cmp l -> sp_find cmp k l = Some (k, v) <-> In (k, v) l.
  Proof.
    intros Ha. split.
    - intros E. apply (sp_find_in OL) in E. apply E.
    - apply (sp_find_some OL). apply (asc_nodup OL). auto.
  Qed.

  (** C10 *)
  Lemma insert_spec t l k v : reached cmp O adm t l -> adm l k -> (N.of_nat (length l) < usize_max)%N ->
    exists t' r l', v_insert O t k v = Ret (t', r) /\
      match r with Some p => In p l /\ fst p = k | None => ~ In k (keys l) end /\
      reached cmp O adm t' l' /\ (forall q, In q l' <-> q = (k, v) \/ In q l /\ fst q <> k) /\
      v_find O t' k = Ret (Some (k, v)) /\ (forall k', k' <> k -> v_find O t' k' = v_find O t k').
  Proof.
    intros H Ha Hl. assert (Hr := reached_repr OL L adm t l Hcov H). assert (Hasc := reached_asc t l H).
    destruct (repr_insert OL L t l k v Hr Hl (Hcov _ _ _ Hr Ha)) as [t' [E Hr']].
    exists t', (sp_find cmp k l), (sp_insert cmp k v l). split; auto. split; [apply sp_find_dec; auto|]. split.
    { apply (reached_step t l (Insert k v) t' (OP (sp_find cmp k l))); auto. cbn. rewrite E. auto. }
    split; [intros q; apply in_sp_insert; auto|].
    rewrite (repr_find OL L t' _ k Hr'). split.
    { f_equal. apply sp_find_iff; [apply Hr'|]. apply in_sp_insert; auto. }
    intros k' Hk. rewrite (repr_find OL L t' _ k' Hr'), (repr_find OL L t _ k' Hr). f_equal.
    assert (D1 := sp_find_dec k' l Hasc). destruct (sp_find cmp k' l) as [[k1 v1]|].
    - destruct D1 as [D1 D2]. cbn in D2. subst k1. apply sp_find_iff; [apply Hr'|]. apply in_sp_insert; auto.
    - apply (sp_find_none OL). intros Hin. apply keys_in in Hin. destruct Hin as [v1 Hin]. apply in_sp_insert in Hin; auto.
      destruct Hin as [Hin|[Hin _]]; [injection Hin as ? _; contradiction|]. apply D1. apply (in_keys k' v1). auto.
  Qed.

  (** C11 *)
  Lemma latest_find k c l v0 : ascending cmp l -> omap snd (sp_find cmp k l) = v0 ->
    omap snd (sp_find cmp k (fst (sp_step cmp c l))) = touched cmp k c (snd (sp_step cmp c l)) v0 /\
    ascending cmp (fst (sp_step cmp c l)).
  Proof.
    intros Ha <-.
    (* three kinds of change *)
    assert (Hins : forall k' v, omap snd (sp_find cmp k (sp_insert cmp k' v l)) = if eqb cmp k' k then Some v else omap snd (sp_find cmp k l)).
    { intros k' v. assert (Ha' := sp_insert_asc OL k' v l Ha). destruct (eqb cmp k' k) eqn:E.
      - apply (eqb_eq OL) in E. subst k'. replace (sp_find cmp k (sp_insert cmp k v l)) with (Some (k, v)); auto. symmetry.
        apply sp_find_iff; auto. apply in_sp_insert; auto.
      - apply (eqb_neq OL) in E. f_equal. assert (D := sp_find_dec k l Ha). destruct (sp_find cmp k l) as [[k1 v1]|].
        + destruct D as [D1 D2]. cbn in D2. subst k1. apply sp_find_iff; auto. apply in_sp_insert; auto.
        + apply (sp_find_none OL). intros Hin. apply keys_in in Hin. destruct Hin as [v1 Hin]. apply in_sp_insert in Hin; auto.
          destruct Hin as [Hin|[Hin _]]; [injection Hin as ? _; congruence|]. apply D. apply (in_keys k v1). auto. }
    assert (Hrem : forall k', omap snd (sp_find cmp k (sp_remove cmp k' l)) = if eqb cmp k' k then None else omap snd (sp_find cmp k l)).
    { intros k'. assert (Ha' := sp_remove_asc OL k' l Ha). destruct (eqb cmp k' k) eqn:E.
      - apply (eqb_eq OL) in E. subst k'. rewrite (sp_find_none OL); auto. intros Hin. apply keys_in in Hin.
        destruct Hin as [v1 Hin]. apply in_sp_remove in Hin. apply (proj2 Hin). auto.
      - apply (eqb_neq OL) in E. f_equal. assert (D := sp_find_dec k l Ha). destruct (sp_find cmp k l) as [[k1 v1]|].
        + destruct D as [D1 D2]. cbn in D2. subst k1. apply sp_find_iff; auto. apply in_sp_remove. auto.
        + apply (sp_find_none OL). intros Hin. apply keys_in in Hin. destruct Hin as [v1 Hin]. apply in_sp_remove in Hin.
          apply D. apply (in_keys k v1). apply Hin. }
    assert (Hwr : forall o w, (forall p, o = Some p -> In p l) ->
      omap snd (sp_find cmp k (fst (sp_mut cmp o w l))) =
        match o with Some p => if eqb cmp (fst p) k then Some w else omap snd (sp_find cmp k l) | None => omap snd (sp_find cmp k l) end /\
      ascending cmp (fst (sp_mut cmp o w l))).
    { intros o w Ho. destruct o as [p|]; cbn; auto. specialize (Ho p eq_refl). split; [|apply sp_write_asc; auto].
      clear Hins Hrem. unfold sp_find, sp_write. destruct (eqb cmp (fst p) k) eqn:E.
      - apply (eqb_eq OL) in E. subst k. clear Ha. induction l as [|q l' IH]; [destruct Ho|]. cbn.
        destruct (eqb cmp (fst q) (fst p)) eqn:E; cbn; rewrite E; auto.
        destruct Ho as [->|Ho]; [rewrite (eqb_refl OL) in E; discriminate|]. auto.
      - clear Ha Ho. induction l as [|q l' IH]; auto. cbn.
        destruct (eqb cmp (fst q) (fst p)) eqn:E1; cbn; destruct (eqb cmp (fst q) k) eqn:E2; auto.
        apply (eqb_eq OL) in E1, E2. apply (eqb_neq OL) in E. congruence. }
    assert (Hmin : forall p, sp_min l = Some p -> In p l) by (intros p E; apply hd_error_in in E; destruct E as [l' ->]; left; auto).
    assert (Hmax : forall p, sp_max l = Some p -> In p l)
      by (intros p E; apply last_error_in in E; destruct E as [l' ->]; apply in_or_app; right; left; auto).
    assert (Hpred : forall k' p, sp_pred cmp k' l = Some p -> In p l).
    { intros k' p E. apply last_error_in in E. destruct E as [l' E].
      assert (Hin : In p (below cmp k' l)) by (rewrite E; apply in_or_app; right; left; auto). apply (in_below (cmp := cmp)) in Hin. apply Hin. }
    assert (Hsucc : forall k' p, sp_succ cmp k' l = Some p -> In p l).
    { intros k' p E. apply hd_error_in in E. destruct E as [l' E].
      assert (Hin : In p (above cmp k' l)) by (rewrite E; left; auto). apply (in_above (cmp := cmp)) in Hin. apply Hin. }
    destruct c; cbn [sp_step fst snd touched]; auto.
    - split; [apply Hins|apply (sp_insert_asc OL); auto].
    - split; [|apply (sp_remove_asc OL); auto]. rewrite Hrem. assert (D := sp_find_dec k0 l Ha).
      destruct (sp_find cmp k0 l) as [p|]; [destruct D as [_ ->]; auto|]. destruct (eqb cmp k0 k) eqn:E; auto.
      apply (eqb_eq OL) in E. subst k0. rewrite (sp_find_none OL); auto.
    - destruct l as [|p l']; [auto|]. cbn [tl sp_min hd_error]. split.
      + rewrite <- Hrem. rewrite (sp_remove_min OL); auto.
      + apply (asc_cons (cmp := cmp)) in Ha. apply Ha.
    - destruct (sp_max l) as [p|] eqn:E; [|apply last_error_none in E; subst l; auto].
      apply last_error_in in E. destruct E as [l' ->]. rewrite removelast_app1. split.
      + rewrite <- Hrem. rewrite (sp_remove_max OL); auto.
      + apply (asc_app (cmp := cmp)) in Ha. apply Ha.
    - destruct l as [|p [|q l']]; auto. cbn [fst snd]. split; [|apply asc_nil].
      rewrite <- Hrem. rewrite (sp_remove_min OL); auto.
    - exact (Hwr (sp_min l) w Hmin).
    - exact (Hwr (sp_max l) w Hmax).
    - apply (Hwr (sp_find cmp k0 l) w). intros p E. apply (sp_find_in OL) in E. apply E.
    - exact (Hwr (sp_pred cmp k0 l) w (Hpred k0)).
    - exact (Hwr (sp_succ cmp k0 l) w (Hsucc k0)).
  Qed.
  Lemma latest_run k cs : forall l v0, ascending cmp l -> omap snd (sp_find cmp k l) = v0 ->
    omap snd (sp_find cmp k (fst (sp_run cmp cs l))) = latest cmp k cs (snd (sp_run cmp cs l)) v0.
  Proof.
    induction cs as [|c cs IH]; intros l v0 Ha Hv; cbn [sp_run]; auto.
    destruct (latest_find k c l v0 Ha Hv) as [H1 H2]. destruct (sp_step cmp c l) as [l1 o]. cbn [fst snd] in H1, H2.
    specialize (IH l1 _ H2 H1). destruct (sp_run cmp cs l1) as [l2 os]. cbn. auto.
  Qed.
  Lemma find_latest cs t os k : admissible cmp adm cs [] -> run O cs None = Ret (Some t, os) ->
    v_find O t k = Ret (omap (fun v => (k, v)) (latest cmp k cs os None)).
  Proof.
    intros H E. destruct (run_refines OL L adm cs Hcov None [] eq_refl H) as [ot [E' Hr]]. rewrite E in E'. injection E' as <- ->.
    rewrite <- (latest_run k cs [] None); auto using asc_nil. rewrite (repr_find OL L t _ k Hr). f_equal.
    assert (D := sp_find_dec k (fst (sp_run cmp cs [])) (proj1 (proj2 (proj2 Hr)))).
    destruct (sp_find cmp k (fst (sp_run cmp cs []))) as [[k' v]|]; cbn in *; auto. destruct D as [_ ->]. auto.
  Qed.

  (** C12, C13, C14 *)
  Lemma pred_spec t l k : reached cmp O adm t l -> exists o, v_predecessor O t k = Ret o /\
    match o with
    | Some p => In p l /\ cmp (fst p) k = Lt /\ forall q, In q l -> cmp (fst q) k = Lt -> q = p \/ cmp (fst q) (fst p) = Lt
    | None => forall q, In q l -> cmp (fst q) k <> Lt
    end.
  Proof.
    intros H. assert (Hr := reached_repr OL L adm t l Hcov H). destruct (L_pred L t k (proj1 Hr)) as [o [E Ho]].
    exists o. split; auto. destruct o as [p|].
    - destruct Ho as [H1 H2]. destruct (H2 (proj1 (proj2 Hr))) as [H3 H4]. apply (repr_in L t l p Hr) in H1. split; auto.
      split; auto. intros q Hq Hk. destruct (proj1 (le_cases OL _ _) (H4 q (proj2 (repr_in L t l q Hr) Hq) Hk)) as [H5|H5]; auto.
      left. eapply nodup_keys_pair; eauto. eapply repr_nodup; eauto.
    - intros q Hq. apply Ho; [apply Hr|]. apply (repr_in L t l q Hr). auto.
  Qed.
  Lemma succ_spec t l k : reached cmp O adm t l -> exists o, v_successor O t k = Ret o /\
    match o with
    | Some p => In p l /\ cmp k (fst p) = Lt /\ forall q, In q l -> cmp k (fst q) = Lt -> q = p \/ cmp (fst p) (fst q) = Lt
    | None => forall q, In q l -> cmp k (fst q) <> Lt
    end.
  Proof.
    intros H. assert (Hr := reached_repr OL L adm t l Hcov H). destruct (L_succ L t k (proj1 Hr)) as [o [E Ho]].
    exists o. split; auto. destruct o as [p|].
    - destruct Ho as [H1 H2]. destruct (H2 (proj1 (proj2 Hr))) as [H3 H4]. apply (repr_in L t l p Hr) in H1. split; auto.
      split; auto. intros q Hq Hk. destruct (proj1 (le_cases OL _ _) (H4 q (proj2 (repr_in L t l q Hr) Hq) Hk)) as [H5|H5]; auto.
      left. eapply nodup_keys_pair; eauto. eapply repr_nodup; eauto.
    - intros q Hq. apply Ho; [apply Hr|]. apply (repr_in L t l q Hr). auto.
  Qed.
  Lemma minmax_spec t l : reached cmp O adm t l ->
    (exists p, v_min_val O t = Ret p /\ In p l /\ forall q, In q l -> q = p \/ cmp (fst p) (fst q) = Lt) /\
    (exists p, v_max_val O t = Ret p /\ In p l /\ forall q, In q l -> q = p \/ cmp (fst q) (fst p) = Lt).
  Proof.
    intros H. assert (Hr := reached_repr OL L adm t l Hcov H). assert (Hn := repr_nodup OL L t l Hr). split.
    - destruct (L_min L t (proj1 Hr)) as [p [E [H1 H2]]]. apply (repr_in L t l p Hr) in H1. exists p. split; auto. split; auto.
      intros q Hq. destruct (proj1 (le_cases OL _ _) (H2 (proj1 (proj2 Hr)) q (proj2 (repr_in L t l q Hr) Hq))) as [H5|H5]; auto.
      left. eapply nodup_keys_pair; eauto.
    - destruct (L_max L t (proj1 Hr)) as [p [E [H1 H2]]]. apply (repr_in L t l p Hr) in H1. exists p. split; auto. split; auto.
      intros q Hq. destruct (proj1 (le_cases OL _ _) (H2 (proj1 (proj2 Hr)) q (proj2 (repr_in L t l q Hr) Hq))) as [H5|H5]; auto.
      left. eapply nodup_keys_pair; eauto.
  Qed.

  Lemma left_over_ok t l p ot c o : reached cmp O adm t l -> reprO L ot (sp_remove cmp (fst p) l) -> sp_find cmp (fst p) l = Some p ->
    step O c (Some t) = Ret (ot, o) -> fst (sp_step cmp c l) = sp_remove cmp (fst p) l ->
    match c with Insert _ _ => False | _ => True end -> left_over cmp O adm l p ot.
  Proof.
    intros H Hr Hf E Es Hc. assert (Ha := reached_asc t l H). assert (Hn := asc_nodup OL l Ha).
    assert (Hp := proj1 (sp_find_in OL _ _ _ Hf)).
    assert (Hq : forall q, In q (sp_remove cmp (fst p) l) <-> In q l /\ q <> p).
    { intros q. rewrite in_sp_remove. split; intros [H1 H2]; split; auto.
      - intros ->. auto.
      - intros E'. apply H2. eapply nodup_keys_pair; eauto. }
    destruct ot as [t'|]; cbn in Hr |- *.
    - exists (sp_remove cmp (fst p) l). split; auto. rewrite <- Es. apply (reached_step t l c t' o); auto. destruct c; auto. destruct Hc.
    - rewrite Hr in Hq. destruct l as [|a l]; [destruct Hp|]. assert (Hall : forall q, In q (a :: l) -> q = p).
      { intros q Hin. destruct (key_dec OL (fst q) (fst p)) as [Ek|Ek]; [eapply nodup_keys_pair; eauto|]. exfalso.
        apply (proj2 (Hq q)). split; auto. intros ->. auto. }
      assert (a = p) by (apply Hall; left; auto). subst a. destruct l as [|b l]; auto. exfalso.
      assert (b = p) by (apply Hall; right; left; auto). subst b. cbn in Hn. inversion Hn as [|? ? H1 H2]. apply H1. left. auto.
  Qed.
  (** C15 *)
  Lemma remove_spec t l k : reached cmp O adm t l ->
    (exists ot p, v_remove O t k = Ret (Ok (ot, p)) /\ In p l /\ fst p = k /\ left_over cmp O adm l p ot) \/
    (v_remove O t k = Ret (Err t) /\ ~ In k (keys l)).
  Proof.
    intros H. assert (Hr := reached_repr OL L adm t l Hcov H). assert (Ha := reached_asc t l H).
    assert (H1 := repr_remove OL L t l k Hr). assert (D := sp_find_dec k l Ha). destruct (sp_find cmp k l) as [p|] eqn:Ef.
    - left. destruct H1 as [ot [E Hr']]. exists ot, p. split; auto. destruct D as [D1 D2]. split; auto. split; auto. subst k.
      apply (left_over_ok t l p ot (Remove (fst p)) (OP (Some p))); auto. cbn. rewrite E. auto.
    - right. split; auto. apply H1.
  Qed.
  (** C16 *)
  Lemma remove_min_spec t l : reached cmp O adm t l ->
    exists ot p, v_remove_min O t = Ret (ot, p) /\ In p l /\ (forall q, In q l -> q = p \/ cmp (fst p) (fst q) = Lt) /\ left_over cmp O adm l p ot.
  Proof.
    intros H. assert (Hr := reached_repr OL L adm t l Hcov H). assert (Ha := reached_asc t l H).
    destruct (repr_remove_min OL L t l Hr) as [ot [p [E [Ep Hr']]]]. destruct l as [|q l]; [discriminate|]. injection Ep as ->.
    exists ot, p. split; auto. split; [left; auto|]. split.
    - intros q [->|Hq]; auto. right. apply (asc_cons (cmp := cmp)) in Ha. apply Ha. auto.
    - assert (Es := sp_remove_min OL p l Ha).
      apply (left_over_ok t (p :: l) p ot RemoveMin (OP (Some p))); auto.
      + rewrite Es. auto.
      + destruct p as [k v]. apply (sp_find_some OL); [apply (asc_nodup OL); auto|left; auto].
      + cbn. rewrite E. auto.
  Qed.
  Lemma remove_max_spec t l : reached cmp O adm t l ->
    exists ot p, v_remove_max O t = Ret (ot, p) /\ In p l /\ (forall q, In q l -> q = p \/ cmp (fst q) (fst p) = Lt) /\ left_over cmp O adm l p ot.
  Proof.
    intros H. assert (Hr := reached_repr OL L adm t l Hcov H). assert (Ha := reached_asc t l H).
    destruct (repr_remove_max OL L t l Hr) as [ot [p [E [Ep Hr']]]]. apply last_error_in in Ep. destruct Ep as [l' ->].
    assert (Es := sp_remove_max OL p l' Ha).
    exists ot, p. split; auto. split; [apply in_or_app; right; left; auto|]. split.
    - intros q Hq. apply in_app_or in Hq. destruct Hq as [Hq|[->|[]]]; auto. right. apply (asc_app (cmp := cmp)) in Ha.
      apply Ha; auto. left. auto.
    - rewrite removelast_app1 in Hr'.
      apply (left_over_ok t (l' ++ [p]) p ot RemoveMax (OP (Some p))); auto.
      + rewrite Es. auto.
      + destruct p as [k v]. apply (sp_find_some OL); [apply (asc_nodup OL); auto|apply in_or_app; right; left; auto].
      + cbn. rewrite E. auto.
      + rewrite Es. cbn. apply removelast_app1.
  Qed.
  (** C17 *)
  Lemma drain_sorted t l n : reached cmp O adm t l -> length l <= n -> ascending cmp l /\
    drain (v_remove_min O) n (Some t) = Ret (None, l) /\ drain (v_remove_max O) n (Some t) = Ret (None, rev l).
  Proof.
    intros H Hn. assert (Hr := reached_repr OL L adm t l Hcov H). split; [apply Hr|]. split.
    - apply (drain_min OL L); auto.
    - apply (drain_max OL L); auto.
  Qed.
  Lemma reached_contents t l : reached cmp O adm t l -> contents O t l.
  Proof. intros H. exists (length l). apply (drain_sorted t l); auto. Qed.
End Strong.

(** C34 *)
Lemma same_answers {B1 B2 : Build} {K V cmp} (OL : OrdLaws cmp) {O1 O2 : VebOps K V} (L1 : VebLaws (B := B1) cmp O1) (L2 : VebLaws (B := B2) cmp O2)
  adm1 adm2 t1 t2 l cs : covered L1 adm1 -> covered L2 adm2 ->
  reached (B := B1) cmp O1 adm1 t1 l -> reached (B := B2) cmp O2 adm2 t2 l -> admissible (B := B1) cmp adm1 cs l -> admissible (B := B2) cmp adm2 cs l ->
  exists ot1 ot2 os, run O1 cs (Some t1) = Ret (ot1, os) /\ run O2 cs (Some t2) = Ret (ot2, os).
Proof.
  intros H1 H2 R1 R2 A1 A2. apply (reached_repr OL L1 _ _ _ H1) in R1. apply (reached_repr OL L2 _ _ _ H2) in R2.
  destruct (run_refines OL L1 adm1 cs H1 (Some t1) l R1 A1) as [ot1 [E1 _]].
  destruct (run_refines OL L2 adm2 cs H2 (Some t2) l R2 A2) as [ot2 [E2 _]]. eauto 6.
Qed.

(** C25 *)
Section SizedLen.
  Context {B : Build} {K V : Type} {cmp : K -> K -> comparison} {O : VebOps K V} (L : VebLaws cmp O).
  Implicit Types t : sized (vt O).
  Lemma sized_len t : reachable (Sized_ops O) t ->
    exists d, contents (Sized_ops O) t d /\ sz_len t = N.of_nat (length d) /\
      v_len_hint (Sized_ops O) t = Ret (sz_len t, Some (sz_len t)) /\
      (forall k ot p, v_remove (Sized_ops O) t k = Ret (Ok (ot, p)) -> (ot = None <-> sz_len t = 1%N)).
  Proof.
    intros H. destruct (monads (Sized_laws L) t H) as [d [Hd [_ [_ [H1 _]]]]]. apply (reachable_weak (Sized_laws L)) in H.
    assert (HP := contents_perm (Sized_laws L) t d H Hd). destruct H as [Hw Hs]. exists d. split; auto.
    assert (Hlen : sz_len t = N.of_nat (length d)) by (rewrite (Permutation_length HP); exact Hs).
    split; auto. split; [reflexivity|]. intros k ot p E. rewrite Hlen. rewrite (H1 k ot p E). lia.
  Qed.
  Lemma sized_len_inner t : reachable (Sized_ops O) t ->
    exists d, contents O (sz_tree t) d /\ sz_len t = N.of_nat (length d).
  Proof.
    intros H. apply (reachable_weak (Sized_laws L)) in H. destruct H as [Hw Hs].
    destruct (contents_ents L (sz_tree t) Hw) as [d [Hd HP]]. exists d. split; auto. rewrite (Permutation_length HP). exact Hs.
  Qed.
  Context (OL : OrdLaws cmp) {adm : list (K * V) -> K -> Prop} (Hcov : covered L adm).
  Lemma sized_len_map t l : reached cmp (Sized_ops O) adm t l ->
    sz_len t = N.of_nat (length (nodup (key_dec OL) (keys l))).
  Proof.
    intros H. assert (Hc : covered (Sized_laws L) adm).
    { intros t' l' k [[H1 _] [H2 [H3 H4]]] Ha. apply (Hcov (sz_tree t') l' k); auto. split; auto. }
    apply (reached_repr OL (Sized_laws L) adm t l Hc) in H. assert (Hn := repr_nodup OL (Sized_laws L) t l H).
    rewrite nodup_fixed_point by exact Hn. unfold keys. rewrite map_length. rewrite <- (repr_len (Sized_laws L) t l H).
    apply H.
  Qed.
End SizedLen.
