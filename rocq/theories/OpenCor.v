(** A part that keeps its contract satisfies the laws, and a type built from lawful parts keeps the contract. *)
From Verif Require Import Base Ops Spec Hist CollSpec Lists Laws Types Coll Boxed SizedT Tree CollProofs BTreeProofs WrapProofs
  TreeProofs HistProofs TypesProofs CollCor KeyProofs HistCor Iter IterSpec IterProofs Open Fits FitsCor.

(** *** Trees *)
Section FromTree.
  Context {B : Build} {K V : Type} {cmp : K -> K -> comparison} (OL : OrdLaws cmp) {O : VebOps K V} (TC : TreeContract cmp O).
  Notation inv := (tc_inv TC).
  Notation abs := (tc_abs TC).
  Notation yes := (fun _ : vt O => True).
  Implicit Types (t : vt O).

  Lemma tc_nodup t : inv t -> NoDup (keys (abs t)).
  Proof. intros H. apply (asc_nodup OL). apply tc_ascending. exact H. Qed.
  (** calls other than insertions *)
  Lemma tc_call c t : inv t -> (forall k v, c <> Insert k v) ->
    exists ot, step O c (Some t) = Ret (ot, snd (sp_step cmp c (abs t))) /\
      match ot with
      | Some t' => inv t' /\ abs t' = fst (sp_step cmp c (abs t))
      | None => fst (sp_step cmp c (abs t)) = []
      end.
  Proof. intros H Hc. apply tc_step; auto. intros k v E. elim (Hc k v E). Qed.
  Lemma tc_min t : inv t -> exists p, v_min_val O t = Ret p /\ sp_min (abs t) = Some p.
  Proof.
    intros H. destruct (tc_call Min t H ltac:(discriminate)) as [ot [E _]]. cbn in E. unfold query1 in E.
    destruct (v_min_val O t) as [p|]; [|discriminate]. cbn in E. injection E as _ E. eauto.
  Qed.
  Lemma tc_max t : inv t -> exists p, v_max_val O t = Ret p /\ sp_max (abs t) = Some p.
  Proof.
    intros H. destruct (tc_call Max t H ltac:(discriminate)) as [ot [E _]]. cbn in E. unfold query1 in E.
    destruct (v_max_val O t) as [p|]; [|discriminate]. cbn in E. injection E as _ E. eauto.
  Qed.
  Lemma tc_find t k : inv t -> v_find O t k = Ret (sp_find cmp k (abs t)).
  Proof.
    intros H. destruct (tc_call (Find k) t H ltac:(discriminate)) as [ot [E _]]. cbn in E. unfold query in E.
    destruct (v_find O t k) as [p|]; [|discriminate]. cbn in E. injection E as _ E. congruence.
  Qed.
  Lemma tc_pred t k : inv t -> v_predecessor O t k = Ret (sp_pred cmp k (abs t)).
  Proof.
    intros H. destruct (tc_call (Pred k) t H ltac:(discriminate)) as [ot [E _]]. cbn in E. unfold query in E.
    destruct (v_predecessor O t k) as [p|]; [|discriminate]. cbn in E. injection E as _ E. congruence.
  Qed.
  Lemma tc_succ t k : inv t -> v_successor O t k = Ret (sp_succ cmp k (abs t)).
  Proof.
    intros H. destruct (tc_call (Succ k) t H ltac:(discriminate)) as [ot [E _]]. cbn in E. unfold query in E.
    destruct (v_successor O t k) as [p|]; [|discriminate]. cbn in E. injection E as _ E. congruence.
  Qed.

  (** a write leaves the list with the value overwritten *)
  Lemma tc_lens t p put : inv t -> In p (abs t) -> (forall w, inv (put w) /\ abs (put w) = sp_write cmp (fst p) w (abs t)) ->
    lens_ok inv yes abs t p put.
  Proof.
    intros H Hin Hw. destruct (in_split _ _ Hin) as [a [b E]]. exists (a ++ b).
    assert (HP : Permutation (abs t) (p :: a ++ b)) by (rewrite E; symmetry; apply Permutation_middle).
    split; auto. intros w. destruct (Hw w) as [H1 H2]. split; auto. split; auto. rewrite H2.
    apply (sp_write_perm OL); auto. apply tc_nodup. exact H.
  Qed.
  Lemma tc_mut t (c : V -> op K V) m i q : inv t -> (forall w, step O (c w) (Some t) = write O m w t) ->
    (forall w, sp_step cmp (c w) (abs t) = sp_mut cmp q w (abs t)) -> (forall w k v, c w <> Insert k v) -> V ->
    i = Ret q -> (forall p, q = Some p -> In p (abs t)) -> mut_ok inv yes abs t (m t) i.
  Proof.
    intros H Hs Hsp Hc w0 Hi Hin.
    assert (Hw : forall w, exists ot, write O m w t = Ret (ot, OP q) /\
      match ot with
      | Some t' => inv t' /\ abs t' = fst (sp_mut cmp q w (abs t))
      | None => fst (sp_mut cmp q w (abs t)) = []
      end).
    { intros w. destruct (tc_call (c w) t H (Hc w)) as [ot [E H']]. rewrite Hs, Hsp in E. rewrite Hsp in H'. eauto. }
    unfold write in Hw. destruct (m t) as [o|].
    2:{ destruct (Hw w0) as [ot [E _]]. discriminate E. }
    cbn [bind] in Hw. exists o. split; auto. destruct o as [[p put]|].
    - destruct (Hw w0) as [ot [E _]]. assert (q = Some p) by congruence. subst q. split; auto.
      intros p' put' E'. injection E' as <- <-. apply tc_lens; auto. intros w. destruct (Hw w) as [ot' [E1 H1]].
      injection E1 as <-. exact H1.
    - destruct (Hw w0) as [ot [E _]]. assert (q = None) by congruence. subst q. split; auto. discriminate.
  Qed.
  Lemma tc_mut1 t (c : V -> op K V) m i q : inv t -> (forall w, step O (c w) (Some t) = write1 O m w t) ->
    (forall w, sp_step cmp (c w) (abs t) = sp_mut cmp (Some q) w (abs t)) -> (forall w k v, c w <> Insert k v) -> V ->
    i = Ret q -> In q (abs t) -> mut1_ok inv yes abs t (m t) i.
  Proof.
    intros H Hs Hsp Hc w0 Hi Hin.
    assert (Hw : forall w, exists ot, write1 O m w t = Ret (ot, OP (Some q)) /\
      match ot with
      | Some t' => inv t' /\ abs t' = sp_write cmp (fst q) w (abs t)
      | None => sp_write cmp (fst q) w (abs t) = []
      end).
    { intros w. destruct (tc_call (c w) t H (Hc w)) as [ot [E H']]. rewrite Hs, Hsp in E. rewrite Hsp in H'. eauto. }
    unfold write1 in Hw. destruct (m t) as [[p put]|].
    2:{ destruct (Hw w0) as [ot [E _]]. discriminate E. }
    cbn [bind] in Hw. destruct (Hw w0) as [ot [E _]]. assert (p = q) by congruence. subst p.
    exists q, put. split; auto. split; auto. apply tc_lens; auto. intros w. destruct (Hw w) as [ot' [E1 H1]].
    injection E1 as <-. exact H1.
  Qed.

  Lemma tc_value t : inv t -> V.
  Proof. intros H. destruct (abs t) as [|p l] eqn:E; [elim (tc_nonempty TC t H E)|exact (snd p)]. Qed.
  Lemma sp_find_in k (l : list (K * V)) p : sp_find cmp k l = Some p -> In p l /\ fst p = k.
  Proof. intros E. apply find_some in E. destruct E as [E1 E2]. split; auto. apply (eqb_eq OL). exact E2. Qed.
  Lemma sp_pred_in k (l : list (K * V)) p : sp_pred cmp k l = Some p -> In p l.
  Proof. intros E. apply last_error_in in E. destruct E as [a E]. apply (filter_In (fun q => ltb cmp (fst q) k)). unfold below in E. rewrite E. apply in_app_iff. cbn. auto. Qed.
  Lemma sp_succ_in k (l : list (K * V)) p : sp_succ cmp k l = Some p -> In p l.
  Proof.
    unfold sp_succ, above. destruct (filter _ l) as [|q r] eqn:E; [discriminate|]. cbn. intros E'. injection E' as ->.
    apply (filter_In (fun q => ltb cmp k (fst q))). rewrite E. left. auto.
  Qed.
  Lemma sp_min_in (l : list (K * V)) p : sp_min l = Some p -> In p l.
  Proof. destruct l; [discriminate|]. cbn. intros E. injection E as ->. auto. Qed.
  Lemma sp_max_in (l : list (K * V)) p : sp_max l = Some p -> In p l.
  Proof. intros E. apply last_error_in in E. destruct E as [a ->]. apply in_app_iff. cbn. auto. Qed.

  Lemma sp_pred_facts k (l : list (K * V)) : ascending cmp l ->
    match sp_pred cmp k l with
    | Some p => In p l /\ (True -> cmp (fst p) k = Lt /\ forall q, In q l -> cmp (fst q) k = Lt -> cmp (fst q) (fst p) <> Gt)
    | None => True -> forall q, In q l -> cmp (fst q) k <> Lt
    end.
  Proof.
    intros Ha. destruct (sp_pred cmp k l) as [p|] eqn:E.
    - split; [exact (sp_pred_in _ _ _ E)|]. intros _. unfold sp_pred in E. apply last_error_in in E. destruct E as [a E].
      assert (Hb := asc_filter (fun q => ltb cmp (fst q) k) l Ha). fold (below cmp k l) in Hb. rewrite E in Hb.
      assert (Hf : forall q, In q (a ++ [p]) <-> In q l /\ ltb cmp (fst q) k = true).
      { intros q. rewrite <- E. apply filter_In. }
      split.
      + apply (ltb_lt (cmp := cmp)). apply Hf. apply in_app_iff. cbn. auto.
      + intros q Hq Hk. assert (Hin : In q (a ++ [p])) by (apply Hf; split; auto; apply (ltb_lt (cmp := cmp)); auto).
        apply asc_app in Hb. destruct Hb as [_ [_ Hb]]. apply in_app_iff in Hin. destruct Hin as [Hin|[<-|[]]].
        * rewrite (Hb q p Hin (or_introl eq_refl)). discriminate.
        * rewrite (cmp_refl OL). discriminate.
    - intros _ q Hq Hk. unfold sp_pred in E. assert (Hin : In q (below cmp k l)) by (apply filter_In; split; auto; apply (ltb_lt (cmp := cmp)); auto).
      destruct (below cmp k l) as [|x r _] using rev_ind; [exact Hin|]. rewrite last_error_app in E. discriminate.
  Qed.
  Lemma sp_succ_facts k (l : list (K * V)) : ascending cmp l ->
    match sp_succ cmp k l with
    | Some p => In p l /\ (True -> cmp k (fst p) = Lt /\ forall q, In q l -> cmp k (fst q) = Lt -> cmp (fst p) (fst q) <> Gt)
    | None => True -> forall q, In q l -> cmp k (fst q) <> Lt
    end.
  Proof.
    intros Ha. destruct (sp_succ cmp k l) as [p|] eqn:E.
    - split; [exact (sp_succ_in _ _ _ E)|]. intros _. unfold sp_succ in E. destruct (above cmp k l) as [|x a] eqn:Eb; [discriminate|].
      cbn in E. injection E as ->.
      assert (Hb := asc_filter (fun q => ltb cmp k (fst q)) l Ha). fold (above cmp k l) in Hb. rewrite Eb in Hb.
      assert (Hf : forall q, In q (p :: a) <-> In q l /\ ltb cmp k (fst q) = true).
      { intros q. rewrite <- Eb. apply filter_In. }
      split.
      + apply (ltb_lt (cmp := cmp)). apply Hf. left. auto.
      + intros q Hq Hk. assert (Hin : In q (p :: a)) by (apply Hf; split; auto; apply (ltb_lt (cmp := cmp)); auto).
        apply asc_cons in Hb. destruct Hb as [_ Hb]. destruct Hin as [<-|Hin].
        * rewrite (cmp_refl OL). discriminate.
        * rewrite (Hb q Hin). discriminate.
    - intros _ q Hq Hk. unfold sp_succ in E. assert (Hin : In q (above cmp k l)) by (apply filter_In; split; auto; apply (ltb_lt (cmp := cmp)); auto).
      destruct (above cmp k l); [exact Hin|discriminate].
  Qed.

  (** what a removal leaves *)
  Lemma tc_taken t p ot (l : list (K * V)) : inv t -> Permutation (abs t) (p :: l) ->
    match ot with Some t' => inv t' /\ abs t' = l | None => l = [] end -> taken inv yes abs t p ot.
  Proof.
    intros H HP Ho. destruct ot as [t'|]; cbn.
    - destruct Ho as [H1 <-]. auto.
    - subst l. symmetry in HP. apply Permutation_length_1_inv in HP. exact HP.
  Qed.

  Definition user_laws : VebLaws cmp O.
  Proof.
    refine {| winv := inv; ents := abs; ord := yes; safe := fun _ _ => True |}.
    - apply tc_nonempty.
    - intros t H _. apply tc_nodup. exact H.
    - auto.
    - auto.
    - intros k v. destruct (tc_from_monad TC k v). auto.
    - intros t H. destruct (tc_call IsMonad t H ltac:(discriminate)) as [ot [E _]]. cbn in E.
      destruct (v_is_monad O t); [|discriminate]. cbn in E. injection E as _ E. congruence.
    - apply tc_len_hint.
    - intros t H. destruct (tc_call IntoMonad t H ltac:(discriminate)) as [ot [E H']].
      assert (Hn := tc_nonempty TC t H). assert (He := tc_into_err TC t). cbn [step sp_step] in E, H'.
      destruct (v_into_monad O t) as [[p|t']|]; [| |discriminate]; cbn [bind] in E.
      + left. exists p. split; auto. destruct (abs t) as [|q [|q' l]]; cbn in E; congruence.
      + right. rewrite (He t' H eq_refl) in *. split; auto. destruct (abs t) as [|q [|q' l]]; cbn in E |- *; congruence.
    - intros t H. destruct (tc_min t H) as [p [E Ep]]. exists p. split; auto. split; [apply sp_min_in; auto|].
      intros _ q Hq. assert (Ha := tc_ascending TC t H). destruct (abs t) as [|p' l]; [discriminate|]. injection Ep as ->.
      destruct Hq as [<-|Hq].
      + rewrite (cmp_refl OL). discriminate.
      + apply asc_cons in Ha. destruct Ha as [_ Ha]. rewrite (Ha q Hq). discriminate.
    - intros t H. destruct (tc_max t H) as [p [E Ep]]. exists p. split; auto. split; [apply sp_max_in; auto|].
      intros _ q Hq. assert (Ha := tc_ascending TC t H). apply last_error_in in Ep. destruct Ep as [a Ea]. rewrite Ea in *.
      apply asc_app in Ha. destruct Ha as [_ [_ Ha]]. apply in_app_iff in Hq. destruct Hq as [Hq|[<-|[]]].
      + rewrite (Ha q p Hq (or_introl eq_refl)). discriminate.
      + rewrite (cmp_refl OL). discriminate.
    - intros t k H. rewrite (tc_find t k H). eexists. split; [reflexivity|]. destruct (sp_find cmp k (abs t)) as [p|] eqn:E.
      + apply sp_find_in. exact E.
      + intros _ Hin. apply in_map_iff in Hin. destruct Hin as [q [<- Hq]]. apply (find_none _ _ E) in Hq. cbn in Hq.
        rewrite (proj2 (eqb_eq OL _ _) eq_refl) in Hq. discriminate.
    - intros t k H. rewrite (tc_pred t k H). eexists. split; [reflexivity|]. apply sp_pred_facts. apply tc_ascending. exact H.
    - intros t k H. rewrite (tc_succ t k H). eexists. split; [reflexivity|]. apply sp_succ_facts. apply tc_ascending. exact H.
    - intros t H. destruct (tc_min t H) as [p [E Ep]].
      apply (tc_mut1 t MinMut (v_min_val_mut O) _ p); auto; try discriminate.
      + intros w. cbn. rewrite Ep. reflexivity.
      + exact (tc_value t H).
      + apply sp_min_in. exact Ep.
    - intros t H. destruct (tc_max t H) as [p [E Ep]].
      apply (tc_mut1 t MaxMut (v_max_val_mut O) _ p); auto; try discriminate.
      + intros w. cbn. rewrite Ep. reflexivity.
      + exact (tc_value t H).
      + apply sp_max_in. exact Ep.
    - intros t k H. apply (tc_mut t (FindMut k) (fun t => v_find_mut O t k) _ (sp_find cmp k (abs t))); auto; try discriminate.
      + exact (tc_value t H).
      + apply tc_find. exact H.
      + intros p E. apply (sp_find_in k). exact E.
    - intros t k H. apply (tc_mut t (PredMut k) (fun t => v_predecessor_mut O t k) _ (sp_pred cmp k (abs t))); auto; try discriminate.
      + exact (tc_value t H).
      + apply tc_pred. exact H.
      + intros p E. apply (sp_pred_in k). exact E.
    - intros t k H. apply (tc_mut t (SuccMut k) (fun t => v_successor_mut O t k) _ (sp_succ cmp k (abs t))); auto; try discriminate.
      + exact (tc_value t H).
      + apply tc_succ. exact H.
      + intros p E. apply (sp_succ_in k). exact E.
    - intros t k v H Hl. destruct (tc_step TC (Insert k v) t H) as [ot [E H']]; [intros; exact Hl|].
      cbn [step sp_step fst snd] in E, H'. destruct (v_insert O t k v) as [[t' r]|]; [|discriminate]. cbn [bind] in E.
      injection E as <- ->. destruct H' as [H1 H2]. exists t', (sp_find cmp k (abs t)). split; auto. split; auto. split.
      + rewrite H2. destruct (sp_find cmp k (abs t)) as [q|] eqn:Ef.
        * destruct (sp_find_in _ _ _ Ef) as [Hq Hk]. destruct (in_split _ _ Hq) as [a [b Eab]]. exists (a ++ b).
          assert (HP : Permutation (abs t) (q :: a ++ b)) by (rewrite Eab; symmetry; apply Permutation_middle).
          split; auto. rewrite <- Hk. apply (sp_insert_perm_old OL q); auto. apply tc_nodup. exact H.
        * apply (sp_insert_perm_new OL). intros Hin. apply in_map_iff in Hin. destruct Hin as [q [<- Hq]].
          apply (find_none _ _ Ef) in Hq. cbn in Hq. rewrite (proj2 (eqb_eq OL _ _) eq_refl) in Hq. discriminate.
      + split; auto. intros _ Hin. apply (sp_find_none OL). exact Hin.
    - intros t k H. destruct (tc_call (Remove k) t H ltac:(discriminate)) as [ot [E H']].
      assert (He := tc_remove_err TC t k). cbn [step sp_step fst snd] in E, H'.
      destruct (v_remove O t k) as [[[ot' p]|t']|]; [| |discriminate]; cbn [bind] in E.
      + injection E as -> Ef. left. exists ot, p. split; auto. symmetry in Ef. destruct (sp_find_in _ _ _ Ef) as [Hq Hk]. split; auto.
        apply (tc_taken t p ot (sp_remove cmp k (abs t))); auto. destruct (in_split _ _ Hq) as [a [b Eab]].
        assert (HP : Permutation (abs t) (p :: a ++ b)) by (rewrite Eab; symmetry; apply Permutation_middle).
        transitivity (p :: a ++ b); auto. constructor. symmetry. rewrite <- Hk. apply (sp_remove_perm OL); auto. apply tc_nodup. exact H.
      + right. rewrite (He t' H eq_refl). split; auto. injection E as _ Ef. intros Hin.
        apply in_map_iff in Hin. destruct Hin as [q [<- Hq]]. symmetry in Ef. apply (find_none _ _ Ef) in Hq. cbn in Hq.
        rewrite (proj2 (eqb_eq OL _ _) eq_refl) in Hq. discriminate.
    - intros t H. destruct (tc_call RemoveMin t H ltac:(discriminate)) as [ot [E H']]. destruct (tc_min t H) as [p [Ep Sp]].
      cbn [step sp_step fst snd] in E, H'. destruct (v_remove_min O t) as [[ot' p']|]; [|discriminate]. cbn [bind] in E.
      injection E as -> Ef. assert (p' = p) by congruence. subst p'. exists ot, p. split; auto. split; auto.
      apply (tc_taken t p ot (tl (abs t))); auto. destruct (abs t); [discriminate|]. cbn in Sp. injection Sp as ->. auto.
    - intros t H. destruct (tc_call RemoveMax t H ltac:(discriminate)) as [ot [E H']]. destruct (tc_max t H) as [p [Ep Sp]].
      cbn [step sp_step fst snd] in E, H'. destruct (v_remove_max O t) as [[ot' p']|]; [|discriminate]. cbn [bind] in E.
      injection E as -> Ef. assert (p' = p) by congruence. subst p'. exists ot, p. split; auto. split; auto.
      apply (tc_taken t p ot (removelast (abs t))); auto. apply last_error_in in Sp. destruct Sp as [a ->].
      rewrite removelast_app1. symmetry. apply Permutation_cons_append.
  Defined.
End FromTree.

(** *** Collections *)
Section FromColl.
  Context {Hi Lo V : Type} {Tr : VebOps Lo V} {C : CollOps Hi Lo V Tr} (deq : Hi -> Hi -> bool)
          (Hdeq : forall a b, deq a b = true <-> a = b) (CC : CollContract deq C).
  Notation inv := (cc_inv CC).
  Notation abs := (cc_abs CC).
  Notation T := (vt Tr).
  Implicit Types (c : ct C).

  Lemma cc_get_some c h t : inv c -> (m_get deq (abs c) h = Some t <-> In (h, t) (abs c)).
  Proof. intros H. apply (m_get_some deq Hdeq). apply cc_nodup. exact H. Qed.
  Lemma cc_get_none c h : m_get deq (abs c) h = None <-> ~ In h (map fst (abs c)).
  Proof. apply (m_get_none deq Hdeq). Qed.
  Lemma cc_rest c h (t : T) : inv c -> In (h, t) (abs c) -> exists rest, Permutation (abs c) ((h, t) :: rest) /\
    forall o, Permutation (m_set deq (abs c) h o) (match o with Some t' => (h, t') :: rest | None => rest end).
  Proof.
    intros H Hin. destruct (in_split _ _ Hin) as [a [b E]]. exists (a ++ b).
    assert (HP : Permutation (abs c) ((h, t) :: a ++ b)) by (rewrite E; symmetry; apply Permutation_middle).
    split; auto. intros o. apply (m_set_perm deq Hdeq (abs c) h t); auto. apply cc_nodup. exact H.
  Qed.
  Lemma m_set_new (m : list (Hi * T)) h t : ~ In h (map fst m) -> m_set deq m h (Some t) = (h, t) :: m.
  Proof. intros H. unfold m_set. rewrite (filter_absent deq Hdeq) by auto. reflexivity. Qed.
  (** a collection that is there is a list that is not empty *)
  Lemma ne_step {A} (m : list (Hi * T)) (a b : A) : m <> [] -> match m with [] => a | _ => b end = b.
  Proof. destruct m; congruence. Qed.

  Lemma cc_stored c h t ot oc : inv c -> In (h, t) (abs c) ->
    (match fst (split_left C oc) with
     | Some c' => inv c' /\ Permutation (abs c') (m_set deq (abs c) h ot)
     | None => m_set deq (abs c) h ot = []
     end) -> snd (split_left C oc) = m_left (m_set deq (abs c) h ot) ot ->
    stored inv abs c h t ot oc.
  Proof.
    intros H Hin H1 H2. destruct (cc_rest c h t H Hin) as [rest [HP Hr]]. specialize (Hr ot).
    destruct oc as [[c' b]|]; cbn in H1, H2.
    - destruct H1 as [H1 HP1]. assert (Hn := cc_nonempty CC c' H1). rewrite Hr in HP1.
      destruct ot as [t'|].
      + replace b with false; [cbn; eauto|]. destruct (m_set deq (abs c) h (Some t')); cbn in H2; congruence.
      + replace b with true.
        * cbn. split; auto. rewrite HP, HP1. auto.
        * destruct (m_set deq (abs c) h None); cbn in H2; [|congruence]. discriminate.
    - destruct ot as [t'|].
      + rewrite H1 in Hr. apply Permutation_nil in Hr. discriminate.
      + rewrite H1 in Hr. apply Permutation_nil in Hr. subst rest. exact HP.
  Qed.

  Definition user_coll_laws : CollLaws C.
  Proof.
    refine {| cinv := inv; cents := abs |}.
    - apply cc_nodup.
    - apply cc_nonempty.
    - intros h t. destruct (cc_create CC h t) as [c [E [H1 H2]]]. exists c. rewrite H2. auto.
    - intros c h H. assert (Hn := cc_nonempty CC c H).
      destruct (cc_step CC (CGet h) c (abs c) (COTree (m_get deq (abs c) h)) H) as [oc [E _]].
      { destruct (abs c); [congruence|reflexivity]. }
      cbn in E. destruct (c_get C c h) as [o|]; [|discriminate]. cbn in E. injection E as _ ->.
      exists (m_get deq (abs c) h). split; auto. destruct (m_get deq (abs c) h) as [t|] eqn:Em.
      + apply cc_get_some; auto.
      + apply cc_get_none. auto.
    - intros c h H. assert (Hn := cc_nonempty CC c H).
      destruct (cc_step CC (CGet h) c (abs c) (COTree (m_get deq (abs c) h)) H) as [oc [E _]].
      { destruct (abs c); [congruence|reflexivity]. }
      cbn in E. destruct (c_get C c h) as [o|]; [|discriminate]. cbn in E. injection E as _ ->.
      assert (Hs : forall t, exists oc, c_step C (CSet h t) (Some c) =
          Ret (oc, COTree (m_get deq (abs c) h)) /\
          match oc with
          | Some c' => inv c' /\ Permutation (abs c') (match m_get deq (abs c) h with Some _ => m_set deq (abs c) h (Some t) | None => abs c end)
          | None => match m_get deq (abs c) h with Some _ => m_set deq (abs c) h (Some t) | None => abs c end = []
          end).
      { intros t. apply (cc_step CC (CSet h t) c); auto. cbn [m_step]. rewrite (ne_step _ _ _ Hn).
        destruct (m_get deq (abs c) h); reflexivity. }
      cbn [c_step] in Hs. assert (HT : T) by (destruct (abs c) as [|p r]; [congruence|exact (snd p)]).
      destruct (c_get_mut C c h) as [o|].
      2:{ destruct (Hs HT) as [oc' [E _]]. discriminate E. }
      exists o. split; auto. cbn [bind] in Hs. destruct o as [[t put]|]; cbn [omap option_map fst].
      + destruct (Hs HT) as [oc' [E _]]. assert (Em : m_get deq (abs c) h = Some t) by congruence. rewrite Em in *. split; auto.
        intros t' put' E'. injection E' as <- <-. apply cc_get_some in Em; auto. destruct (cc_rest c h t H Em) as [rest [HP Hr]].
        exists rest. split; auto. intros t'. destruct (Hs t') as [oc2 [E2 H2]]. injection E2 as <-. destruct H2 as [H2 H3].
        split; auto. rewrite H3. apply (Hr (Some t')).
      + destruct (Hs HT) as [oc' [E _]]. assert (Em : m_get deq (abs c) h = None) by congruence. rewrite Em. split; auto. discriminate.
    - intros c h [lo v] H Hin. apply cc_get_none in Hin. assert (Hn := cc_nonempty CC c H).
      destruct (cc_step CC (CInsert h (lo, v)) c (m_set deq (abs c) h (Some (v_from_monad Tr lo v))) (COInsert (Ok h)) H) as [oc [E H']].
      { cbn [m_step]. rewrite (ne_step _ _ _ Hn). rewrite Hin. reflexivity. }
      cbn [c_step] in E. destruct (c_insert_key C c h (lo, v)) as [[c' r]|]; [|discriminate]. cbn [bind] in E. injection E as <- ->.
      exists c'. split; auto. destruct H' as [H1 H2]. split; auto. rewrite H2, m_set_new; [reflexivity|]. apply cc_get_none. exact Hin.
    - intros c h [lo v] t t' r H Hin E1. assert (Em := Hin). apply cc_get_some in Em; auto. assert (Hn := cc_nonempty CC c H).
      destruct (cc_step CC (CInsert h (lo, v)) c (m_set deq (abs c) h (Some t')) (COInsert (Err (h, r))) H) as [oc [E H']].
      { cbn [m_step]. rewrite (ne_step _ _ _ Hn). rewrite Em. cbn in E1. rewrite E1. reflexivity. }
      cbn [c_step] in E. destruct (c_insert_key C c h (lo, v)) as [[c' r']|]; [|discriminate]. cbn [bind] in E. injection E as <- ->.
      destruct (cc_rest c h t H Hin) as [rest [HP Hr]]. exists c', rest. split; auto. destruct H' as [H1 H2]. split; auto. split; auto.
      rewrite H2. apply (Hr (Some t')).
    - intros c h f t ot p H Hin E1. assert (Em := Hin). apply cc_get_some in Em; auto. assert (Hn := cc_nonempty CC c H).
      destruct (cc_step CC (CRemove h f) c (m_set deq (abs c) h ot) (CORemoved (m_left (m_set deq (abs c) h ot) ot) p) H) as [oc [E H']].
      { cbn [m_step]. rewrite (ne_step _ _ _ Hn). rewrite Em, E1. reflexivity. }
      cbn [c_step] in E. destruct (c_remove_key C c h f) as [[oc' p']|]; [|discriminate]. cbn [bind] in E.
      assert (Hs := cc_stored c h t ot oc' H Hin). destruct (split_left C oc') as [c' b]. injection E as -> -> ->.
      exists oc'. split; auto.
    - intros c h f H Hin. apply cc_get_none in Hin. assert (Hn := cc_nonempty CC c H).
      destruct (cc_step CC (CMaybe h f) c (abs c) COKept H) as [oc [E H']].
      { cbn [m_step]. rewrite (ne_step _ _ _ Hn). rewrite Hin. reflexivity. }
      assert (He := cc_maybe_err CC c h f). cbn [c_step] in E. destruct (c_maybe_remove_key C c h f) as [[[oc' p]|c']|]; [| |discriminate]; cbn [bind] in E.
      + destruct (split_left C oc'). discriminate E.
      + rewrite (He c' H); auto. rewrite Hin. discriminate.
    - intros c h f t t' H Hin E1. assert (Em := Hin). apply cc_get_some in Em; auto. assert (Hn := cc_nonempty CC c H).
      destruct (cc_step CC (CMaybe h f) c (m_set deq (abs c) h (Some t')) COKept H) as [oc [E H']].
      { cbn [m_step]. rewrite (ne_step _ _ _ Hn). rewrite Em, E1. reflexivity. }
      assert (He := cc_maybe_err CC c h f). cbn [c_step] in E. destruct (c_maybe_remove_key C c h f) as [[[oc' p]|c']|]; [| |discriminate]; cbn [bind] in E.
      + destruct (split_left C oc'). discriminate E.
      + injection E as <-. destruct H' as [H1 H2]. destruct (cc_rest c h t H Hin) as [rest [HP Hr]]. exists c', rest.
        split; auto. split; auto. split; auto. split; [rewrite H2; apply (Hr (Some t'))|]. intros ->. apply He; auto.
        intros t0 E0. congruence.
    - intros c h f t ot p H Hin E1. assert (Em := Hin). apply cc_get_some in Em; auto. assert (Hn := cc_nonempty CC c H).
      destruct (cc_step CC (CMaybe h f) c (m_set deq (abs c) h ot) (CORemoved (m_left (m_set deq (abs c) h ot) ot) p) H) as [oc [E H']].
      { cbn [m_step]. rewrite (ne_step _ _ _ Hn). rewrite Em, E1. reflexivity. }
      cbn [c_step] in E. destruct (c_maybe_remove_key C c h f) as [[[oc' p']|c']|]; [| |discriminate]; cbn [bind] in E; [|discriminate].
      assert (Hs := cc_stored c h t ot oc' H Hin). destruct (split_left C oc') as [c' b]. injection E as -> -> ->.
      exists oc'. split; auto.
    - intros c h lv t H Hin E. apply (cc_insert_panic CC c h t); auto. apply cc_get_some; auto.
    - intros c h f t H Hin E. apply (cc_remove_panic CC c h t); auto. apply cc_get_some; auto.
    - intros c h f t H Hin E. apply (cc_maybe_panic CC c h t); auto. apply cc_get_some; auto.
  Defined.
End FromColl.

(** *** From the laws back to the contracts *)
Section ToTree.
  Context {B : Build} {K V : Type} {cmp : K -> K -> comparison} (OL : OrdLaws cmp) {O : VebOps K V} (L : VebLaws cmp O)
          (Hs : forall t k, safe L t k).
  Definition sorted_of (l : list (K * V)) : list (K * V) := fold_right (fun p s => sp_insert cmp (fst p) (snd p) s) [] l.
  Lemma sorted_of_asc l : ascending cmp (sorted_of l).
  Proof. induction l as [|p l IH]; cbn; [apply asc_nil|]. apply (sp_insert_asc OL). exact IH. Qed.
  Lemma sorted_of_perm l : NoDup (keys l) -> Permutation (sorted_of l) l.
  Proof.
    induction l as [|p l IH]; cbn; intros Hn; auto. apply NoDup_cons_iff in Hn. destruct Hn as [H1 H2]. specialize (IH H2).
    rewrite (sp_insert_perm_new OL).
    - destruct p. cbn. constructor. exact IH.
    - intros Hin. apply H1. eapply Permutation_in; [|exact Hin]. apply keys_perm. exact IH.
  Qed.
  Definition sabs (t : vt O) : list (K * V) := sorted_of (ents L t).
  Lemma sabs_repr t : winv L t /\ ord L t -> repr L t (sabs t).
  Proof.
    intros [H1 H2]. split; auto. split; auto. split; [apply sorted_of_asc|]. apply sorted_of_perm. apply L_nodup; auto.
  Qed.
  Lemma repr_sabs t l : repr L t l -> sabs t = l.
  Proof.
    intros H. apply (asc_perm_eq OL); [apply sorted_of_asc|apply H|]. transitivity (ents L t).
    - apply sorted_of_perm. apply L_nodup; apply H.
    - symmetry. apply H.
  Qed.
  Definition lawful_contract : TreeContract cmp O.
  Proof.
    refine {| tc_inv := fun t => winv L t /\ ord L t; tc_abs := sabs |}.
    - intros t _. apply sorted_of_asc.
    - intros t H. apply (repr_ne L t). apply sabs_repr. exact H.
    - intros k v. assert (H := repr_from L k v). split; [split; apply H|]. apply repr_sabs. exact H.
    - intros c t H Hl. destruct (step_refines OL L adm_any c (Some t) (sabs t)) as [ot [E H']].
      + apply covered_any. exact Hs.
      + apply sabs_repr. exact H.
      + destruct c; auto. split; [exact I|]. eauto.
      + exists ot. split; auto. destruct ot as [t'|]; cbn in H'; auto. split; [split; apply H'|]. apply repr_sabs. exact H'.
    - intros t t' H E. rewrite (repr_into_monad L t (sabs t) (sabs_repr t H)) in E. destruct (sabs t) as [|p [|q l]]; congruence.
    - intros t k t' H E. assert (Hr := repr_remove OL L t (sabs t) k (sabs_repr t H)). destruct (sp_find cmp k (sabs t)) as [p|].
      + destruct Hr as [ot [E' _]]. congruence.
      + destruct Hr as [E' _]. congruence.
    - intros t H. rewrite <- (repr_len L t (sabs t) (sabs_repr t H)). apply L_len_hint. apply H.
  Defined.
End ToTree.

Section ToColl.
  Context {Hi Lo V : Type} {Tr : VebOps Lo V} {C : CollOps Hi Lo V Tr} (L : CollLaws C) (deq : Hi -> Hi -> bool)
          (Hdeq : forall a b, deq a b = true <-> a = b).
  Definition lawful_coll_contract : CollContract deq C.
  Proof.
    assert (Hrep : forall c, cinv L c -> crepr L c (cents L c)) by (intros; split; auto).
    refine {| cc_inv := cinv L; cc_abs := cents L |}.
    - apply C_nodup.
    - apply C_nonempty.
    - intros h t. destruct (C_create L h t) as [c [E [H1 H2]]]. exists c. split; auto. split; auto.
      symmetry in H2. apply Permutation_length_1_inv in H2. exact H2.
    - intros x c m o H E. destruct (c_step_ok L deq Hdeq x (Some c) (cents L c) m o (Hrep c H) E) as [oc [E' H']].
      exists oc. split; auto.
    - intros c h f c' H Hf E. destruct (m_get deq (cents L c) h) as [t|] eqn:Em.
      + assert (Hin := crepr_some L deq Hdeq c (cents L c) h t (Hrep c H) Em).
        destruct (C_maybe_err L c h f t t H Hin (Hf t eq_refl)) as [c2 [rest [E2 [_ [_ [_ E3]]]]]]. rewrite E2 in E. injection E as <-. auto.
      + rewrite (C_maybe_absent L c h f H (crepr_none L deq Hdeq c (cents L c) h (Hrep c H) Em)) in E. congruence.
    - intros c h t lv H Em E. exact (C_insert_panic L c h lv t H (crepr_some L deq Hdeq c (cents L c) h t (Hrep c H) Em) E).
    - intros c h t f H Em E. exact (C_remove_panic L c h f t H (crepr_some L deq Hdeq c (cents L c) h t (Hrep c H) Em) E).
    - intros c h t f H Em E. exact (C_maybe_panic L c h f t H (crepr_some L deq Hdeq c (cents L c) h t (Hrep c H) Em) E).
  Defined.
End ToColl.

(** *** Open types *)
Fixpoint open_coll_laws {B : Build} {Lo V} {Tr : VebOps Lo V} {Hi C} (CT : OpenColl Tr Hi C) : CollLaws C :=
  match CT in OpenColl _ Hi C return CollLaws C with
  | OC_user _ _ _ deq Hdeq CC => user_coll_laws deq Hdeq CC
  | OC_known _ _ _ CT' => coll_laws CT'
  | OC_Box _ _ _ CT' => Box_coll_laws (open_coll_laws CT')
  end.
Fixpoint open_laws {B : Build} {fixed K V cmp O} (T : OpenType fixed K V cmp O) : VebLaws cmp O :=
  match T in OpenType _ K V cmp O return VebLaws cmp O with
  | OT_user _ _ _ _ _ OL TC => user_laws OL TC
  | OT_known _ _ _ _ _ T' => type_laws T'
  | OT_Tree _ _ _ _ _ ko KL So Tr C TS TT CT => Tree_laws fixed KL (open_laws TS) (open_laws TT) (open_coll_laws CT)
  | OT_Box _ _ _ _ _ T' => Box_laws (open_laws T')
  | OT_Sized _ _ _ _ _ T' => Sized_laws (open_laws T')
  end.
Lemma open_ord {B : Build} {fixed K V cmp O} (T : OpenType fixed K V cmp O) : OrdLaws cmp.
Proof. induction T; auto. - exact (type_ord T). - apply KL_k. auto. Qed.
Lemma open_plain_safe {B : Build} {fixed K V cmp O} (T : OpenType fixed K V cmp O) :
  open_plain T = true -> forall t k, safe (open_laws T) t k.
Proof.
  induction T; intros H t k; cbn in H; try discriminate; try exact I.
  - apply plain_safe. exact H.
  - exact (IHT H (unbox t) k).
  - exact (IHT H (sz_tree t) k).
Qed.
Lemma open_fixed_safe {B : Build} {K V cmp O} (T : OpenType true K V cmp O) : forall t k, safe (open_laws T) t k.
Proof.
  induction T; intros t k; try exact I.
  - apply fixed_safe.
  - apply tr_safe_fixed; auto.
  - exact (IHT (unbox t) k).
  - exact (IHT (sz_tree t) k).
Qed.
Lemma open_fits_plain {B : Build} {fixed K V cmp O} (T : OpenType fixed K V cmp O) ks k : open_plain T = true -> open_fits T ks k = true.
Proof. induction T; cbn; auto; [|discriminate]. apply fits_plain. Qed.
Lemma open_fits_fixed {B : Build} {K V cmp O} (T : OpenType true K V cmp O) : forall ks k, open_fits T ks k = true.
Proof.
  induction T as [K V cmp O OL TC|K V cmp O T|K Hi Lo V ko KL S Tr C TS IHS TT IHT CT|K V cmp O T IH|K V cmp O T IH]; intros ks k; auto.
  - apply fits_fixed.
  - apply tree_fixed; auto.
  - apply IH.
  - apply IH.
Qed.
Lemma open_fits_shallow {B : Build} {fixed K V cmp O} (T : OpenType fixed K V cmp O) (l : list (K * V)) k :
  open_shallow T = true -> adm_above_min cmp l k -> open_fits T (keys l) k = true.
Proof.
  induction T as [K V cmp O OL TC|K V cmp O T|K Hi Lo V ko KL S Tr C TS IHS TT IHT CT|K V cmp O T IH|K V cmp O T IH]; intros Hs Ha; auto.
  - apply fits_shallow; auto.
  - cbn in Hs. apply andb_prop in Hs. destruct Hs. apply tree_above; auto; intros; apply open_fits_plain; auto.
  - apply IH; auto.
  - apply IH; auto.
Qed.
Lemma open_fits_ascending {B : Build} {fixed K V cmp O} (T : OpenType fixed K V cmp O) :
  forall (l : list (K * V)) k, ascending cmp l -> adm_ascending cmp l k -> open_fits T (keys l) k = true.
Proof.
  induction T as [K V cmp O OL TC|K V cmp O T|K Hi Lo V ko KL S Tr C TS IHS TT IHT CT|K V cmp O T IH|K V cmp O T IH]; intros l k Ha Hk; auto.
  - apply fits_ascending; auto.
  - apply (tree_asc KL (open_fits TS) (open_fits TT)); auto.
  - apply IH; auto.
  - apply IH; auto.
Qed.
Lemma OA_plain {B : Build} {fixed K V cmp O} (T : OpenType fixed K V cmp O) : open_plain T = true -> open_allowed T adm_any.
Proof. intros H l k _ _. apply open_fits_plain. auto. Qed.
Lemma OA_fixed {B : Build} {fixed K V cmp O} (T : OpenType fixed K V cmp O) : fixed = true -> open_allowed T adm_any.
Proof. intros -> l k _ _. apply open_fits_fixed. Qed.
Lemma OA_shallow {B : Build} {fixed K V cmp O} (T : OpenType fixed K V cmp O) : open_shallow T = true -> open_allowed T (adm_above_min cmp).
Proof. intros H l k _ Ha. apply open_fits_shallow; auto. Qed.
Lemma OA_ascending {B : Build} {fixed K V cmp O} (T : OpenType fixed K V cmp O) : open_allowed T (adm_ascending cmp).
Proof. intros l k. apply open_fits_ascending. Qed.
Lemma open_safe_fits {B : Build} {fixed K V cmp O} (T : OpenType fixed K V cmp O) t l k : repr (open_laws T) t l ->
  (safe (open_laws T) t k <-> open_fits T (keys l) k = true).
Proof.
  revert t l k. induction T as [K V cmp O OL TC|K V cmp O T|K Hi Lo V ko KL S Tr C TS IHS TT IHT CT|K V cmp O T IH|K V cmp O T IH]; intros t l k Hr.
  - split; intros _; [reflexivity|exact I].
  - apply safe_fits. exact Hr.
  - apply (tree_safe_fits fixed KL (open_laws TS) (open_laws TT) (open_coll_laws CT) (open_fits TS) (open_fits TT)); auto.
  - exact (IH (unbox t) l k Hr).
  - apply (IH (sz_tree t) l k). destruct Hr as [[H1 _] H2]. split; auto.
Qed.
Lemma open_allowed_covered {B : Build} {fixed K V cmp O} (T : OpenType fixed K V cmp O) adm :
  open_allowed T adm -> covered (open_laws T) adm.
Proof. intros Ha t l k Hr H. apply (open_safe_fits T t l k Hr). apply Ha; auto. apply Hr. Qed.
Lemma open_fits_nil {B : Build} {fixed K V cmp O} (T : OpenType fixed K V cmp O) k : open_fits T [] k = true.
Proof. induction T; try reflexivity; [apply fits_nil|apply IHT|apply IHT]. Qed.
Lemma open_unfit_wrong {B : Build} {K V cmp O} (T : OpenType false K V cmp O) t l k v t' r : repr (open_laws T) t l ->
  (N.of_nat (length (ents (open_laws T) t)) < usize_max)%N -> open_fits T (keys l) k = false -> v_insert O t k v = Ret (t', r) ->
  misses cmp O t' l (sp_insert cmp k v l).
Proof.
  revert t l k v t' r. induction T as [K V cmp O OL TC|K V cmp O T|K Hi Lo V ko KL S Tr C TS IHS TT IHT CT|K V cmp O T IH|K V cmp O T IH];
    intros t l k v t' r Hr Hlen Hf E.
  - discriminate Hf.
  - apply (unfit_wrong T t l k v t' r); auto.
  - apply (tree_wrong false KL (open_laws TS) (open_laws TT) (open_coll_laws CT) (open_fits TS) (open_fits TT)) with t r; auto.
    intros s ls h. apply IHS.
  - apply (box_misses O t l k v t' r); auto. intros t1 r1. apply IH; auto.
  - apply (sized_misses O t l k v t' r); auto. intros t1 r1. apply IH; auto. destruct Hr as [[H1 _] H2]. split; auto.
Qed.
Lemma open_conditions {B : Build} {fixed K V cmp O} (T : OpenType fixed K V cmp O) (l : list (K * V)) k : ascending cmp l ->
  (open_plain T = true \/ fixed = true -> open_fits T (keys l) k = true) /\
  (open_shallow T = true -> adm_above_min cmp l k -> open_fits T (keys l) k = true) /\
  (adm_ascending cmp l k -> open_fits T (keys l) k = true).
Proof.
  intros Ha. split; [|split].
  - intros [H|H]; [apply open_fits_plain; auto|subst fixed; apply open_fits_fixed].
  - apply open_fits_shallow.
  - apply open_fits_ascending. auto.
Qed.
Section OfOpen.
  Context {B : Build} {K V : Type} {cmp : K -> K -> comparison} {O : VebOps K V} (T : OpenType false K V cmp O).
  Definition open_exact := test_exact (open_ord T) (open_laws T) (open_fits T) (open_safe_fits T) (open_unfit_wrong T).
  Definition open_exactly := test_exactly (open_ord T) (open_laws T) (open_fits T) (open_safe_fits T) (open_unfit_wrong T) (open_fits_nil T).
End OfOpen.
Lemma plain_contract {B : Build} {fixed K V cmp O} (T : VebType fixed K V cmp O) : plain T = true -> inhabited (TreeContract cmp O).
Proof. intros H. constructor. exact (lawful_contract (type_ord T) (type_laws T) (plain_safe T H)). Qed.
Lemma open_contract {B : Build} {fixed K V cmp O} (T : OpenType fixed K V cmp O) :
  open_plain T = true \/ fixed = true -> inhabited (TreeContract cmp O).
Proof.
  intros H. constructor. apply (lawful_contract (open_ord T) (open_laws T)). destruct H as [H|H].
  - apply open_plain_safe. exact H.
  - subst fixed. apply open_fixed_safe.
Qed.
Lemma tree_contract {B : Build} {K Hi Lo V : Type} (ko : KeyOps K Hi Lo) (S : VebOps Hi unit) (Tr : VebOps Lo V) (C : CollOps Hi Lo V Tr) deq :
  KeyLaws ko -> TreeContract (hi_cmp ko) S -> TreeContract (lo_cmp ko) Tr -> (forall a b, deq a b = true <-> a = b) -> CollContract deq C ->
  inhabited (TreeContract (k_cmp ko) (Tree_ops true ko S Tr C)).
Proof.
  intros KL TS TT Hd CC.
  apply (open_contract (OT_Tree true _ _ _ _ ko KL S Tr C (OT_user true _ _ _ S (KL_hi KL) TS) (OT_user true _ _ _ Tr (KL_lo KL) TT)
    (OC_user Tr _ C deq Hd CC))). right. reflexivity.
Qed.
Lemma coll_contract {B : Build} {Lo V} {Tr : VebOps Lo V} {Hi C} (CT : CollType Tr Hi C) deq : (forall a b, deq a b = true <-> a = b) ->
  inhabited (CollContract deq C).
Proof. intros Hd. constructor. exact (lawful_coll_contract (coll_laws CT) deq Hd). Qed.

(** *** Iteration *)
Lemma iter_deque_hint {B : Build} {K V cmp} (OL : OrdLaws cmp) {O : VebOps K V} (L : VebLaws cmp O) {adm} (Hcov : covered L adm) t l dirs :
  reached cmp O adm t l -> exists it lo hi, it_run O (eqb cmp) t dirs it_new = Ret (it, fst (sp_pops dirs l)) /\
    it_size_hint O t it = Ret (lo, hi) /\ (lo <= N.of_nat (length (snd (sp_pops dirs l))))%N /\
    (forall h, hi = Some h -> (N.of_nat (length (snd (sp_pops dirs l))) <= h)%N).
Proof.
  intros H. destruct (iter_deque OL L Hcov t l dirs H) as [it E]. destruct (iter_hint OL L Hcov t l dirs it _ H E) as [lo [hi H']]. eauto.
Qed.

(** *** The examples of Open.v keep their contracts *)
Lemma sv_last_app {K V} (l : list (K * V)) p : sv_last (l ++ [p]) = Ret p.
Proof. unfold sv_last. rewrite last_error_app. reflexivity. Qed.
Definition SortedVec_contract {B : Build} {K V} (cmp : K -> K -> comparison) (OL : OrdLaws cmp) : TreeContract cmp (@SortedVec_ops K V cmp).
Proof.
  refine {| tc_inv := fun l : vt (SortedVec_ops cmp) => ascending cmp l /\ l <> []; tc_abs := fun l : vt (SortedVec_ops cmp) => l |}.
  - intros t H. apply H.
  - intros t H. apply H.
  - intros k v. split; [|reflexivity]. split; [|discriminate]. apply asc_cons. split; [apply asc_nil|]. intros q [].
  - intros c t [Ha Hn] _.
    assert (Hw : forall k w, ascending cmp (sp_write cmp k w t) /\ sp_write cmp k w t <> []).
    { intros k w. split; [apply sp_write_asc; exact Ha|]. destruct t; [congruence|discriminate]. }
    assert (Hso : forall l : list (K * V), ascending cmp l -> match sv_some l with
        | Some t' => (ascending cmp t' /\ t' <> []) /\ t' = l | None => l = [] end).
    { intros l Hl. destruct l; cbn; auto. split; auto. split; auto. discriminate. }
    destruct t as [|p0 t0]; [congruence|]. remember (p0 :: t0) as t eqn:Et.
    assert (Hlast : exists a q, t = a ++ [q]).
    { destruct t as [|x r _] using rev_ind; [congruence|]. eauto. }
    destruct Hlast as [a [q Eq]].
    assert (Emx : sp_max t = Some q) by (rewrite Eq; apply last_error_app).
    assert (Elast : sv_last t = Ret q) by (rewrite Eq; apply sv_last_app).
    assert (Efirst : sv_first t = Ret p0) by (rewrite Et; reflexivity).
    assert (Emn : sp_min t = Some p0) by (rewrite Et; reflexivity).
    destruct c; cbn [step sp_step v_insert v_remove v_remove_min v_remove_max v_into_monad v_is_monad v_min_val v_max_val v_find v_predecessor
      v_successor v_min_val_mut v_max_val_mut v_find_mut v_predecessor_mut v_successor_mut SortedVec_ops]; unfold query, query1, write, write1, sp_mut;
      rewrite ?Efirst, ?Elast, ?Emn, ?Emx; cbn [bind fst snd].
    + eexists. split; [reflexivity|]. cbn. split; auto. split; [apply (sp_insert_asc OL); exact Ha|]. unfold sp_insert. destruct (below cmp k t); discriminate.
    + destruct (sp_find cmp k t) as [p|] eqn:Ef.
      * eexists. split; [reflexivity|]. apply Hso. apply (sp_remove_asc OL). exact Ha.
      * eexists. split; [reflexivity|]. cbn. split; auto. symmetry. apply (sp_remove_fresh OL); auto. intros Hin.
        apply in_map_iff in Hin. destruct Hin as [x [<- Hx]]. apply (find_none _ _ Ef) in Hx. cbn in Hx.
        rewrite (proj2 (eqb_eq OL _ _) eq_refl) in Hx. discriminate.
    + eexists. split; [reflexivity|]. apply Hso. rewrite Et in *. apply asc_cons in Ha. apply Ha.
    + eexists. split; [reflexivity|]. apply Hso. rewrite Eq, removelast_app1. rewrite Eq in Ha. apply asc_app in Ha. apply Ha.
    + clear Eq. destruct t as [|x [|y r]]; cbn; eexists; (split; [reflexivity|]); cbn; auto.
    + eexists. split; [reflexivity|]. cbn. auto.
    + eexists. split; [reflexivity|]. cbn. auto.
    + eexists. split; [reflexivity|]. cbn. auto.
    + eexists. split; [reflexivity|]. cbn. auto.
    + eexists. split; [reflexivity|]. cbn. auto.
    + eexists. split; [reflexivity|]. cbn. auto.
    + eexists. split; [reflexivity|]. cbn. auto.
    + eexists. split; [reflexivity|]. cbn. auto.
    + destruct (sp_find cmp k t); eexists; (split; [reflexivity|]); cbn; auto.
    + destruct (sp_pred cmp k t); eexists; (split; [reflexivity|]); cbn; auto.
    + destruct (sp_succ cmp k t); eexists; (split; [reflexivity|]); cbn; auto.
  - intros t t' _ E. cbn in E. destruct t as [|p [|q l]]; congruence.
  - intros t k t' _ E. cbn in E. destruct (sp_find cmp k t); congruence.
  - intros t _. eexists _, _. split; [reflexivity|]. split; [lia|]. intros h E. injection E as <-. lia.
Defined.

Section VecCollContract.
  Context {Hi Lo V : Type} (deq : Hi -> Hi -> bool) (Hdeq : forall a b, deq a b = true <-> a = b) (Tr : VebOps Lo V).
  Notation T := (vt Tr).
  Lemma vc_put_keys (m : list (Hi * T)) h t : map fst (vc_put deq Tr m h t) = map fst m.
  Proof.
    unfold vc_put. rewrite map_map. apply map_ext_in. intros [h' t'] _. cbn. destruct (deq h h') eqn:E; auto. apply Hdeq in E. auto.
  Qed.
  Lemma vc_put_perm (m : list (Hi * T)) h t t0 : NoDup (map fst m) -> m_get deq m h = Some t0 ->
    Permutation (vc_put deq Tr m h t) (m_set deq m h (Some t)).
  Proof.
    intros Hn Em. apply (m_get_some deq Hdeq) in Em; auto. destruct (in_split _ _ Em) as [a [b ->]].
    rewrite (m_set_perm deq Hdeq (a ++ (h, t0) :: b) h t0 (a ++ b) (Some t)); auto; [|symmetry; apply Permutation_middle].
    unfold vc_put. rewrite map_app. cbn. rewrite (deq_refl deq Hdeq).
    assert (Hi' : forall x, ~ In h (map fst (x : list (Hi * T))) -> map (fun p => if deq h (fst p) then (h, t) else p) x = x).
    { intros x Hx. rewrite <- (map_id x) at 2. apply map_ext_in. intros [h' t'] Hin. cbn. destruct (deq h h') eqn:E; auto.
      apply Hdeq in E. subst h'. elim Hx. apply (in_map fst) in Hin. exact Hin. }
    rewrite map_app in Hn. cbn in Hn. apply NoDup_remove_2 in Hn. rewrite in_app_iff in Hn.
    rewrite !Hi' by tauto. symmetry. apply Permutation_middle.
  Qed.
  Lemma vc_put_same (m : list (Hi * T)) h t : NoDup (map fst m) -> m_get deq m h = Some t -> vc_put deq Tr m h t = m.
  Proof.
    intros Hn Em. unfold vc_put. rewrite <- (map_id m) at 2. apply map_ext_in. intros [h' t'] Hin. cbn.
    destruct (deq h h') eqn:E; auto. apply Hdeq in E. subst h'. apply (m_get_some deq Hdeq) in Hin; auto. congruence.
  Qed.
  Lemma m_set_keys (m : list (Hi * T)) h o : NoDup (map fst m) -> NoDup (map fst (m_set deq m h o)).
  Proof.
    intros Hn. unfold m_set. rewrite map_app.
    assert (Hf : forall f, NoDup (map fst (filter f m))).
    { intros f. induction m as [|p m' IH]; cbn; [constructor|]. cbn in Hn. apply NoDup_cons_iff in Hn. destruct Hn as [H1 H2].
      destruct (f p); cbn; auto. constructor; auto. intros Hin. apply H1. apply in_map_iff in Hin. destruct Hin as [q [<- Hq]].
      apply filter_In in Hq. apply in_map. apply Hq. }
    destruct o; cbn; auto. constructor; auto. intros Hin. apply in_map_iff in Hin. destruct Hin as [[h' t'] [E Hq]]. cbn in E. subst h'.
    apply filter_In in Hq. destruct Hq as [_ Hq]. cbn in Hq. rewrite (deq_refl deq Hdeq) in Hq. discriminate.
  Qed.
  Lemma vc_left_ok (m : list (Hi * T)) o : NoDup (map fst m) ->
    snd (split_left (VecColl deq Tr) (vc_left Tr m o)) = m_left m o /\
    match fst (split_left (VecColl deq Tr) (vc_left Tr m o)) with
    | Some c' => (NoDup (map fst c') /\ c' <> []) /\ Permutation c' m
    | None => m = []
    end.
  Proof.
    intros Hn. destruct m as [|p m]; cbn; auto. split; [destruct o; reflexivity|]. split; auto. split; auto. discriminate.
  Qed.
  Definition VecColl_contract : CollContract deq (VecColl deq Tr).
  Proof.
    refine {| cc_inv := fun m : ct (VecColl deq Tr) => NoDup (map fst m) /\ m <> []; cc_abs := fun m : ct (VecColl deq Tr) => m |}.
    - intros c H. apply H.
    - intros c H. apply H.
    - intros h t. eexists. split; [reflexivity|]. cbn. split; auto. split; [|discriminate]. constructor; [intros []|constructor].
    - assert (Hput : forall c h t t0, NoDup (map fst c) -> m_get deq c h = Some t0 ->
        (NoDup (map fst (vc_put deq Tr c h t)) /\ vc_put deq Tr c h t <> []) /\ Permutation (vc_put deq Tr c h t) (m_set deq c h (Some t))).
      { intros c h t t0 Hn Em. split; [|apply vc_put_perm with t0; auto]. split; [rewrite vc_put_keys; auto|].
        intros E. apply (f_equal (map fst)) in E. rewrite vc_put_keys in E. destruct c; discriminate. }
      intros x c m o [Hn Hne] E. destruct c as [|q c]; [congruence|]. remember (q :: c) as c0 eqn:Ec.
      assert (E' : match c0 with [] => False | _ => True end) by (rewrite Ec; exact I).
      destruct x as [h t|h|h t|h [lo v]|h f|h f]; cbn [m_step] in E; cbn [c_step VecColl c_create c_get c_get_mut c_insert_key c_remove_key c_maybe_remove_key bind fst snd].
      + injection E as <- <-. eexists. split; [reflexivity|]. cbn. split; auto. split; [|discriminate]. constructor; [intros []|constructor].
      + rewrite (ne_step c0 _ _ Hne) in E. injection E as <- <-. eexists. split; [reflexivity|]. cbn. auto.
      + rewrite (ne_step c0 _ _ Hne) in E. destruct (m_get deq c0 h) as [t0|] eqn:Em; injection E as <- <-; cbn [option_map].
        * eexists. split; [reflexivity|]. apply Hput with t0; auto.
        * eexists. split; [reflexivity|]. cbn. auto.
      + rewrite (ne_step c0 _ _ Hne) in E. destruct (m_get deq c0 h) as [t0|] eqn:Em.
        * destruct (v_insert Tr t0 lo v) as [[t' r]|]; [|discriminate]. cbn [bind] in E. injection E as <- <-. cbn [bind].
          eexists. split; [reflexivity|]. apply Hput with t0; auto.
        * injection E as <- <-. cbn [bind]. eexists. split; [reflexivity|].
          assert (Hin := Em). apply (m_get_none deq Hdeq) in Hin. rewrite (m_set_new deq Hdeq) by auto. split.
          -- split; [|destruct c0; discriminate]. apply (Permutation_NoDup (l := h :: map fst c0)).
             ++ rewrite map_app. cbn. apply Permutation_cons_append.
             ++ constructor; auto.
          -- symmetry. apply Permutation_cons_append.
      + rewrite (ne_step c0 _ _ Hne) in E. destruct (m_get deq c0 h) as [t0|] eqn:Em; [|discriminate].
        destruct (f t0) as [[ot p]|]; [|discriminate]. cbn [bind] in E |- *. injection E as <- <-.
        destruct (vc_left_ok (m_set deq c0 h ot) ot (m_set_keys c0 h ot Hn)) as [H1 H2].
        destruct (split_left (VecColl deq Tr) (vc_left Tr (m_set deq c0 h ot) ot)) as [c' b]. cbn in H1, H2. subst b. eauto.
      + rewrite (ne_step c0 _ _ Hne) in E. destruct (m_get deq c0 h) as [t0|] eqn:Em.
        * destruct (f t0) as [[[ot p]|t']|]; [| |discriminate]; cbn [bind] in E |- *; injection E as <- <-.
          -- destruct (vc_left_ok (m_set deq c0 h ot) ot (m_set_keys c0 h ot Hn)) as [H1 H2].
             destruct (split_left (VecColl deq Tr) (vc_left Tr (m_set deq c0 h ot) ot)) as [c' b]. cbn in H1, H2. subst b. eauto.
          -- eexists. split; [reflexivity|]. apply Hput with t0; auto.
        * injection E as <- <-. cbn [bind]. eexists. split; [reflexivity|]. cbn. auto.
    - intros c h f c' [Hn Hne] Hf E. cbn in E. destruct (m_get deq c h) as [t|] eqn:Em.
      + rewrite (Hf t eq_refl) in E. cbn in E. injection E as <-. apply vc_put_same; auto.
      + congruence.
    - intros c h t lv _ Em E. cbn. rewrite Em, E. reflexivity.
    - intros c h t f _ Em E. cbn. rewrite Em, E. reflexivity.
    - intros c h t f _ Em E. cbn. rewrite Em, E. reflexivity.
  Defined.
End VecCollContract.
Lemma open_levels {B : Build} {fixed K V cmp O} (T : OpenType fixed K V cmp O) : open_plain T = true -> open_shallow T = true.
Proof.
  induction T as [K V cmp O OL TC|K V cmp O T|K Hi Lo V ko KL S Tr C TS IHS TT IHT CT|K V cmp O T IH|K V cmp O T IH]; cbn [open_plain open_shallow]; auto.
  - induction T; cbn [plain shallow]; auto. intros E. discriminate E.
  - intros E. discriminate E.
Qed.
