(** Facts about orders, strictly ascending lists and the specification's functions. *)
From Verif Require Import Base Spec.

Section Order.
  Context {K : Type} {cmp : K -> K -> comparison} (OL : OrdLaws cmp).

  Lemma cmp_refl a : cmp a a = Eq.
  Proof. apply (cmp_eq OL). reflexivity. Qed.
  Lemma cmp_eq_eq a b : cmp a b = Eq -> a = b.
  Proof. apply (cmp_eq OL). Qed.
  Lemma cmp_gt_lt a b : cmp a b = Gt <-> cmp b a = Lt.
  Proof. rewrite (cmp_opp OL b a). destruct (cmp b a); simpl; split; congruence. Qed.
  Lemma lt_irrefl a : cmp a a <> Lt.
  Proof. rewrite cmp_refl. discriminate. Qed.
  Lemma lt_asym a b : cmp a b = Lt -> cmp b a <> Lt.
  Proof. intros H1 H2. apply (lt_irrefl a). apply (cmp_trans OL) with b; assumption. Qed.
  Lemma lt_neq a b : cmp a b = Lt -> a <> b.
  Proof. intros H ->. exact (lt_irrefl b H). Qed.
  Lemma le_cases a b : cmp a b <> Gt <-> (cmp a b = Lt \/ a = b).
  Proof.
    split.
    - destruct (cmp a b) eqn:E; intros H.
      + right. apply cmp_eq_eq. exact E.
      + left. reflexivity.
      + congruence.
    - intros [H| ->]; [congruence|]. rewrite cmp_refl. discriminate.
  Qed.
  Lemma not_lt a b : cmp a b <> Lt <-> (cmp b a = Lt \/ a = b).
  Proof.
    rewrite <- (cmp_gt_lt a b). split.
    - destruct (cmp a b) eqn:E; intros H; auto; [right; apply cmp_eq_eq; exact E|congruence].
    - intros [H| ->]; [congruence|]. rewrite cmp_refl. discriminate.
  Qed.
  Lemma le_lt_trans a b c : cmp a b <> Gt -> cmp b c = Lt -> cmp a c = Lt.
  Proof. rewrite le_cases. intros [H| ->] H2; auto. apply (cmp_trans OL) with b; assumption. Qed.
  Lemma lt_le_trans a b c : cmp a b = Lt -> cmp b c <> Gt -> cmp a c = Lt.
  Proof. rewrite le_cases. intros H [H2| <-]; auto. apply (cmp_trans OL) with b; assumption. Qed.
  Lemma le_trans a b c : cmp a b <> Gt -> cmp b c <> Gt -> cmp a c <> Gt.
  Proof.
    intros H1 H2. apply le_cases in H1. destruct H1 as [H1| ->]; auto.
    rewrite (lt_le_trans a b c); auto. discriminate.
  Qed.
  Lemma lt_le a b : cmp a b = Lt -> cmp a b <> Gt.
  Proof. congruence. Qed.
  Lemma le_refl a : cmp a a <> Gt.
  Proof. rewrite cmp_refl. discriminate. Qed.
  Lemma le_antisym a b : cmp a b <> Gt -> cmp b a <> Gt -> a = b.
  Proof.
    intros H1 H2. apply le_cases in H1. destruct H1 as [H1|H1]; auto.
    exfalso. apply H2. apply cmp_gt_lt. exact H1.
  Qed.
  Lemma not_gt_lt a b : cmp a b <> Gt <-> cmp b a <> Lt.
  Proof. rewrite cmp_gt_lt. reflexivity. Qed.

  Lemma ltb_lt a b : ltb cmp a b = true <-> cmp a b = Lt.
  Proof. unfold ltb. destruct (cmp a b); split; congruence. Qed.
  Lemma ltb_ge a b : ltb cmp a b = false <-> cmp a b <> Lt.
  Proof. unfold ltb. destruct (cmp a b); split; congruence. Qed.
  Lemma leb_le a b : leb cmp a b = true <-> cmp a b <> Gt.
  Proof. unfold leb. destruct (cmp a b); split; congruence. Qed.
  Lemma leb_gt a b : leb cmp a b = false <-> cmp b a = Lt.
  Proof. rewrite <- cmp_gt_lt. unfold leb. destruct (cmp a b); split; congruence. Qed.
  Lemma eqb_eq a b : eqb cmp a b = true <-> a = b.
  Proof. rewrite <- (cmp_eq OL). unfold eqb. destruct (cmp a b); split; congruence. Qed.
  Lemma eqb_neq a b : eqb cmp a b = false <-> a <> b.
  Proof. rewrite <- (cmp_eq OL). unfold eqb. destruct (cmp a b); split; congruence. Qed.
  Lemma eqb_refl a : eqb cmp a a = true.
  Proof. apply eqb_eq. reflexivity. Qed.
  Lemma key_dec (a b : K) : {a = b} + {a <> b}.
  Proof.
    destruct (eqb cmp a b) eqn:E.
    - left. apply eqb_eq. exact E.
    - right. apply eqb_neq. exact E.
  Qed.
End Order.

Lemma last_error_app {A} (l : list A) a : last_error (l ++ [a]) = Some a.
Proof.
  induction l as [|x l IH]; [reflexivity|].
  simpl. destruct (l ++ [a]) eqn:E; [destruct l; discriminate|]. exact IH.
Qed.
Lemma last_error_none {A} (l : list A) : last_error l = None -> l = [].
Proof.
  destruct l as [|x l] using rev_ind; auto. rewrite last_error_app. discriminate.
Qed.
Lemma last_error_in {A} (l : list A) a : last_error l = Some a -> exists l', l = l' ++ [a].
Proof.
  destruct l as [|x l _] using rev_ind; [discriminate|].
  rewrite last_error_app. intros H. injection H as ->. eauto.
Qed.
Lemma hd_error_in {A} (l : list A) a : hd_error l = Some a -> exists l', l = a :: l'.
Proof. destruct l; simpl; [discriminate|]. intros H. injection H as ->. eauto. Qed.

Lemma NoDup_perm {A} (l l' : list A) : Permutation l l' -> NoDup l -> NoDup l'.
Proof. apply Permutation_NoDup. Qed.

Lemma NoDup_app_l {A} (a b : list A) : NoDup (a ++ b) -> NoDup a.
Proof.
  induction a as [|x a IH]; simpl; intros H; [constructor|].
  inversion H; subst. constructor; auto. intros Hi. apply H2. apply in_app_iff. auto.
Qed.
Lemma NoDup_app_r {A} (a b : list A) : NoDup (a ++ b) -> NoDup b.
Proof. induction a as [|x a IH]; simpl; intros H; auto. inversion H; auto. Qed.

Section Asc.
  Context {K V : Type} {cmp : K -> K -> comparison} (OL : OrdLaws cmp).
  Notation asc := (@ascending K V cmp).
  Implicit Types l : list (K * V).

  Lemma keys_perm l l' : Permutation l l' -> Permutation (keys l) (keys l').
  Proof. apply Permutation_map. Qed.
  Lemma in_keys k v l : In (k, v) l -> In k (keys l).
  Proof. intros H. apply (in_map fst) in H. exact H. Qed.
  Lemma in_keys' p l : In p l -> In (fst p) (keys l).
  Proof. apply (in_map fst). Qed.
  Lemma keys_in k l : In k (keys l) -> exists v, In (k, v) l.
  Proof. intros H. apply in_map_iff in H. destruct H as [[k' v] [E H]]. simpl in E. subst. eauto. Qed.
  Lemma nodup_keys_inj k v w l : NoDup (keys l) -> In (k, v) l -> In (k, w) l -> v = w.
  Proof.
    induction l as [|[k' v'] l IH]; simpl; [tauto|].
    intros H. inversion H as [|? ? Hn Hd]; subst.
    intros [H1|H1] [H2|H2].
    - congruence.
    - injection H1 as -> ->. elim Hn. apply in_keys with w. exact H2.
    - injection H2 as -> ->. elim Hn. apply in_keys with v. exact H1.
    - eauto.
  Qed.
  Lemma nodup_keys_pair p q l : NoDup (keys l) -> In p l -> In q l -> fst p = fst q -> p = q.
  Proof.
    destruct p as [k v], q as [k' w]. simpl. intros H Hp Hq ->. f_equal.
    eapply nodup_keys_inj; eauto.
  Qed.

  Lemma asc_nil : asc [].
  Proof. constructor. Qed.
  Lemma asc_cons p l : asc (p :: l) <-> asc l /\ forall q, In q l -> cmp (fst p) (fst q) = Lt.
  Proof.
    unfold ascending. split.
    - intros H. inversion H; subst. split; auto. apply Forall_forall. assumption.
    - intros [H1 H2]. constructor; auto. apply Forall_forall. exact H2.
  Qed.
  Lemma asc_app l1 l2 :
    asc (l1 ++ l2) <-> asc l1 /\ asc l2 /\ forall p q, In p l1 -> In q l2 -> cmp (fst p) (fst q) = Lt.
  Proof.
    induction l1 as [|a l1 IH]; simpl.
    - split; [|tauto]. intros H. split; [apply asc_nil|split; auto]. intros p q [].
    - rewrite !asc_cons, IH. split.
      + intros [[H1 [H2 H3]] H4]. split; [split; auto|split; auto].
        * intros q Hq. apply H4. apply in_app_iff. auto.
        * intros p q [<-|Hp] Hq; auto. apply H4. apply in_app_iff. auto.
      + intros [[H1 H2] [H3 H4]]. split; [split; auto|].
        intros q Hq. apply in_app_iff in Hq. destruct Hq; auto.
  Qed.
  Lemma asc_nodup l : asc l -> NoDup (keys l).
  Proof.
    induction l as [|p l IH]; intros H; [constructor|].
    apply asc_cons in H. destruct H as [H1 H2]. simpl. constructor; auto.
    intros Hin. apply keys_in in Hin. destruct Hin as [v Hv]. apply H2 in Hv. simpl in Hv.
    exact (lt_irrefl OL _ Hv).
  Qed.
  Lemma asc_filter f l : asc l -> asc (filter f l).
  Proof.
    induction l as [|p l IH]; intros H; [exact H|].
    apply asc_cons in H. destruct H as [H1 H2]. simpl. destruct (f p); auto.
    apply asc_cons. split; auto. intros q Hq. apply filter_In in Hq. apply H2. tauto.
  Qed.
  Lemma asc_perm_eq l l' : asc l -> asc l' -> Permutation l l' -> l = l'.
  Proof.
    revert l'. induction l as [|p l IH]; intros l' H H' HP.
    - apply Permutation_nil in HP. auto.
    - destruct l' as [|q l'].
      + apply Permutation_sym, Permutation_nil in HP. auto.
      + apply asc_cons in H. destruct H as [H1 H2].
        apply asc_cons in H'. destruct H' as [H1' H2'].
        assert (p = q) as ->.
        { assert (Hp : In p (q :: l')) by (eapply Permutation_in; [exact HP|left; reflexivity]).
          assert (Hq : In q (p :: l))
            by (eapply Permutation_in; [apply Permutation_sym; exact HP|left; reflexivity]).
          destruct Hp as [Hp|Hp]; auto. destruct Hq as [Hq|Hq]; auto.
          apply H2' in Hp. apply H2 in Hq. elim (lt_asym OL _ _ Hp Hq). }
        f_equal. apply IH; auto. eapply Permutation_cons_inv; eauto.
  Qed.

  Lemma in_below p k l : In p (below cmp k l) <-> In p l /\ cmp (fst p) k = Lt.
  Proof. unfold below. rewrite filter_In, ltb_lt. reflexivity. Qed.
  Lemma in_above p k l : In p (above cmp k l) <-> In p l /\ cmp k (fst p) = Lt.
  Proof. unfold above. rewrite filter_In, ltb_lt. reflexivity. Qed.
  Lemma asc_below k l : asc l -> asc (below cmp k l).
  Proof. apply asc_filter. Qed.
  Lemma asc_above k l : asc l -> asc (above cmp k l).
  Proof. apply asc_filter. Qed.

  Definition others (k : K) l := filter (fun p => negb (eqb cmp (fst p) k)) l.
  Lemma filter_perm f l l' : Permutation l l' -> Permutation (filter f l) (filter f l').
  Proof.
    induction 1 as [|x l l' H IH|x y l|l l' l'' H1 IH1 H2 IH2]; simpl; auto.
    - destruct (f x); auto.
    - destruct (f x), (f y); auto. apply perm_swap.
    - eapply Permutation_trans; eauto.
  Qed.
  Lemma below_above k l : Permutation (below cmp k l ++ above cmp k l) (others k l).
  Proof.
    induction l as [|p l IH]; simpl; auto.
    destruct (ltb cmp (fst p) k) eqn:E1, (ltb cmp k (fst p)) eqn:E2, (eqb cmp (fst p) k) eqn:E3;
      simpl;
      try (exfalso; unfold ltb, eqb in E1, E2, E3; rewrite (cmp_opp OL (fst p) k) in E2;
           destruct (cmp (fst p) k); discriminate).
    - apply perm_skip. exact IH.
    - apply Permutation_sym, Permutation_cons_app, Permutation_sym. exact IH.
    - exact IH.
  Qed.
  Lemma others_fresh k l : ~ In k (keys l) -> others k l = l.
  Proof.
    intros H. induction l as [|p l IH]; simpl; auto.
    replace (eqb cmp (fst p) k) with false; simpl.
    - f_equal. apply IH. intros Hi. apply H. simpl. auto.
    - symmetry. apply (eqb_neq OL). intros <-. apply H. simpl. auto.
  Qed.
  Lemma others_perm p rest l :
    NoDup (keys l) -> Permutation l (p :: rest) -> Permutation (others (fst p) l) rest.
  Proof.
    intros Hn HP. unfold others. rewrite (filter_perm _ _ _ HP). simpl. rewrite (eqb_refl OL). simpl.
    apply keys_perm in HP. apply (NoDup_perm _ _ HP) in Hn. simpl in Hn.
    inversion Hn; subst. fold (others (fst p) rest). rewrite others_fresh; auto.
  Qed.

  Lemma sp_insert_asc k v l : asc l -> asc (sp_insert cmp k v l).
  Proof.
    intros H. unfold sp_insert. apply asc_app. split; [apply asc_below; auto|]. split.
    - apply asc_cons. split; [apply asc_above; auto|]. intros q Hq. apply in_above in Hq. apply Hq.
    - intros p q Hp [<-|Hq].
      + apply in_below in Hp. apply Hp.
      + apply in_below in Hp. apply in_above in Hq. apply (cmp_trans OL) with k; tauto.
  Qed.
  Lemma sp_remove_asc k l : asc l -> asc (sp_remove cmp k l).
  Proof.
    intros H. unfold sp_remove. apply asc_app. split; [apply asc_below; auto|]. split.
    - apply asc_above; auto.
    - intros p q Hp Hq. apply in_below in Hp. apply in_above in Hq. apply (cmp_trans OL) with k; tauto.
  Qed.
  Lemma sp_write_keys k w l : keys (sp_write cmp k w l) = keys l.
  Proof.
    unfold sp_write, keys. rewrite map_map. apply map_ext. intros p. destruct (eqb cmp (fst p) k); auto.
  Qed.
  Lemma asc_keys l l' : keys l = keys l' -> asc l -> asc l'.
  Proof.
    revert l'. induction l as [|p l IH]; intros [|p' l'] E H; try discriminate; auto.
    simpl in E. injection E as E1 E2. apply asc_cons in H. destruct H as [H1 H2].
    apply asc_cons. split; auto. intros q Hq. rewrite <- E1.
    apply in_keys' in Hq. rewrite <- E2 in Hq. apply keys_in in Hq. destruct Hq as [v Hv].
    apply H2 in Hv. exact Hv.
  Qed.
  Lemma sp_write_asc k w l : asc l -> asc (sp_write cmp k w l).
  Proof. apply asc_keys. symmetry. apply sp_write_keys. Qed.

  Lemma sp_insert_perm_new k v l :
    ~ In k (keys l) -> Permutation (sp_insert cmp k v l) ((k, v) :: l).
  Proof.
    intros H. unfold sp_insert. rewrite <- Permutation_middle. apply perm_skip.
    rewrite below_above, others_fresh; auto.
  Qed.
  Lemma sp_insert_perm_old p v l rest :
    NoDup (keys l) -> Permutation l (p :: rest) ->
    Permutation (sp_insert cmp (fst p) v l) ((fst p, v) :: rest).
  Proof.
    intros Hn H. unfold sp_insert. rewrite <- Permutation_middle. apply perm_skip.
    rewrite below_above, others_perm; eauto.
  Qed.
  Lemma sp_remove_perm p l rest :
    NoDup (keys l) -> Permutation l (p :: rest) -> Permutation (sp_remove cmp (fst p) l) rest.
  Proof. intros Hn H. unfold sp_remove. rewrite below_above, others_perm; eauto. Qed.
  Lemma sp_remove_fresh k l : asc l -> ~ In k (keys l) -> sp_remove cmp k l = l.
  Proof.
    intros Ha H. apply asc_perm_eq; auto.
    - apply sp_remove_asc; auto.
    - unfold sp_remove. rewrite below_above, others_fresh; auto.
  Qed.
  Lemma sp_write_fresh k w l : ~ In k (keys l) -> sp_write cmp k w l = l.
  Proof.
    intros H. unfold sp_write. rewrite <- (map_id l) at 2. apply map_ext_in. intros p Hp.
    replace (eqb cmp (fst p) k) with false; auto. symmetry. apply (eqb_neq OL). intros <-.
    apply H. apply in_keys'. exact Hp.
  Qed.
  Lemma sp_write_perm p w l rest :
    NoDup (keys l) -> Permutation l (p :: rest) ->
    Permutation (sp_write cmp (fst p) w l) ((fst p, w) :: rest).
  Proof.
    intros Hn HP. unfold sp_write. rewrite (Permutation_map _ HP). simpl. rewrite (eqb_refl OL).
    apply perm_skip. apply keys_perm in HP. apply (NoDup_perm _ _ HP) in Hn. simpl in Hn.
    inversion Hn; subst. fold (sp_write cmp (fst p) w rest). rewrite sp_write_fresh; auto.
  Qed.

  (** Characterisations of the queries *)
  Lemma sp_find_some k v l : NoDup (keys l) -> In (k, v) l -> sp_find cmp k l = Some (k, v).
  Proof.
    intros Hn Hin. unfold sp_find. destruct (find _ l) as [[k' v']|] eqn:E.
    - apply find_some in E. destruct E as [E1 E2]. apply (eqb_eq OL) in E2. simpl in E2. subst k'.
      f_equal. f_equal. eapply nodup_keys_inj; eauto.
    - exfalso. apply (find_none _ _ E) in Hin. simpl in Hin. rewrite (eqb_refl OL) in Hin. discriminate.
  Qed.
  Lemma sp_find_none k l : ~ In k (keys l) -> sp_find cmp k l = None.
  Proof.
    intros H. unfold sp_find. destruct (find _ l) as [[k' v']|] eqn:E; auto.
    apply find_some in E. destruct E as [E1 E2]. apply (eqb_eq OL) in E2. simpl in E2. subst k'.
    elim H. eapply in_keys; eauto.
  Qed.
  Lemma sp_find_in k l p : sp_find cmp k l = Some p -> In p l /\ fst p = k.
  Proof.
    unfold sp_find. intros E. apply find_some in E. destruct E as [E1 E2].
    apply (eqb_eq OL) in E2. auto.
  Qed.
  Lemma sp_min_spec p l :
    asc l -> In p l -> (forall q, In q l -> cmp (fst p) (fst q) <> Gt) -> sp_min l = Some p.
  Proof.
    destruct l as [|q l]; [intros _ []|]. intros Ha Hp H. simpl. f_equal.
    apply asc_cons in Ha. destruct Hp as [Hp|Hp]; auto. exfalso.
    apply (H q); [left; auto|]. apply (cmp_gt_lt OL). apply Ha. exact Hp.
  Qed.
  Lemma sp_max_spec p l :
    asc l -> In p l -> (forall q, In q l -> cmp (fst q) (fst p) <> Gt) -> sp_max l = Some p.
  Proof.
    unfold sp_max. intros Ha Hp H.
    destruct l as [|q l _] using rev_ind; [destruct Hp|].
    rewrite last_error_app. f_equal. apply asc_app in Ha. destruct Ha as [_ [_ Ha]].
    apply in_app_iff in Hp. destruct Hp as [Hp|[Hp|[]]]; auto. exfalso.
    apply (H q); [apply in_app_iff; right; left; auto|].
    apply (cmp_gt_lt OL). apply Ha; [exact Hp|left; auto].
  Qed.
  Lemma sp_pred_spec k p l :
    asc l -> In p l -> cmp (fst p) k = Lt ->
    (forall q, In q l -> cmp (fst q) k = Lt -> cmp (fst q) (fst p) <> Gt) ->
    sp_pred cmp k l = Some p.
  Proof.
    intros Ha Hp Hk H. apply sp_max_spec.
    - apply asc_below; auto.
    - apply in_below. auto.
    - intros q Hq. apply in_below in Hq. apply H; tauto.
  Qed.
  Lemma sp_pred_none k l : (forall q, In q l -> cmp (fst q) k <> Lt) -> sp_pred cmp k l = None.
  Proof.
    intros H. unfold sp_pred. destruct (last_error (below cmp k l)) as [p|] eqn:E; auto.
    apply last_error_in in E. destruct E as [l' E].
    assert (Hp : In p (below cmp k l)) by (rewrite E; apply in_app_iff; right; left; auto).
    apply in_below in Hp. elim (H p); tauto.
  Qed.
  Lemma sp_succ_spec k p l :
    asc l -> In p l -> cmp k (fst p) = Lt ->
    (forall q, In q l -> cmp k (fst q) = Lt -> cmp (fst p) (fst q) <> Gt) ->
    sp_succ cmp k l = Some p.
  Proof.
    intros Ha Hp Hk H. apply sp_min_spec.
    - apply asc_above; auto.
    - apply in_above. auto.
    - intros q Hq. apply in_above in Hq. apply H; tauto.
  Qed.
  Lemma sp_succ_none k l : (forall q, In q l -> cmp k (fst q) <> Lt) -> sp_succ cmp k l = None.
  Proof.
    intros H. unfold sp_succ. destruct (hd_error (above cmp k l)) as [p|] eqn:E; auto.
    apply hd_error_in in E. destruct E as [l' E].
    assert (Hp : In p (above cmp k l)) by (rewrite E; left; auto).
    apply in_above in Hp. elim (H p); tauto.
  Qed.

  (** Every list with distinct keys can be sorted. *)
  Lemma sort_exists l : NoDup (keys l) -> exists l', asc l' /\ Permutation l' l.
  Proof.
    induction l as [|[k v] l IH]; intros H.
    - exists []. split; [apply asc_nil|apply Permutation_refl].
    - simpl in H. inversion H as [|? ? Hn Hd]; subst. destruct (IH Hd) as [l' [Ha HP]].
      exists (sp_insert cmp k v l'). split; [apply sp_insert_asc; auto|].
      rewrite sp_insert_perm_new; [apply perm_skip; exact HP|].
      intros Hi. apply Hn. eapply Permutation_in; [apply keys_perm; exact HP|exact Hi].
  Qed.
End Asc.
