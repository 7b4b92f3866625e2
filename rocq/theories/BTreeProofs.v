(** [BTreeMap] satisfies the laws. *)
From Verif Require Import Base Spec Ops Boxed Lists Laws ByteMap ByteMapProofs BTree.

Lemma filter_none {A} (f : A -> bool) (l : list A) : (forall q, In q l -> f q = false) -> filter f l = [].
Proof.
  induction l as [|q l IH]; cbn; auto. intros H. rewrite (H q) by auto. apply IH. auto.
Qed.

Section BT.
  Context {B : Build} {K V : Type} {cmp : K -> K -> comparison} (OL : OrdLaws cmp).
  Notation asc := (@ascending K V cmp).
  Notation M := (list (K * V)).
  Implicit Types m b a : M.

  Lemma bt_case m k : asc m ->
    (exists b v a, m = b ++ (k, v) :: a /\ (forall q, In q b -> cmp (fst q) k = Lt) /\ (forall q, In q a -> cmp k (fst q) = Lt)) \/
    (exists b a, m = b ++ a /\ (forall q, In q b -> cmp (fst q) k = Lt) /\ (forall q, In q a -> cmp k (fst q) = Lt)).
  Proof.
    intros Ha. destruct (in_dec (key_dec OL) k (keys m)) as [Hk|Hk].
    - left. apply keys_in in Hk. destruct Hk as [v Hv]. destruct (in_split _ _ Hv) as [b [a E]]. exists b, v, a.
      split; auto. rewrite E in Ha. apply asc_app in Ha. destruct Ha as [_ [H2 H3]]. apply asc_cons in H2. split.
      + intros q Hq. apply (H3 q (k, v)); auto. left. auto.
      + apply H2.
    - right. exists (below cmp k m), (above cmp k m). split.
      + symmetry. apply (sp_remove_fresh OL); auto.
      + split; intros q Hq; [apply in_below in Hq|apply in_above in Hq]; apply Hq.
  Qed.

  Lemma gt_of_lt j k : cmp j k = Lt -> cmp k j = Gt.
  Proof. intros H. apply (cmp_gt_lt OL). auto. Qed.

  Lemma get_mid b k v a : (forall q, In q b -> cmp (fst q) k = Lt) -> map_get cmp (b ++ (k, v) :: a) k = Some (k, v).
  Proof.
    induction b as [|[j w] b IH]; cbn; intros H.
    - rewrite (cmp_refl OL). auto.
    - rewrite (gt_of_lt j k) by (apply (H (j, w)); auto). auto.
  Qed.
  Lemma get_gap b k a : (forall q, In q b -> cmp (fst q) k = Lt) -> (forall q, In q a -> cmp k (fst q) = Lt) ->
    map_get cmp (b ++ a) k = None.
  Proof.
    induction b as [|[j w] b IH]; cbn; intros H1 H2.
    - destruct a as [|[j w] a]; cbn; auto. assert (E := H2 _ (or_introl eq_refl)). cbn in E. rewrite E. auto.
    - rewrite (gt_of_lt j k) by (apply (H1 (j, w)); auto). auto.
  Qed.
  Lemma insert_gap b k v a : (forall q, In q b -> cmp (fst q) k = Lt) -> (forall q, In q a -> cmp k (fst q) = Lt) ->
    map_insert cmp (b ++ a) k v = b ++ (k, v) :: a.
  Proof.
    induction b as [|[j w] b IH]; cbn; intros H1 H2.
    - destruct a as [|[j w] a]; cbn; auto. assert (E := H2 _ (or_introl eq_refl)). cbn in E. rewrite E. auto.
    - rewrite (gt_of_lt j k) by (apply (H1 (j, w)); auto). f_equal. auto.
  Qed.
  Lemma del_midk b k v a : (forall q, In q b -> cmp (fst q) k = Lt) -> map_del cmp (b ++ (k, v) :: a) k = b ++ a.
  Proof.
    induction b as [|[j w] b IH]; cbn; intros H.
    - rewrite (cmp_refl OL). auto.
    - rewrite (gt_of_lt j k) by (apply (H (j, w)); auto). f_equal. auto.
  Qed.
  Lemma put_mid b k v a w : (forall q, In q b -> cmp (fst q) k = Lt) ->
    map_put cmp (b ++ (k, v) :: a) k w = b ++ (k, w) :: a.
  Proof.
    induction b as [|[j x] b IH]; cbn; intros H.
    - rewrite (cmp_refl OL). auto.
    - rewrite (gt_of_lt j k) by (apply (H (j, x)); auto). f_equal. auto.
  Qed.
  Lemma incl_get m k : asc m -> map_range_incl cmp m k = map_get cmp m k.
  Proof.
    induction m as [|[j w] m IH]; cbn; auto. intros H. apply asc_cons in H. rewrite (cmp_opp OL j k).
    destruct (cmp j k); cbn; auto. apply IH. apply H.
  Qed.
  Lemma last_spec m : map_last m = last_error m.
  Proof.
    induction m as [|p m IH]; cbn; auto. rewrite IH. destruct m as [|q m]; auto.
    destruct (last_error (q :: m)) eqn:E; auto. apply last_error_none in E. discriminate.
  Qed.
  Lemma init_spec m p : map_init (m ++ [p]) = m.
  Proof.
    induction m as [|q m IH]; auto. cbn [app map_init]. destruct (m ++ [p]) eqn:E; [destruct m; discriminate|].
    f_equal. exact IH.
  Qed.
  Lemma range_from_spec m k : map_range_from cmp m k = sp_succ cmp k m.
  Proof.
    induction m as [|[j w] m IH]; cbn; auto. unfold sp_succ, above in *. cbn [filter fst]. unfold ltb at 1.
    destruct (cmp k j); auto.
  Qed.
  Lemma range_to_spec m k : asc m -> map_range_to_back cmp m k = sp_pred cmp k m.
  Proof.
    induction m as [|[j w] m IH]; auto. intros H. apply asc_cons in H. destruct H as [H1 H2]. specialize (IH H1).
    cbn [map_range_to_back]. unfold sp_pred, below in *. cbn [filter fst]. unfold ltb at 1.
    destruct (cmp j k) eqn:E.
    - symmetry. replace (filter _ m) with (@nil (K * V)); auto. symmetry. apply filter_none.
      intros q Hq. apply ltb_ge. apply H2 in Hq. cbn in Hq. apply (cmp_eq_eq OL) in E. subst k. apply (lt_asym OL). auto.
    - rewrite IH. destruct (filter _ m) as [|q l] eqn:Ef; auto. destruct (last_error (q :: l)) eqn:El.
      + cbn [last_error] in *. rewrite El. auto.
      + apply last_error_none in El. discriminate.
    - symmetry. replace (filter _ m) with (@nil (K * V)); auto. symmetry. apply filter_none.
      intros q Hq. apply ltb_ge. apply H2 in Hq. cbn in Hq. apply (lt_asym OL). apply (cmp_trans OL) with j; auto.
      apply (cmp_gt_lt OL). auto.
  Qed.

  Definition bt_winv m : Prop := asc m /\ m <> [].

  Lemma asc_mid b k v a w : asc (b ++ (k, v) :: a) -> asc (b ++ (k, w) :: a).
  Proof. apply asc_keys. unfold keys. rewrite !map_app. auto. Qed.
  Lemma asc_del b p a : asc (b ++ p :: a) -> asc (b ++ a).
  Proof.
    intros H. apply asc_app in H. destruct H as [H1 [H2 H3]]. apply asc_cons in H2. apply asc_app.
    split; auto. split; [apply H2|]. intros x y Hx Hy. apply H3; auto. right. auto.
  Qed.

  Notation O := (BTree_ops V cmp).
  Notation lens := (lens_ok (O := O) bt_winv (fun _ => True) (fun m => m)).
  Lemma bt_lens m p : bt_winv m -> In p m -> lens m p (fun v => map_put cmp m (fst p) v).
  Proof.
    intros [Ha Hne] Hin. destruct p as [k v]. destruct (in_split _ _ Hin) as [b [a E]]. subst m.
    assert (Hb : forall q, In q b -> cmp (fst q) k = Lt).
    { intros q Hq. apply asc_app in Ha. apply (proj2 (proj2 Ha) q (k, v)); auto. left. auto. }
    exists (b ++ a). split; [apply app_perm|]. intros w. cbn [fst]. rewrite put_mid by auto.
    split; [|split; auto; apply app_perm]. split; [eapply asc_mid; eauto|destruct b; discriminate].
  Qed.
  Lemma bt_mut m o : bt_winv m -> (forall p, o = Some p -> In p m) ->
    mut_ok (O := O) bt_winv (fun _ => True) (fun m => m) m (Ret (opt_put cmp m o)) (Ret o).
  Proof.
    intros Hw H. eexists. split; [reflexivity|]. split; [destruct o as [p|]; reflexivity|].
    intros p put E. destruct o as [p'|]; [|discriminate]. cbn in E. injection E as <- <-. apply bt_lens; auto.
  Qed.

  Definition BTree_laws : VebLaws cmp O.
  Proof.
    refine {| winv := bt_winv : vt O -> Prop; ents := fun m : vt O => m; ord := fun _ => True; safe := fun _ _ => True |}.
    - intros m H. apply H.
    - intros m H _. apply (asc_nodup OL). apply H.
    - auto.
    - auto.
    - intros k v. split; [|split; auto]. split; [|discriminate]. apply asc_cons. split; [constructor|intros q []].
    - intros m _. cbn. unfold bt_is_monad. f_equal. destruct m as [|p [|q m]]; auto.
      cbn [length]. symmetry. etransitivity; [|symmetry; apply N.eqb_neq; lia]. auto.
    - intros m _. eexists _, _. split; [reflexivity|]. split; [apply N.le_refl|].
      intros h E. injection E as <-. apply N.le_refl.
    - intros m Hw. cbn. unfold bt_into_monad, bt_is_monad. cbn [bind]. destruct m as [|p [|q m]].
      + elim (proj2 Hw). auto.
      + left. exists p. auto.
      + right. replace (_ =? 1)%N with false by (symmetry; apply N.eqb_neq; cbn [length]; lia). split; [auto|discriminate].
    - intros m [Ha Hne]. destruct m as [|p m]; [congruence|]. exists p. split; auto. split; [left; auto|].
      intros _ q [<-|Hq]; [apply (le_refl OL)|]. apply asc_cons in Ha. rewrite (proj2 Ha q Hq). discriminate.
    - intros m [Ha Hne]. destruct m as [|p m _] using rev_ind; [congruence|]. exists p. cbn. unfold bt_max_val.
      rewrite last_spec, last_error_app. split; auto. split; [apply in_app_iff; right; left; auto|].
      intros _ q Hq. apply asc_app in Ha. apply in_app_iff in Hq. destruct Hq as [Hq|[<-|[]]]; [|apply (le_refl OL)].
      rewrite (proj2 (proj2 Ha) q p Hq (or_introl eq_refl)). discriminate.
    - intros m k [Ha Hne]. eexists. split; [reflexivity|].
      destruct (bt_case m k Ha) as [[b [v [a [-> [H1 H2]]]]]|[b [a [-> [H1 H2]]]]].
      + rewrite get_mid by auto. split; auto. apply in_elt.
      + rewrite get_gap by auto. intros _ Hk. unfold keys in Hk. rewrite map_app, in_app_iff in Hk.
        destruct Hk as [Hk|Hk]; apply keys_in in Hk; destruct Hk as [v Hv]; [apply H1 in Hv|apply H2 in Hv];
          elim (lt_irrefl OL _ Hv).
    - intros m k [Ha Hne]. eexists. split; [reflexivity|]. rewrite range_to_spec by auto. unfold sp_pred.
      destruct (last_error (below cmp k m)) as [p|] eqn:E.
      + apply last_error_in in E. destruct E as [l' E].
        assert (Hp : In p (below cmp k m)) by (rewrite E; apply in_app_iff; right; left; auto).
        apply in_below in Hp. split; [apply Hp|]. intros _. split; [apply Hp|]. intros q Hq1 Hq2.
        assert (Hq : In q (below cmp k m)) by (apply in_below; auto). assert (Hb := asc_below k m Ha). rewrite E in Hq, Hb.
        apply in_app_iff in Hq. destruct Hq as [Hq|[<-|[]]]; [|apply (le_refl OL)]. apply asc_app in Hb.
        rewrite (proj2 (proj2 Hb) q p Hq (or_introl eq_refl)). discriminate.
      + intros _ q Hq Hl. apply last_error_none in E. assert (Hq' : In q (below cmp k m)) by (apply in_below; auto).
        rewrite E in Hq'. destruct Hq'.
    - intros m k [Ha Hne]. eexists. split; [reflexivity|]. rewrite range_from_spec. unfold sp_succ.
      destruct (hd_error (above cmp k m)) as [p|] eqn:E.
      + apply hd_error_in in E. destruct E as [l' E].
        assert (Hp : In p (above cmp k m)) by (rewrite E; left; auto).
        apply in_above in Hp. split; [apply Hp|]. intros _. split; [apply Hp|]. intros q Hq1 Hq2.
        assert (Hq : In q (above cmp k m)) by (apply in_above; auto). assert (Hb := asc_above k m Ha). rewrite E in Hq, Hb.
        destruct Hq as [<-|Hq]; [apply (le_refl OL)|]. apply asc_cons in Hb. rewrite (proj2 Hb q Hq). discriminate.
      + intros _ q Hq Hl. assert (Hq' : In q (above cmp k m)) by (apply in_above; auto).
        destruct (above cmp k m); [destruct Hq'|discriminate].
    - intros m Hw. cbn. unfold bt_min_val, bt_min_val_mut. destruct m as [|p m]; [elim (proj2 Hw); auto|]. cbn [hd_error expect bind].
      eexists _, _. split; [reflexivity|]. split; [reflexivity|]. apply bt_lens; auto. left. auto.
    - intros m Hw. cbn. unfold bt_max_val, bt_max_val_mut. rewrite last_spec.
      destruct m as [|p m _] using rev_ind; [elim (proj2 Hw); auto|]. rewrite last_error_app. cbn [expect bind].
      eexists _, _. split; [reflexivity|]. split; [reflexivity|]. apply bt_lens; auto. apply in_app_iff. right. left. auto.
    - intros m k Hw. cbn. unfold bt_find_mut, bt_find. rewrite incl_get by apply Hw. apply bt_mut; auto.
      intros p. destruct (bt_case m k (proj1 Hw)) as [[b [v [a [-> [H1 H2]]]]]|[b [a [-> [H1 H2]]]]].
      + rewrite get_mid by auto. intros E. injection E as <-. apply in_elt.
      + rewrite get_gap by auto. discriminate.
    - intros m k Hw. cbn. unfold bt_predecessor_mut, bt_predecessor. apply bt_mut; auto.
      intros p. rewrite range_to_spec by apply Hw. intros E. apply last_error_in in E. destruct E as [l' E].
      assert (Hp : In p (below cmp k m)) by (rewrite E; apply in_app_iff; right; left; auto). apply in_below in Hp. apply Hp.
    - intros m k Hw. cbn. unfold bt_successor_mut, bt_successor. apply bt_mut; auto.
      intros p. rewrite range_from_spec. intros E. apply hd_error_in in E. destruct E as [l' E].
      assert (Hp : In p (above cmp k m)) by (rewrite E; left; auto). apply in_above in Hp. apply Hp.
    - intros m k v [Ha Hne] _. cbn. unfold bt_insert.
      destruct (bt_case m k Ha) as [[b [w [a [-> [H1 H2]]]]]|[b [a [-> [H1 H2]]]]].
      + rewrite get_mid by auto. rewrite put_mid by auto. eexists _, _. split; [reflexivity|].
        split; [split; [eapply asc_mid; eauto|destruct b; discriminate]|]. split; [|split; auto].
        * exists (b ++ a). split; apply app_perm.
        * intros _ Hn. elim Hn. unfold keys. rewrite map_app. apply in_elt.
      + rewrite get_gap by auto. rewrite insert_gap by auto. eexists _, _. split; [reflexivity|].
        split; [|split; [apply app_perm|auto]]. split; [|destruct b; discriminate]. apply asc_app in Ha.
        apply asc_app. split; [apply Ha|]. split; [apply asc_cons; split; [apply Ha|apply H2]|].
        intros x y Hx [<-|Hy]; [apply H1; auto|]. apply (proj2 (proj2 Ha)); auto.
    - intros m k [Ha Hne]. cbn. unfold bt_remove, bt_is_monad. cbn [bind].
      destruct (bt_case m k Ha) as [[b [w [a [-> [H1 H2]]]]]|[b [a [-> [H1 H2]]]]].
      + left. rewrite get_mid by auto. rewrite del_midk by auto.
        destruct (N.of_nat (length (b ++ (k, w) :: a)) =? 1)%N eqn:E.
        * apply N.eqb_eq in E. rewrite app_length in E. cbn [length] in E. destruct b; [|cbn [length] in E; lia].
          destruct a; [|cbn [length] in E; lia]. eexists _, _. split; [reflexivity|]. split; reflexivity.
        * apply N.eqb_neq in E. rewrite app_length in E. cbn [length] in E.
          eexists _, _. split; [reflexivity|]. split; auto. cbn. split; [|split; [apply app_perm|auto]].
          split; [eapply asc_del; eauto|]. intros En. apply app_eq_nil in En. destruct En as [-> ->]. cbn [length] in E. lia.
      + right. rewrite get_gap by auto. split; [destruct (_ =? 1)%N; auto|].
        intros Hk. unfold keys in Hk. rewrite map_app, in_app_iff in Hk.
        destruct Hk as [Hk|Hk]; apply keys_in in Hk; destruct Hk as [v Hv]; [apply H1 in Hv|apply H2 in Hv];
          elim (lt_irrefl OL _ Hv).
    - intros m [Ha Hne]. cbn. unfold bt_remove_min, bt_min_val. destruct m as [|p m]; [congruence|]. cbn [hd_error expect bind tl].
      eexists _, _. split; [reflexivity|]. split; [reflexivity|]. destruct m as [|q m]; cbn; auto.
      split; [|auto]. apply asc_cons in Ha. split; [apply Ha|discriminate].
    - intros m [Ha Hne]. cbn. unfold bt_remove_max, bt_max_val. rewrite last_spec.
      destruct m as [|p m _] using rev_ind; [congruence|]. rewrite last_error_app, init_spec. cbn [expect bind].
      eexists _, _. split; [reflexivity|]. split; [reflexivity|]. destruct m as [|q m]; cbn [is_nil]; [reflexivity|].
      cbn. change (q :: m ++ [p]) with ((q :: m) ++ [p]). split; [|split; auto].
      + split; [|discriminate]. apply asc_app in Ha. apply Ha.
      + apply Permutation_sym, Permutation_cons_append.
  Defined.
End BT.
