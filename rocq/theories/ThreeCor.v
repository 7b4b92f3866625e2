(** A [Tree] is its minimum, its maximum and a sorted list between, whatever the history. *)
From Verif Require Import Base Spec Lists Ops Boxed Laws Tree TreeChildren TreeUpd TreeProofs Hist HistProofs Iter IterSpec Types TypesProofs Sim SizedT Fits FitsCor PartCor Three.

Section Mid.
  Context {B : Build} {K Hi Lo V : Type} {ko : KeyOps K Hi Lo} (KL : KeyLaws ko).
  Context {S : VebOps Hi unit} {Tr : VebOps Lo V} {C : CollOps Hi Lo V Tr}.
  Context (LS : VebLaws (hi_cmp ko) S) (LT : VebLaws (lo_cmp ko) Tr) (LC : CollLaws C).
  Context (fS : list Hi -> Hi -> bool) (fT : list Lo -> Lo -> bool).
  Context (HS : forall s ls h, repr LS s ls -> (safe LS s h <-> fS (keys ls) h = true)).
  Context (HT : forall t ls l, repr LT t ls -> (safe LT t l <-> fT (keys ls) l = true)).
  Notation cmp := (k_cmp ko).
  Notation T := (@Tree K Hi Lo V S Tr C).
  Notation ch_ents := (ch_ents (ko := ko) (S := S) LT LC).
  Notation och_ents := (och_ents (ko := ko) (S := S) LT LC).
  Notation wch := (wch LS LT LC).
  Notation och := (och LS LT LC).
  Notation owch := (owch LS LT LC).
  Notation ooch := (ooch LS LT LC).
  Notation O := (Tree_ops false ko S Tr C).
  Notation ch_lens := (ch_lens LS LT LC).
  Notation pushf := (fits_between ko fS fT).
  Let OL : OrdLaws cmp := KL_k KL.

  (** the children hold the sorted list [m] *)
  Definition hold (o : option (vt S * ct C)) (m : list (K * V)) : Prop :=
    owch o /\ ooch o /\ ascending cmp m /\ Permutation m (och_ents o).
  Lemma hold_nil o m : hold o m -> (o = None <-> m = []).
  Proof.
    intros [Hw [_ [_ HP]]]. destruct o as [x|]; cbn [TreeUpd.owch TreeUpd.och_ents] in *.
    - split; [discriminate|]. intros ->. apply Permutation_nil in HP. elim (ch_nonempty LS LT LC x Hw HP).
    - apply Permutation_sym, Permutation_nil in HP. tauto.
  Qed.
  Lemma hold_in o m p : hold o m -> In p m <-> In p (och_ents o).
  Proof. intros [_ [_ [_ HP]]]. split; apply Permutation_in; [|apply Permutation_sym]; exact HP. Qed.
  Lemma hold_keys o m k : hold o m -> In k (keys m) <-> In k (keys (och_ents o)).
  Proof. intros [_ [_ [_ HP]]]. apply keys_perm in HP. split; apply Permutation_in; [|apply Permutation_sym]; exact HP. Qed.
  Lemma hold_nodup o m : hold o m -> NoDup (keys m).
  Proof. intros H. apply (asc_nodup OL). apply H. Qed.
  Lemma hold_none : hold None [].
  Proof. split; [exact I|]. split; [exact I|]. split; [constructor|constructor]. Qed.

  Lemma hold_ext b x m : hold (Some x) m ->
    exists p, (' (hi, _) <- vext S b (fst x) ;; child_end ko Tr C (snd x) hi (vext Tr b)) = Ret (Some p) /\
      (if b then sp_max m else sp_min m) = Some p.
  Proof.
    intros H. destruct (ch_ext_ok KL LS LT LC b x (proj1 H)) as [p [E [H1 H2]]]. exists p. split; [exact E|].
    assert (Hp := proj2 (hold_in _ _ p H) H1). specialize (H2 (proj1 (proj2 H))).
    destruct b; [apply (sp_max_spec OL)|apply (sp_min_spec OL)]; auto; try apply H; intros q Hq; apply H2; apply (hold_in _ _ q H); exact Hq.
  Qed.
  Lemma hold_next b x m k : hold (Some x) m -> forall dflt,
    ch_next (ko := ko) b x k dflt = match (if b then sp_pred cmp k m else sp_succ cmp k m) with Some p => Ret (Some p) | None => dflt end.
  Proof.
    intros H dflt. destruct (ch_next_ok KL LS LT LC b x k (proj1 H)) as [[p [E [H1 H2]]]|[E H2]]; rewrite E; specialize (H2 (proj1 (proj2 H))).
    - destruct H2 as [H2 H3]. assert (Hp := proj2 (hold_in _ _ p H) H1).
      destruct b; [rewrite (sp_pred_spec OL k p)|rewrite (sp_succ_spec OL k p)]; auto; try apply H; intros q Hq; apply H3; apply (hold_in _ _ q H); exact Hq.
    - destruct b; [rewrite (sp_pred_none k)|rewrite (sp_succ_none k)]; auto; intros q Hq; apply H2; apply (hold_in _ _ q H); exact Hq.
  Qed.
  Lemma hold_lens x m p put w : hold (Some x) m -> ch_lens x p put -> hold (Some (fst x, put w)) (sp_write cmp (fst p) w m).
  Proof.
    intros H [rest [H1 H2]]. destruct (H2 w) as [H3 [H4 H5]]. assert (Hn := hold_nodup _ _ H). destruct H as [Hw [Ho [Ha HP]]].
    split; [exact H3|]. split; [exact (H5 Ho)|]. split; [apply sp_write_asc; auto|]. cbn [TreeUpd.och_ents]. rewrite H4.
    apply (sp_write_perm OL); auto. rewrite HP. exact H1.
  Qed.
  Lemma hold_find s c m k : hold (Some (s, c)) m ->
    (let (hi, lo) := k_split_ref ko k in
     oc <- c_get C c hi ;;
     match oc with
     | None => Ret None
     | Some child => o <- v_find Tr child lo ;; match o with None => Ret None | Some (lo', val) => Ret (Some (k_join ko hi lo', val)) end
     end) = Ret (sp_find cmp k m).
  Proof.
    intros H. assert (Hn := hold_nodup _ _ H). assert (Hk := fun p => hold_in _ _ p H). cbn [TreeUpd.och_ents] in Hk.
    assert (Hk' := fun k => hold_keys _ _ k H). cbn [TreeUpd.och_ents] in Hk'. destruct H as [Hw [Ho _]]. cbn [TreeUpd.owch TreeUpd.ooch] in *.
    destruct (split_J KL k) as [h [l [-> [Hrl Es]]]]. rewrite Es.
    destruct (C_get LC c h) as [[t|] [Eg Hg]]; [apply Hw| |]; rewrite Eg; cbn [bind].
    - assert (Hwt : winv LT t) by (apply Hw in Hg; exact Hg).
      destruct (L_find LT t l Hwt) as [[[l' v]|] [Ef Hf]]; rewrite Ef; cbn [bind].
      + cbn in Hf. destruct Hf as [Hf ->]. f_equal. symmetry. apply (sp_find_some OL); auto. apply Hk. apply (in_ch_J LS); eauto.
      + f_equal. symmetry. apply (sp_find_none OL). intros Hin. apply Hk' in Hin. apply keys_in in Hin. destruct Hin as [v Hin].
        apply (in_ch_J LS) in Hin; auto. destruct Hin as [t' [H1 H2]].
        assert (t' = t) by (eapply coll_inj; [apply Hw| |]; eauto). subst t'.
        apply Hf; [apply Ho in Hg; exact Hg|apply in_keys in H2; exact H2].
    - f_equal. symmetry. apply (sp_find_none OL). intros Hin. apply Hk' in Hin. apply keys_in in Hin. destruct Hin as [v Hin].
      apply (in_ch_J LS) in Hin; auto. destruct Hin as [t' [H1 H2]]. apply Hg. apply (in_map fst) in H1. exact H1.
  Qed.
  Lemma hold_push mn mx o m k v : hold o m -> (N.of_nat (length m) < usize_max)%N -> pushf (keys m) k = true ->
    exists o', tr_push ko S Tr C mn mx o k v = Ret (TR mn (Some (TD mx o')), sp_find cmp k m) /\ hold o' (sp_insert cmp k v m).
  Proof.
    intros H Hl Hf. destruct (push_ok KL LS LT LC mn mx o k v (proj1 H)) as [x [r [E [H1 [H2 [H3 H4]]]]]].
    { destruct H as [_ [_ [_ HP]]]. rewrite <- (Permutation_length HP). exact Hl. }
    exists (Some x). assert (Hn := hold_nodup _ _ H). assert (Hks := hold_keys _ _ k H). destruct H as [Hw [Ho [Ha HP]]].
    assert (Hs : och_safe LS LT LC o k) by (apply (push_fits KL LS LT LC fS fT HS HT o m k Hw Ho Ha HP); exact Hf).
    assert (Hn' : NoDup (keys (och_ents o))) by (eapply NoDup_perm; [apply keys_perm; exact HP|exact Hn]).
    specialize (H4 Ho Hs). destruct r as [q|].
    - destruct H2 as [rest [H5 H6]].
      assert (Hq : fst q = k).
      { destruct (in_dec (key_dec OL) k (keys (och_ents o))) as [Hj|Hj]; [|discriminate (H3 Hn' Hj)].
        assert (Hn2 := ch_nodup LS LT LC x H1 H4). apply (NoDup_perm _ _ (keys_perm _ _ H6)) in Hn2. cbn in Hn2. inversion_clear Hn2 as [|? ? Hx _].
        apply (Permutation_in _ (keys_perm _ _ H5)) in Hj. cbn in Hj. destruct Hj; [auto|contradiction]. }
      destruct q as [k' v']. cbn in Hq. subst k'. split.
      + rewrite E. f_equal. f_equal. symmetry. apply (sp_find_some OL); auto. eapply Permutation_in; [apply Permutation_sym; rewrite HP; exact H5|left; reflexivity].
      + split; [exact H1|]. split; [exact H4|]. split; [apply (sp_insert_asc OL); auto|]. cbn [TreeUpd.och_ents].
        rewrite H6. exact (sp_insert_perm_old OL (k, v') v m rest Hn (perm_trans HP H5)).
    - assert (Hj : ~ In k (keys (och_ents o))).
      { intros Hj. assert (Hn2 := ch_nodup LS LT LC x H1 H4). apply (NoDup_perm _ _ (keys_perm _ _ H2)) in Hn2. cbn in Hn2.
        inversion_clear Hn2 as [|? ? Hx _]. contradiction. }
      rewrite <- Hks in Hj. split.
      + rewrite E. f_equal. f_equal. symmetry. apply (sp_find_none OL). exact Hj.
      + split; [exact H1|]. split; [exact H4|]. split; [apply (sp_insert_asc OL); auto|]. cbn [TreeUpd.och_ents].
        rewrite H2. rewrite (sp_insert_perm_new OL) by auto. rewrite HP. reflexivity.
  Qed.
  Lemma hold_taken x m p o : hold (Some x) m -> ch_taken LS LT LC x p o -> hold o (sp_remove cmp (fst p) m).
  Proof.
    intros H [H1 [H2 H3]]. assert (Hn := hold_nodup _ _ H). destruct H as [Hw [Ho [Ha HP]]].
    split; [exact H1|]. split; [exact (H3 Ho)|]. split; [apply (sp_remove_asc OL); auto|]. apply (sp_remove_perm OL); auto. rewrite HP. exact H2.
  Qed.

  Definition rel (t : T) (s : parts K V) : Prop :=
    match t, s with
    | TR mn None, One p => p = mn
    | TR mn (Some (TD mx o)), Two p q m => p = mn /\ q = mx /\ hold o m
    | _, _ => False
    end.
  Definition orel (ot : option T) (os : option (parts K V)) : Prop :=
    match ot, os with None, None => True | Some t, Some s => rel t s | _, _ => False end.

  (** what a question and its mutable twin answer *)
  Definition says (t : T) (s : parts K V) (q : res (option (K * V))) (m : res (option (K * V * (V -> T)))) (f : found) : Prop :=
    q = Ret (match f with Some (_, p) => Some p | None => None end) /\
    match f with
    | None => m = Ret None
    | Some (pl, p) => exists put, m = Ret (Some (p, put)) /\ forall w, rel (put w) (th_write cmp w (pl, p) s)
    end.
  Lemma says_none t s : says t s (Ret None) (Ret None) None.
  Proof. split; reflexivity. Qed.
  Lemma says_one mn : says (TR mn None) (One mn) (Ret (Some mn)) (Ret (Some (min_mut S Tr C (TR mn None)))) (Some (AtMin, mn)).
  Proof. split; [reflexivity|]. eexists. split; [reflexivity|]. intros w. reflexivity. Qed.
  Lemma says_min mn mx o m : hold o m ->
    says (TR mn (Some (TD mx o))) (Two mn mx m) (Ret (Some mn)) (Ret (Some (min_mut S Tr C (TR mn (Some (TD mx o)))))) (Some (AtMin, mn)).
  Proof. split; [reflexivity|]. eexists. split; [reflexivity|]. intros w. repeat split; apply H. Qed.
  Lemma says_max mn mx o m : hold o m ->
    says (TR mn (Some (TD mx o))) (Two mn mx m) (Ret (Some mx)) (Ret (Some (max_mut S Tr C (TR mn (Some (TD mx o))) (TD mx o)))) (Some (AtMax, mx)).
  Proof. split; [reflexivity|]. eexists. split; [reflexivity|]. intros w. repeat split; apply H. Qed.
  Lemma says_mid mn mx s c m p put putv : hold (Some (s, c)) m -> ch_lens (s, c) p (fun w => put (putv w)) ->
    says (TR mn (Some (TD mx (Some (s, c))))) (Two mn mx m) (Ret (Some p))
      (Ret (Some (p, put_child S Tr C (TR mn (Some (TD mx (Some (s, c))))) (TD mx (Some (s, c))) s put putv))) (Some (Between, p)).
  Proof.
    intros H HL. split; [reflexivity|]. eexists. split; [reflexivity|]. intros w. cbn. split; [reflexivity|]. split; [reflexivity|].
    exact (hold_lens (s, c) m p (fun w => put (putv w)) w H HL).
  Qed.

  Lemma th_find_ok t s k : rel t s -> says t s (tr_find ko S Tr C t k) (tr_find_mut ko S Tr C t k) (th_find cmp k s).
  Proof.
    unfold tr_find, tr_find_mut, th_find. destruct t as [mn [[mx o]|]], s as [p|p q m]; try (intros []; fail); cbn [rel t_min t_data d_max d_children].
    - intros [-> [-> H]]. change (eqb cmp k (fst mn)) with (match cmp k (fst mn) with Eq => true | _ => false end). unfold ltb. destruct (cmp k (fst mn)) eqn:E0; [apply says_min; auto|apply says_none|].
      destruct (eqb cmp k (fst mx)); [apply says_max; auto|].
      destruct o as [[s c]|].
      2:{ assert (m = []) by (apply (hold_nil _ _ H); reflexivity). subst m. apply says_none. }
      assert (Hf := hold_find s c m k H). assert (Hw := proj1 H). cbn [TreeUpd.owch] in Hw.
      destruct (split_J KL k) as [h [l [-> [_ Es]]]]. rewrite Es in *.
      destruct (C_get_mut LC c h) as [o [E1 [E2 _]]]; [apply Hw|]. rewrite E1, E2 in *. cbn [bind] in *.
      destruct o as [[t put]|]; cbn [omap fst] in *; [|injection Hf as <-; apply says_none].
      assert (Hwt : winv LT t).
      { destruct (C_get LC c h) as [[t'|] [E3 Hg]]; [apply Hw| |]; rewrite E3 in E2; try discriminate.
        injection E2 as ->. apply Hw in Hg. exact Hg. }
      destruct (L_find_mut LT t l Hwt) as [o [E3 [E4 Hl]]]. rewrite E3, E4 in *. cbn [bind] in *.
      destruct o as [[[l' v] putv]|]; cbn [omap fst] in *; [|injection Hf as <-; apply says_none].
      injection Hf as <-. apply says_mid; auto.
      exact (get_mut_lens LS LT LC s c h t put (l', v) putv Hw E1 (Hl _ _ eq_refl)).
    - intros ->. unfold eqb. destruct (cmp k (fst mn)); [apply says_one|apply says_none|apply says_none].
  Qed.

  Lemma th_ext_ok (b : bool) mn mx s c m : hold (Some (s, c)) m -> exists p,
    (if b then sp_max m else sp_min m) = Some p /\
    says (TR mn (Some (TD mx (Some (s, c))))) (Two mn mx m)
      (' (hi, _) <- vext S b s ;; child_end ko Tr C c hi (vext Tr b))
      (' (hi, _) <- vext S b s ;; child_end_mut ko S Tr C (TR mn (Some (TD mx (Some (s, c))))) (TD mx (Some (s, c))) s c hi (vext_mut Tr b))
      (Some (Between, p)).
  Proof.
    intros H. destruct (hold_ext b (s, c) m H) as [p [E1 E2]]. exists p. split; [exact E2|].
    assert (Hw : wch (s, c)) by exact (proj1 H). cbn [fst snd] in E1.
    destruct (D_ext LS b s (proj1 Hw)) as [[h []] [Es [Hin _]]]. rewrite Es in *. cbn [bind] in *.
    apply in_keys in Hin. apply (ch_summary LS LT LC (s, c) h Hw) in Hin. destruct Hin as [t Ht].
    destruct (child_end_mut_ok LS LT LC (put_child S Tr C (TR mn (Some (TD mx (Some (s, c))))) (TD mx (Some (s, c))))
                b (s, c) h t Hw Ht) as [p' [put [putv [H1 [H2 H3]]]]].
    cbn [fst snd] in *. unfold child_end_mut. unfold child_end_mut' in H1. rewrite H1, H2 in *. injection E1 as ->.
    apply says_mid; auto.
  Qed.
  Lemma th_next_ok (b : bool) mn mx s c m k qd md f : hold (Some (s, c)) m ->
    says (TR mn (Some (TD mx (Some (s, c))))) (Two mn mx m) qd md (Some f) ->
    says (TR mn (Some (TD mx (Some (s, c))))) (Two mn mx m) (ch_next (ko := ko) b (s, c) k qd)
      (ch_next_mut (ko := ko) (put_child S Tr C (TR mn (Some (TD mx (Some (s, c))))) (TD mx (Some (s, c)))) b (s, c) k md)
      (between (if b then sp_pred cmp k m else sp_succ cmp k m) f).
  Proof.
    intros H Hd. assert (Hq := hold_next b (s, c) m k H). assert (Hw : wch (s, c)) by exact (proj1 H).
    destruct (ch_next_mut_ok KL LS LT LC (put_child S Tr C (TR mn (Some (TD mx (Some (s, c))))) (TD mx (Some (s, c))))
                  b (s, c) k Hw) as [[p [put [putv [H1 [H2 H3]]]]]|[H1 H2]]; rewrite H1, H2.
    - specialize (Hq (Ret None)). rewrite H2 in Hq. destruct (if b then _ else _) as [p'|]; [|discriminate Hq].
      injection Hq as ->. cbn [between fst]. apply says_mid; auto.
    - specialize (Hq Panic). rewrite H2 in Hq. destruct (if b then _ else _) as [p'|]; [discriminate Hq|]. exact Hd.
  Qed.
  Lemma th_pred_ok t s k : rel t s -> says t s (tr_predecessor ko S Tr C t k) (tr_predecessor_mut ko S Tr C t k) (th_pred cmp k s).
  Proof.
    unfold tr_predecessor, tr_predecessor_mut, th_pred. destruct t as [mn [[mx o]|]], s as [p|p q m]; try (intros []; fail); cbn [rel t_min t_data d_max d_children].
    - intros [-> [-> H]]. destruct (leb cmp k (fst mn)) eqn:E0; [apply says_none|].
      change (ltb cmp (fst mx) k) with (match cmp (fst mx) k with Lt => true | _ => false end). unfold eqb. rewrite (cmp_opp OL k (fst mx)).
      destruct o as [[s c]|].
      + destruct (cmp k (fst mx)) eqn:E1; cbn [CompOpp].
        * apply (leb_gt OL) in E0. unfold ltb. rewrite E0. cbn [debug_assert bind].
          destruct (th_ext_ok true mn mx s c m H) as [p [E2 E3]]. cbn [vext vext_mut] in E3. rewrite E2. cbn [between]. exact E3.
        * exact (th_next_ok true mn mx s c m k _ _ _ H (says_min mn mx _ m H)).
        * apply says_max; auto.
      + assert (m = []) by (apply (hold_nil _ _ H); reflexivity). subst m.
        destruct (cmp k (fst mx)) eqn:E1; cbn [CompOpp]; [apply says_min|apply says_min|apply says_max]; auto.
    - intros ->. unfold leb, ltb. rewrite (cmp_opp OL k (fst mn)).
      destruct (cmp k (fst mn)); cbn [CompOpp]; [apply says_none|apply says_none|apply says_one].
  Qed.
  Lemma th_succ_ok t s k : rel t s -> says t s (tr_successor ko S Tr C t k) (tr_successor_mut ko S Tr C t k) (th_succ cmp k s).
  Proof.
    unfold tr_successor, tr_successor_mut, th_succ. destruct t as [mn [[mx o]|]], s as [p|p q m]; try (intros []; fail); cbn [rel t_min t_data d_max d_children].
    - intros [-> [-> H]]. destruct (ltb cmp k (fst mn)) eqn:E0; [apply says_min; auto|].
      destruct (leb cmp (fst mx) k); [apply says_none|].
      destruct o as [[s c]|].
      + destruct (eqb cmp k (fst mn)).
        * destruct (th_ext_ok false mn mx s c m H) as [p [E2 E3]]. cbn [vext vext_mut] in E3. rewrite E2. cbn [between]. exact E3.
        * exact (th_next_ok false mn mx s c m k _ _ _ H (says_max mn mx _ m H)).
      + assert (m = []) by (apply (hold_nil _ _ H); reflexivity). subst m. destruct (eqb cmp k (fst mn)); apply says_max; auto.
    - intros ->. destruct (ltb cmp k (fst mn)); [apply says_one|apply says_none].
  Qed.

  Lemma th_insert_ok t s k v : rel t s -> (N.of_nat (length (th_all s)) < usize_max)%N ->
    match th_place cmp k v s with (Two _ _ mid, inl p) => pushf (keys mid) (fst p) = true | _ => True end ->
    exists t', tr_insert false ko S Tr C t k v = Ret (t', snd (th_insert cmp k v s)) /\ rel t' (fst (th_insert cmp k v s)).
  Proof.
    unfold tr_insert, th_insert, th_place. destruct t as [mn [[mx o]|]], s as [p|p q m]; try (intros []; fail); cbn [rel t_min t_data d_max d_children].
    - intros [-> [-> H]] Hl.
      assert (Hlm : (N.of_nat (length m) < usize_max)%N).
      { cbn [th_all length] in Hl. rewrite app_length in Hl. cbn in Hl. lia. }
      assert (Push : forall mn mx k v, pushf (keys m) k = true -> exists t', tr_push ko S Tr C mn mx o k v = Ret (t', sp_find cmp k m) /\
                rel t' (Two mn mx (sp_insert cmp k v m))).
      { intros mn' mx' k' v' Hf. destruct (hold_push mn' mx' o m k' v' H Hlm Hf) as [o' [E Ho']]. eexists. split; [exact E|]. cbn. auto. }
      destruct (cmp k (fst mn)).
      + intros _. eexists. split; [reflexivity|]. cbn. auto.
      + destruct mn as [k1 v1]. cbn [fst]. destruct (cmp (fst mx) k1); cbn [fst snd]; intros Hf.
        * eexists. split; [reflexivity|]. cbn. auto.
        * exact (Push _ _ _ _ Hf).
        * exact (Push _ _ _ _ Hf).
      + destruct (cmp k (fst mx)); cbn [fst snd]; intros Hf.
        * eexists. split; [reflexivity|]. cbn. auto.
        * exact (Push _ _ _ _ Hf).
        * exact (Push _ _ _ _ Hf).
    - intros -> _. destruct (cmp k (fst mn)); intros _; eexists; (split; [reflexivity|]); cbn; auto using hold_none.
  Qed.

  Lemma th_take (b : bool) s c m : hold (Some (s, c)) m ->
    exists h u r l v o, vext S b s = Ret (h, u) /\ c_remove_key C c h (vrm Tr b) = Ret (r, (l, v)) /\ after_end S Tr C s r (vrm S b) = Ret o /\
      (if b then last_error m else hd_error m) = Some (k_join ko h l, v) /\ hold o (if b then removelast m else tl m).
  Proof.
    intros H. assert (Hw : wch (s, c)) by exact (proj1 H).
    destruct (ends_ok KL LS LT LC b s c Hw) as [h [u [r [l [v [o [E1 [E2 [E3 [Ht H4]]]]]]]]]].
    exists h, u, r, l, v, o. do 3 (split; [assumption|]).
    assert (Hx : (if b then sp_max m else sp_min m) = Some (k_join ko h l, v)).
    { specialize (H4 (proj1 (proj2 H))).
      assert (Hp : In (k_join ko h l, v) m).
      { apply (hold_in _ _ _ H). cbn [TreeUpd.och_ents]. destruct Ht as [_ [HP _]]. apply (Permutation_in _ (Permutation_sym HP)). left; auto. }
      destruct b; [apply (sp_max_spec OL)|apply (sp_min_spec OL)]; auto; try apply H; intros q Hq; apply H4; apply (hold_in _ _ q H); exact Hq. }
    assert (Hr := hold_taken (s, c) m _ o H Ht). split; [destruct b; exact Hx|].
    assert (Ha : ascending cmp m) by apply H. destruct b.
    - apply last_error_in in Hx. destruct Hx as [m' ->]. rewrite removelast_app1. rewrite (sp_remove_max OL (k_join ko h l, v) m' Ha) in Hr. exact Hr.
    - apply hd_error_in in Hx. destruct Hx as [m' ->]. rewrite (sp_remove_min OL (k_join ko h l, v) m' Ha) in Hr. exact Hr.
  Qed.

  Lemma th_remove_min_ok t s : rel t s ->
    exists ot, tr_remove_min ko S Tr C t = Ret (ot, snd (th_remove_min s)) /\ orel ot (fst (th_remove_min s)).
  Proof.
    unfold tr_remove_min. destruct t as [mn [[mx [[s0 c]|]]|]], s as [p|p q m]; try (intros []; fail); cbn [rel t_min t_data d_max d_children].
    - intros [-> [-> H]]. destruct (th_take false s0 c m H) as [h [u [r [l [v [o [E1 [E2 [E3 [E4 E5]]]]]]]]]].
      cbn [vext vrm] in *. rewrite E1. cbn [bind]. rewrite E2. cbn [bind]. rewrite E3. cbn [bind].
      apply hd_error_in in E4. destruct E4 as [m' ->]. cbn. eexists. split; [reflexivity|]. cbn. auto.
    - intros [-> [-> H]]. assert (m = []) by (apply (hold_nil _ _ H); reflexivity). subst m. eexists. split; [reflexivity|]. cbn. auto.
    - intros ->. eexists. split; [reflexivity|]. exact I.
  Qed.
  Lemma th_take_max mn mx s0 c m : hold (Some (s0, c)) m -> exists t',
    (forall (X : Type) (f : option T * (K * V) -> X),
      (' (hi, _) <- v_max_val S s0 ;;
       ' (r, (lo, val)) <- c_remove_key C c hi (v_remove_max Tr) ;;
       ch <- after_end S Tr C s0 r (v_remove_max S) ;;
       Ret (f (Some (TR mn (Some (TD (k_join ko hi lo, val) ch))), mx))) = Ret (f (Some t', mx))) /\
    snd (th_remove_max (Two mn mx m)) = mx /\ orel (Some t') (fst (th_remove_max (Two mn mx m))).
  Proof.
    intros H. destruct (th_take true s0 c m H) as [h [u [r [l [v [o [E1 [E2 [E3 [E4 E5]]]]]]]]]].
    cbn [vext vrm] in *. rewrite E1. cbn [bind]. rewrite E2. cbn [bind]. rewrite E3. cbn [bind].
    eexists. split; [reflexivity|]. cbn [th_remove_max]. rewrite E4. cbn. auto.
  Qed.
  Lemma th_remove_max_ok t s : rel t s ->
    exists ot, tr_remove_max ko S Tr C t = Ret (ot, snd (th_remove_max s)) /\ orel ot (fst (th_remove_max s)).
  Proof.
    unfold tr_remove_max. destruct t as [mn [[mx [[s0 c]|]]|]], s as [p|p q m]; try (intros []; fail); cbn [rel t_min t_data d_max d_children].
    - intros [-> [-> H]]. destruct (th_take_max mn mx s0 c m H) as [t' [E1 [E2 E3]]]. exists (Some t'). rewrite (E1 _ (fun x => x)), E2. auto.
    - intros [-> [-> H]]. assert (m = []) by (apply (hold_nil _ _ H); reflexivity). subst m. eexists. split; [reflexivity|]. cbn. auto.
    - intros ->. eexists. split; [reflexivity|]. exact I.
  Qed.
  Lemma th_remove_ok t s k : rel t s ->
    exists r, tr_remove ko S Tr C t k = Ret r /\
      orel (match r with Ok (ot, _) => ot | Err t' => Some t' end) (fst (th_remove cmp k s)) /\
      match r with Ok (_, p) => Some p | Err _ => None end = snd (th_remove cmp k s).
  Proof.
    intros H. unfold tr_remove, th_remove. destruct (eqb cmp k (fst (t_min t))) eqn:E0.
    { destruct (th_remove_min_ok t s H) as [ot [E1 E2]]. rewrite E1. cbn [bind]. eexists. split; [reflexivity|].
      destruct t as [mn [[mx o]|]], s as [p|p q m]; try (destruct H; fail); cbn [rel t_min] in *.
      - destruct H as [-> _]. rewrite E0. destruct (th_remove_min _). cbn in *. auto.
      - subst p. rewrite E0. cbn in *. auto. }
    destruct t as [mn [[mx o]|]], s as [p|p q m]; try (destruct H; fail); cbn [rel t_min t_data d_max d_children] in *.
    - destruct H as [-> [-> H]]. rewrite E0. destruct o as [[s0 c]|].
      + destruct (eqb cmp k (fst mx)) eqn:E1.
        { destruct (th_take_max mn mx s0 c m H) as [t' [E2 [E3 E4]]]. rewrite E2. destruct (th_remove_max _). cbn in *. subst. eexists. split; [reflexivity|]. auto. }
        destruct (split_J KL k) as [h [l [Ek [Hrl Es]]]]. rewrite Es.
        destruct (ch_remove_ok LS LT LC s0 c k h l (proj1 H) Ek Hrl) as [[r [l' [v [o [E2 [-> [Ht H4]]]]]]]|[E2 Hn]].
        * rewrite E2. cbn [bind].
          assert (Hr := hold_taken (s0, c) m (k, v) o H Ht). cbn [fst] in Hr.
          assert (Hf : sp_find cmp k m = Some (k, v)).
          { apply (sp_find_some OL); [eapply hold_nodup; exact H|]. apply (hold_in _ _ _ H). cbn [TreeUpd.och_ents].
            destruct Ht as [_ [HP _]]. apply (Permutation_in _ (Permutation_sym HP)). left; auto. }
          rewrite Hf. exists (Ok (Some (TR mn (Some (TD mx o))), (k, v))). rewrite <- Ek. split.
          -- destruct r as [[c' [|]]|].
             ++ destruct H4 as [s' [p [E3 ->]]]. rewrite E3. cbn [bind expect]. destruct p as [h' u']. reflexivity.
             ++ subst o. reflexivity.
             ++ subst o. reflexivity.
          -- cbn. auto.
        * rewrite E2. cbn [bind]. eexists. split; [reflexivity|]. rewrite <- (hold_keys _ _ k H) in Hn.
          rewrite (sp_find_none OL k m Hn), (sp_remove_fresh OL k m (proj1 (proj2 (proj2 H))) Hn). cbn. auto.
      + assert (m = []) by (apply (hold_nil _ _ H); reflexivity). subst m.
        replace (eqb cmp (fst mx) k) with (eqb cmp k (fst mx)) by (unfold eqb; rewrite (cmp_opp OL k (fst mx)); destruct (cmp k (fst mx)); reflexivity).
        destruct (eqb cmp k (fst mx)); (eexists; split; [reflexivity|]; cbn; auto using hold_none).
    - subst p. rewrite E0. eexists. split; [reflexivity|]. cbn. auto.
  Qed.

  Lemma th_step_ok c ot os : orel ot os ->
    match c, os with
    | Insert k v, Some s => (N.of_nat (length (th_all s)) < usize_max)%N /\
        match th_place cmp k v s with (Two _ _ mid, inl p) => pushf (keys mid) (fst p) = true | _ => True end
    | _, _ => True
    end ->
    exists ot', step O c ot = Ret (ot', snd (th_step cmp c os)) /\ orel ot' (fst (th_step cmp c os)).
  Proof.
    intros H Hf. destruct ot as [t|], os as [s|]; try (destruct H; fail).
    2:{ destruct c; eexists; (split; [reflexivity|]); exact I || reflexivity. }
    assert (Q : forall q m f, says t s q m f ->
              (exists ot', (o <- q ;; Ret (Some t, OP o)) = Ret (ot', th_ask f) /\ orel ot' (Some s)) /\
              forall w, exists ot', (o <- m ;; match o with Some (p, put) => Ret (Some (put w), OP (Some p)) | None => Ret (Some t, OP None) end) =
                  Ret (ot', snd (th_mut cmp f w s)) /\ orel ot' (fst (th_mut cmp f w s))).
    { intros q m f [-> Hm]. split; [eexists; split; [reflexivity|exact H]|]. intros w. destruct f as [[pl p]|].
      - destruct Hm as [put [-> Hp]]. eexists. split; [reflexivity|]. exact (Hp w).
      - rewrite Hm. eexists. split; [reflexivity|]. exact H. }
    destruct c; cbn [step th_step].
    - destruct Hf as [Hl Hf]. destruct (th_insert_ok t s k v H Hl Hf) as [t' [E Ht]]. cbn [v_insert Tree_ops]. rewrite E. cbn [bind].
      destruct (th_insert cmp k v s). eexists. split; [reflexivity|]. exact Ht.
    - destruct (th_remove_ok t s k H) as [r [E [Hr1 Hr2]]]. cbn [v_remove Tree_ops]. rewrite E. cbn [bind]. destruct (th_remove cmp k s).
      cbn [fst snd] in *. destruct r as [[ot' p]|t']; (eexists; split; [rewrite <- Hr2; reflexivity|exact Hr1]).
    - destruct (th_remove_min_ok t s H) as [ot [E Hr]]. cbn [v_remove_min Tree_ops]. rewrite E. cbn [bind]. destruct (th_remove_min s). eexists. split; [reflexivity|exact Hr].
    - destruct (th_remove_max_ok t s H) as [ot [E Hr]]. cbn [v_remove_max Tree_ops]. rewrite E. cbn [bind]. destruct (th_remove_max s). eexists. split; [reflexivity|exact Hr].
    - destruct t as [mn [[mx o]|]], s as [p|p q m]; try (destruct H; fail); cbn in H; [|subst p]; eexists; (split; [reflexivity|]); [exact H|exact I].
    - destruct t as [mn [[mx o]|]], s as [p|p q m]; try (destruct H; fail); eexists; (split; [reflexivity|]); exact H.
    - destruct t as [mn [[mx o]|]], s as [p|p q m]; try (destruct H; fail); cbn in H; [destruct H as [-> [-> H]]|subst p]; eexists; (split; [reflexivity|]); cbn; auto.
    - destruct t as [mn [[mx o]|]], s as [p|p q m]; try (destruct H; fail); cbn in H; [destruct H as [-> [-> H]]|subst p]; eexists; (split; [reflexivity|]); cbn; auto.
    - exact (proj1 (Q _ _ _ (th_find_ok t s k H))).
    - exact (proj1 (Q _ _ _ (th_pred_ok t s k H))).
    - exact (proj1 (Q _ _ _ (th_succ_ok t s k H))).
    - destruct t as [mn [[mx o]|]], s as [p|p q m]; try (destruct H; fail); cbn in H; [destruct H as [-> [-> H]]|subst p]; eexists; (split; [reflexivity|]); cbn; auto.
    - destruct t as [mn [[mx o]|]], s as [p|p q m]; try (destruct H; fail); cbn in H; [destruct H as [-> [-> H]]|subst p]; eexists; (split; [reflexivity|]); cbn; auto.
    - exact (proj2 (Q _ _ _ (th_find_ok t s k H)) w).
    - exact (proj2 (Q _ _ _ (th_pred_ok t s k H)) w).
    - exact (proj2 (Q _ _ _ (th_succ_ok t s k H)) w).
  Qed.
End Mid.

(** *** Whatever steps as the machine does: the runs, what is handed out in the end, and what an iterator sees *)
Definition th_room {B : Build} {K V} (cmp : K -> K -> comparison) (f : list K -> K -> bool) (c : op K V) (os : option (parts K V)) : Prop :=
  match c, os with
  | Insert k v, Some s => (N.of_nat (length (th_all s)) < usize_max)%N /\
      match th_place cmp k v s with (Two _ _ mid, inl p) => f (keys mid) (fst p) = true | _ => True end
  | _, _ => True
  end.
Definition omatch {T K V} (R : T -> parts K V -> Prop) (ot : option T) (os : option (parts K V)) : Prop :=
  match ot, os with None, None => True | Some t, Some s => R t s | _, _ => False end.
Definition steps_as {B : Build} {K V} (cmp : K -> K -> comparison) (f : list K -> K -> bool) (O : VebOps K V) (R : vt O -> parts K V -> Prop) : Prop :=
  forall c ot os, omatch R ot os -> th_room cmp f c os ->
  exists ot', step O c ot = Ret (ot', snd (th_step cmp c os)) /\ omatch R ot' (fst (th_step cmp c os)).
Section Any.
  Context {B : Build} {K V : Type} {cmp : K -> K -> comparison} (OL : OrdLaws cmp) {f : list K -> K -> bool}.
  Context {O : VebOps K V} {R : vt O -> parts K V -> Prop} (HR : steps_as cmp f O R).

  Lemma as_run cs : forall ot os, omatch R ot os -> th_fitting cmp f cs os ->
    exists ot', run O cs ot = Ret (ot', snd (th_run cmp cs os)) /\ omatch R ot' (fst (th_run cmp cs os)).
  Proof.
    induction cs as [|c cs IH]; intros ot os H Hf; cbn [run th_run].
    - eexists. split; [reflexivity|exact H].
    - destruct Hf as [H1 H2]. destruct (HR c ot os H H1) as [ot1 [E Ho]]. rewrite E. cbn [bind].
      destruct (th_step cmp c os) as [os1 o1]. cbn [fst snd] in *.
      destruct (IH ot1 os1 Ho H2) as [ot2 [E2 Ho2]]. rewrite E2. cbn [bind]. destruct (th_run cmp cs os1). eexists. split; [reflexivity|exact Ho2].
  Qed.
  Lemma min_said t s : R t s -> v_min_val O t = Ret (snd (th_min s)).
  Proof.
    intros H. destruct (HR Min (Some t) (Some s) H I) as [ot [E _]]. cbn [step th_step snd] in E. unfold query1 in E.
    destruct (v_min_val O t) as [p|]; [|discriminate E]. cbn [bind] in E. injection E as _ E. destruct (th_min s). cbn in *. congruence.
  Qed.
  Lemma max_said t s : R t s -> v_max_val O t = Ret (snd (th_max s)).
  Proof.
    intros H. destruct (HR Max (Some t) (Some s) H I) as [ot [E _]]. cbn [step th_step snd] in E. unfold query1 in E.
    destruct (v_max_val O t) as [p|]; [|discriminate E]. cbn [bind] in E. injection E as _ E. destruct (th_max s). cbn in *. congruence.
  Qed.
  Lemma pred_said t s k : R t s -> v_predecessor O t k = Ret (match th_pred cmp k s with Some (_, p) => Some p | None => None end).
  Proof.
    intros H. destruct (HR (Pred k) (Some t) (Some s) H I) as [ot [E _]]. cbn [step th_step snd] in E. unfold query in E.
    destruct (v_predecessor O t k) as [o|]; [|discriminate E]. cbn [bind] in E. injection E as _ E. rewrite E. reflexivity.
  Qed.
  Lemma succ_said t s k : R t s -> v_successor O t k = Ret (match th_succ cmp k s with Some (_, p) => Some p | None => None end).
  Proof.
    intros H. destruct (HR (Succ k) (Some t) (Some s) H I) as [ot [E _]]. cbn [step th_step snd] in E. unfold query in E.
    destruct (v_successor O t k) as [o|]; [|discriminate E]. cbn [bind] in E. injection E as _ E. rewrite E. reflexivity.
  Qed.
  Lemma pop_said t s : R t s -> exists ot, v_remove_min O t = Ret (ot, snd (th_remove_min s)) /\ omatch R ot (fst (th_remove_min s)).
  Proof.
    intros H. destruct (HR RemoveMin (Some t) (Some s) H I) as [ot [E Ho]]. cbn [step th_step] in E, Ho.
    destruct (v_remove_min O t) as [[ot' p]|]; [|discriminate E]. cbn [bind] in E. destruct (th_remove_min s) as [os q]. cbn [fst snd] in *.
    injection E as -> ->. eauto.
  Qed.

  Lemma th_drain n : forall t s, length (th_all s) = n -> R t s -> drain (v_remove_min O) n (Some t) = Ret (None, th_all s).
  Proof.
    induction n as [|n IH]; intros t s Hn H; [destruct s; discriminate Hn|]. cbn [drain].
    destruct (pop_said t s H) as [ot [E Hr]]. rewrite E. cbn [bind].
    destruct s as [p|mn mx [|p m]]; cbn [th_remove_min fst snd] in *; (destruct ot as [t'|]; cbn [omatch] in Hr; try (destruct Hr; fail)).
    - cbn in Hn. injection Hn as <-. reflexivity.
    - rewrite (IH t' (One mx)); [reflexivity| |exact Hr]. cbn in *. lia.
    - rewrite (IH t' (Two p mx m)); [reflexivity| |exact Hr]. cbn in *. lia.
  Qed.
  Lemma th_contents t s : R t s -> contents O t (th_all s).
  Proof. intros H. exists (length (th_all s)). apply th_drain; auto. Qed.

  Definition ends_of (it : Iter K) : ends :=
    match it_data it with
    | None => None
    | Some Start => Some (None, None)
    | Some (Front f) => Some (Some f, None)
    | Some (Back b) => Some (None, Some b)
    | Some (Both f b) => Some (Some f, Some b)
    end.
  Lemma turn_ok b t s it : R t s -> (it_emitted it + 1 <= usize_max)%N ->
    match it_turn cmp b s (ends_of it) with
    | Some (c, o) => exists it', it_call O (eqb cmp) t b it = Ret (it', o) /\ ends_of it' = c /\ (it_emitted it' <= it_emitted it + 1)%N
    | None => it_call O (eqb cmp) t b it = Panic
    end.
  Proof.
    intros H He. destruct it as [d e]. cbn [it_emitted] in He.
    assert (Em : forall d' (p : K * V), emit (V := V) (IT d e) d' p = Ret (IT (Some d') (e + 1)%N, Some p)).
    { intros d' p. unfold emit. cbn [it_emitted]. unfold usize_add. replace (e + 1 <=? usize_max)%N with true by (symmetry; apply N.leb_le; exact He). reflexivity. }
    assert (Fl : forall x y, eqb cmp x y = eqb cmp y x).
    { intros x y. change ((match cmp x y with Eq => true | _ => false end) = match cmp y x with Eq => true | _ => false end). rewrite (cmp_opp OL y x). destruct (cmp y x); reflexivity. }
    assert (Ps : forall k, v_predecessor O t k = Ret (match th_pred cmp k s with Some (_, p) => Some p | None => None end)) by (intros k; exact (pred_said t s k H)).
    assert (Ss : forall k, v_successor O t k = Ret (match th_succ cmp k s with Some (_, p) => Some p | None => None end)) by (intros k; exact (succ_said t s k H)).
    destruct d as [[|j|k|j k]|]; destruct b; unfold it_call, it_next, it_next_back, ends_of, it_turn; cbn [it_data];
      rewrite ?Ps, ?Ss, ?(min_said t s H), ?(max_said t s H); cbn [bind];
      try destruct (th_max s) as [pl p]; try destruct (th_min s) as [pl' p']; cbn [snd];
      try (destruct (th_pred cmp k s) as [[? ?]|]); try (destruct (th_succ cmp j s) as [[? ?]|]);
      rewrite ?andb_true_r, ?andb_false_r, ?(Fl j);
      try (match goal with |- context [if eqb cmp ?x ?y then _ else _] => destruct (eqb cmp x y) end);
      rewrite ?Em; unfold debug_assert; try (destruct dbg); cbn [bind];
      try reflexivity; unfold stop; (eexists; split; [reflexivity|]; cbn; split; [reflexivity|lia]).
  Qed.
  Lemma walk_ok t s dirs : R t s -> forall it, (it_emitted it + N.of_nat (length dirs) <= usize_max)%N ->
    match th_walk cmp s dirs (ends_of it) with
    | Some r => exists it', it_run O (eqb cmp) t dirs it = Ret (it', r)
    | None => it_run O (eqb cmp) t dirs it = Panic
    end.
  Proof.
    intros H. induction dirs as [|b dirs IH]; intros it He; [eexists; reflexivity|]. cbn [length] in He. cbn [th_walk it_run].
    assert (Q := turn_ok b t s it H ltac:(lia)). destruct (it_turn cmp b s (ends_of it)) as [[c o]|]; [|rewrite Q; reflexivity].
    destruct Q as [it' [E [Ec Hl]]]. rewrite E. cbn [bind]. specialize (IH it' ltac:(lia)). rewrite Ec in IH.
    destruct (th_walk cmp s dirs c) as [r|]; [destruct IH as [it2 IH]; rewrite IH; eexists; reflexivity|rewrite IH; reflexivity].
  Qed.
  Lemma th_iter t s dirs : R t s -> (N.of_nat (length dirs) <= usize_max)%N ->
    match th_walk cmp s dirs (Some (None, None)) with
    | Some r => exists it, it_run O (eqb cmp) t dirs it_new = Ret (it, r)
    | None => it_run O (eqb cmp) t dirs it_new = Panic
    end.
  Proof. intros H Hn. exact (walk_ok t s dirs H it_new Hn). Qed.
  Lemma as_state ot os : omatch R ot os -> th_state cmp O ot os.
  Proof.
    intros H. destruct ot as [t|], os as [s|]; auto. split; [exact (th_contents t s H)|]. intros dirs Hn. exact (th_iter t s dirs H Hn).
  Qed.
  Lemma as_machine cs : th_fitting cmp f cs None -> exists ot, run O cs None = Ret (ot, snd (th_run cmp cs None)) /\
    th_state cmp O ot (fst (th_run cmp cs None)) /\ omatch R ot (fst (th_run cmp cs None)).
  Proof. intros H. destruct (as_run cs None None I H) as [ot [E Ho]]. exists ot. split; [exact E|]. split; [exact (as_state ot _ Ho)|exact Ho]. Qed.
End Any.

(** *** Boxes *)
Section Box.
  Context {B : Build} {K V : Type} (O : VebOps K V).
  Lemma box_step c ot r o : step O c ot = Ret (r, o) -> step (Box_ops O) c (omap mkbox ot) = Ret (omap mkbox r, o).
  Proof.
    destruct ot as [t|]; cbn [omap].
    2:{ destruct c; cbn; intros [= <- <-]; reflexivity. }
    destruct c; cbn [step]; unfold query, query1, write, write1; cbn [v_is_monad v_into_monad v_min_val v_max_val v_find v_predecessor v_successor
      v_min_val_mut v_max_val_mut v_find_mut v_predecessor_mut v_successor_mut v_insert v_remove v_remove_min v_remove_max Box_ops unbox]; intros E;
      match type of E with (bind ?m _) = _ => destruct m as [x|]; [|discriminate E] end; cbn [bind rmap] in *;
      try match type of x with (_ * _)%type => destruct x as [? ?] | option _ => destruct x as [[? ?]|] | result _ _ => destruct x as [[? ?]|] end; cbn [bind omap box_lens box_rm fst snd] in *; try injection E as <- <-; try reflexivity.
  Qed.
  Definition box_rel (R : vt O -> parts K V -> Prop) (t : vt (Box_ops O)) (s : parts K V) : Prop := R (unbox t) s.
  Lemma box_steps cmp f R : steps_as cmp f O R -> steps_as cmp f (Box_ops O) (box_rel R).
  Proof.
    intros HR c ot os H Hf. destruct (HR c (omap unbox ot) os) as [ot' [E Ho]]; [destruct ot; exact H|exact Hf|].
    apply box_step in E. replace (omap mkbox (omap unbox ot)) with ot in E by (destruct ot as [[t]|]; reflexivity).
    exists (omap mkbox ot'). split; [exact E|]. destruct ot'; exact Ho.
  Qed.
End Box.

(** *** Trees with a size *)
Section Sized.
  Context {B : Build} {K V : Type} {cmp : K -> K -> comparison} {f : list K -> K -> bool} {O : VebOps K V} {R : vt O -> parts K V -> Prop}.
  Definition resized (c : op K V) (o : out K V) (n : N) : N :=
    match c, o with
    | Insert _ _, OP None => n + 1
    | Remove _, OP (Some _) | RemoveMin, OP (Some _) | RemoveMax, OP (Some _) => n - 1
    | _, _ => n
    end%N.
  Definition size_ok (c : op K V) (r : option (vt O)) (o : out K V) (n : N) : Prop :=
    match c with
    | Insert _ _ => o = OP None -> (n + 1 <= usize_max)%N
    | Remove _ | RemoveMin | RemoveMax => (1 <= n)%N /\ match r, o with Some _, OP (Some _) => (2 <= n)%N | _, _ => True end
    | IsMonad => o = OB true -> n = 1%N
    | _ => True
    end.
  Lemma sub_one n : (1 <= n)%N -> checked_sub n 1 = Ret (n - 1)%N.
  Proof. intros H. unfold checked_sub. replace (1 <=? n)%N with true by (symmetry; apply N.leb_le; exact H). reflexivity. Qed.
  Lemma nonzero_one n : (2 <= n)%N -> nonzero (n - 1) = Some (n - 1)%N.
  Proof. intros H. unfold nonzero. replace (n - 1 =? 0)%N with false by (symmetry; apply N.eqb_neq; lia). reflexivity. Qed.
  Lemma sized_step c t n r o : step O c (Some t) = Ret (r, o) -> size_ok c r o n ->
    step (Sized_ops O) c (Some (SZ t n)) = Ret (omap (fun t' => SZ t' (resized c o n)) r, o).
  Proof.
    destruct c; cbn [step size_ok]; unfold query, query1, write, write1; cbn [v_is_monad v_into_monad v_min_val v_max_val v_find v_predecessor v_successor
      v_min_val_mut v_max_val_mut v_find_mut v_predecessor_mut v_successor_mut v_insert v_remove v_remove_min v_remove_max Sized_ops sz_tree sz_size];
      unfold sz_insert, sz_remove, sz_remove_end; cbn [sz_tree sz_size]; intros E Hn;
      try match type of E with (bind ?m _) = _ => destruct m as [x|]; [|discriminate E] end; cbn [bind rmap] in *.
    - destruct x as [t' [p|]]; cbn [bind] in *; injection E as <- <-; [reflexivity|]. unfold checked_add.
      replace (n + 1 <=? usize_max)%N with true by (symmetry; apply N.leb_le; auto). reflexivity.
    - destruct x as [[[t'|] p]|t']; cbn [bind] in *; injection E as <- <-; try reflexivity. rewrite (sub_one n) by tauto. cbn [bind].
      rewrite nonzero_one by tauto. reflexivity.
    - rewrite (sub_one n) by tauto. destruct x as [[t'|] p]; cbn [bind] in *; injection E as <- <-; try reflexivity. rewrite nonzero_one by tauto. reflexivity.
    - rewrite (sub_one n) by tauto. destruct x as [[t'|] p]; cbn [bind] in *; injection E as <- <-; try reflexivity. rewrite nonzero_one by tauto. reflexivity.
    - destruct x as [p|t']; injection E as <- <-; reflexivity.
    - destruct x; injection E as <- <-; [|reflexivity]. rewrite (Hn eq_refl). reflexivity.
    - injection E as <- <-; reflexivity.
    - injection E as <- <-; reflexivity.
    - injection E as <- <-; reflexivity.
    - injection E as <- <-; reflexivity.
    - injection E as <- <-; reflexivity.
    - destruct x as [p put]. injection E as <- <-; reflexivity.
    - destruct x as [p put]. injection E as <- <-; reflexivity.
    - destruct x as [[p put]|]; injection E as <- <-; reflexivity.
    - destruct x as [[p put]|]; injection E as <- <-; reflexivity.
    - destruct x as [[p put]|]; injection E as <- <-; reflexivity.
  Qed.
  Context (OL : OrdLaws cmp).
  Lemma remove_length k (m : list (K * V)) : ascending cmp m -> length (sp_remove cmp k m) = match sp_find cmp k m with Some _ => length m - 1 | None => length m end.
  Proof.
    intros Ha. assert (Hn := asc_nodup OL m Ha). destruct (sp_find cmp k m) as [p|] eqn:E.
    - apply (sp_find_in OL) in E. destruct E as [E <-]. destruct (in_split _ _ E) as [m1 [m2 ->]].
      rewrite (Permutation_length (sp_remove_perm OL p _ (m1 ++ m2) Hn ltac:(symmetry; apply Permutation_middle))).
      rewrite !app_length. cbn [length]. lia.
    - rewrite (sp_remove_fresh OL); auto. intros Hi. unfold keys in Hi. apply in_map_iff in Hi. destruct Hi as [p [<- Hp]].
      destruct p as [k v]. cbn [fst] in E. rewrite (sp_find_some OL k v m Hn Hp) in E. discriminate E.
  Qed.
  Lemma insert_length k (v : V) m : ascending cmp m -> length (sp_insert cmp k v m) = match sp_find cmp k m with Some _ => length m | None => 1 + length m end.
  Proof.
    intros Ha. assert (E := remove_length k m Ha). unfold sp_insert. unfold sp_remove in E. rewrite app_length in *. cbn [length].
    destruct (sp_find cmp k m) as [p|] eqn:Ef; [|lia]. apply (sp_find_in OL) in Ef. destruct Ef as [Ef _]. destruct m; [destruct Ef|]. cbn [length] in *. lia.
  Qed.
  Definition th_asc (s : parts K V) : Prop := match s with One _ => True | Two _ _ m => ascending cmp m end.
  Definition all_of (os : option (parts K V)) : list (K * V) := match os with Some s => th_all s | None => [] end.
  Lemma write_length w x (s : parts K V) : length (th_all (th_write cmp w x s)) = length (th_all s).
  Proof. destruct s as [p|mn mx m], x as [[] p']; cbn; rewrite ?app_length; unfold sp_write; rewrite ?map_length; reflexivity. Qed.
  Lemma th_length c s : th_asc s -> match fst (th_step cmp c (Some s)) with
    | None => th_all s <> [] /\ length (th_all s) = 1
    | Some s' => N.of_nat (length (th_all s')) = resized c (snd (th_step cmp c (Some s))) (N.of_nat (length (th_all s)))
    end.
  Proof.
    intros Ha. assert (Hw : forall x w, N.of_nat (length (th_all (match x with Some y => th_write cmp w y s | None => s end))) = N.of_nat (length (th_all s)))
      by (intros [y|] w; [rewrite write_length|]; reflexivity).
    destruct c; cbn [th_step fst snd resized]; try reflexivity; unfold th_mut; cbn [fst snd]; auto.
    - unfold th_insert, th_place. destruct s as [p|mn mx m].
      + destruct (cmp k (fst p)); cbn; reflexivity.
      + cbn [th_asc] in Ha. cbn [fst snd].
        destruct (cmp k (fst mn)); [|destruct (cmp (fst mx) (fst mn))|destruct (cmp k (fst mx))]; cbn [fst snd th_all];
          try (cbn [length app]; rewrite ?app_length; cbn [length]; lia);
          cbn [length]; rewrite !app_length, insert_length by exact Ha; destruct (sp_find cmp _ m); cbn [length]; lia.
    - destruct s as [p|mn mx m]; cbn [th_remove].
      + destruct (eqb cmp k (fst p)); cbn; [split; [discriminate|reflexivity]|reflexivity].
      + cbn [th_asc] in Ha. destruct (eqb cmp k (fst mn)); [destruct m as [|p m]; cbn [th_remove_min fst snd th_all app]; cbn [length]; rewrite ?app_length; cbn [length]; lia|].
        destruct (eqb cmp k (fst mx)).
        * unfold th_remove_max. destruct (last_error m) as [p|] eqn:El; cbn [fst snd th_all length].
          -- apply last_error_in in El. destruct El as [m' ->]. rewrite removelast_app1, !app_length. cbn [length]. lia.
          -- apply last_error_none in El. subst m. reflexivity.
        * cbn [fst snd th_all length]. rewrite !app_length, remove_length by exact Ha. destruct (sp_find cmp k m) as [p|] eqn:Ef; cbn [length]; [|lia].
          apply (sp_find_in OL) in Ef. destruct m; [destruct Ef as [[] _]|]. cbn [length]. lia.
    - destruct s as [p|mn mx [|p m]]; cbn [th_remove_min fst snd th_all app]; cbn [length]; rewrite ?app_length; cbn [length]; try lia. split; [discriminate|reflexivity].
    - destruct s as [p|mn mx m]; cbn [th_remove_max fst snd]; [split; [discriminate|reflexivity]|]. destruct (last_error m) as [p|] eqn:El; cbn [fst snd th_all length].
      + apply last_error_in in El. destruct El as [m' ->]. rewrite removelast_app1, !app_length. cbn [length]. lia.
      + apply last_error_none in El. subst m. reflexivity.
    - destruct s as [p|mn mx m]; cbn; [split; [discriminate|reflexivity]|reflexivity].
    - exact (Hw (Some (th_min s)) w).
    - exact (Hw (Some (th_max s)) w).
  Qed.

  Context (HR : steps_as cmp f O R) (HA : forall t s, R t s -> th_asc s).
  Definition sized_rel (t : vt (Sized_ops O)) (s : parts K V) : Prop := R (sz_tree t) s /\ sz_size t = N.of_nat (length (th_all s)).
  Lemma all_one (s : parts K V) : (1 <= N.of_nat (length (th_all s)))%N.
  Proof. destruct s; cbn [th_all length]; lia. Qed.
  Lemma sized_steps : steps_as cmp f (Sized_ops O) sized_rel.
  Proof.
    intros c ot os H Hf. destruct ot as [[t n]|], os as [s|]; try (destruct H; fail).
    2:{ destruct (HR c None None I Hf) as [ot' [E Ho]]. destruct c; cbn [step th_step] in *;
        try (exists None; split; [reflexivity|exact I]). eexists. split; [reflexivity|]. cbn [omatch fst].
        injection E as <-. split; [exact Ho|reflexivity]. }
    destruct H as [H Hn]. cbn [sz_tree sz_size] in H, Hn. destruct (HR c (Some t) (Some s) H Hf) as [ot' [E Ho]].
    assert (Hl := th_length c s (HA t s H)). assert (H1 := all_one s). assert (E2 := E). apply (sized_step c t n) in E2.
    - exists (omap (fun t' => SZ t' (resized c (snd (th_step cmp c (Some s))) n)) ot'). split; [exact E2|].
      destruct ot' as [t'|], (fst (th_step cmp c (Some s))) as [s'|]; try (destruct Ho; fail); [|exact I].
      split; [exact Ho|]. cbn [sz_size]. rewrite Hl, Hn. reflexivity.
    - destruct c; cbn [size_ok]; auto.
      + intros _. cbn [th_room] in Hf. lia.
      + split; [lia|]. destruct ot' as [t'|]; auto. destruct (fst (th_step cmp (Remove k) (Some s))) as [s'|]; [|destruct Ho].
        destruct (snd (th_step cmp (Remove k) (Some s))) as [[p|]|]; auto. cbn [resized] in Hl. assert (H2 := all_one s'). lia.
      + split; [lia|]. destruct ot' as [t'|]; auto. destruct (fst (th_step cmp RemoveMin (Some s))) as [s'|]; [|destruct Ho].
        destruct (snd (th_step cmp RemoveMin (Some s))) as [[p|]|]; auto. cbn [resized] in Hl. assert (H2 := all_one s'). lia.
      + split; [lia|]. destruct ot' as [t'|]; auto. destruct (fst (th_step cmp RemoveMax (Some s))) as [s'|]; [|destruct Ho].
        destruct (snd (th_step cmp RemoveMax (Some s))) as [[p|]|]; auto. cbn [resized] in Hl. assert (H2 := all_one s'). lia.
      + cbn [th_step snd]. destruct s; [intros _; exact Hn|discriminate].
  Qed.
End Sized.


Lemma th_fitting_any {B : Build} {K V} (cmp : K -> K -> comparison) (f : list K -> K -> bool) : (forall m k, f m k = true) ->
  forall (cs : list (op K V)) os, th_fitting cmp (fun _ _ => true) cs os -> th_fitting cmp f cs os.
Proof.
  intros Hf. induction cs as [|c cs IH]; intros os H; [exact I|]. destruct H as [H1 H2]. split; [|apply IH; exact H2].
  destruct c as [k v|k| | | | | | |k|k|k|w|w|k w|k w|k w]; auto. destruct os as [s|]; auto. destruct H1 as [H1 _]. split; [exact H1|].
  destruct (th_place cmp k v s) as [[p|mn mx mid] [q|o]]; auto.
Qed.

Section All.
  Context {B : Build} {K Hi Lo V : Type} (ko : KeyOps K Hi Lo) (KL : KeyLaws ko) (S : VebOps Hi unit) (Tr : VebOps Lo V) (C : CollOps Hi Lo V Tr).
  Context (TS : VebType false Hi unit (hi_cmp ko) S) (TT : VebType false Lo V (lo_cmp ko) Tr) (CT : CollType Tr Hi C).
  Lemma tree_steps : steps_as (k_cmp ko) (fits_between ko (fits TS) (fits TT)) (Tree_ops false ko S Tr C) (rel (type_laws TS) (type_laws TT) (coll_laws CT)).
  Proof. exact (th_step_ok KL (type_laws TS) (type_laws TT) (coll_laws CT) (fits TS) (fits TT) (safe_fits TS) (safe_fits TT)). Qed.
End All.
Lemma three_all {B : Build} {K Hi Lo V} (ko : KeyOps K Hi Lo) (KL : KeyLaws ko) (S : VebOps Hi unit) (Tr : VebOps Lo V) (C : CollOps Hi Lo V Tr)
  (TS : VebType false Hi unit (hi_cmp ko) S) (TT : VebType false Lo V (lo_cmp ko) Tr) (CT : CollType Tr Hi C) cs :
  th_fitting (k_cmp ko) (fits_between ko (fits TS) (fits TT)) cs None ->
  exists ot, run (Tree_ops false ko S Tr C) cs None = Ret (ot, snd (th_run (k_cmp ko) cs None)) /\
    th_state (k_cmp ko) (Tree_ops false ko S Tr C) ot (fst (th_run (k_cmp ko) cs None)).
Proof.
  intros H. destruct (as_machine (KL_k KL) (tree_steps ko KL S Tr C TS TT CT) cs H) as [ot [E [Hs _]]]. eauto.
Qed.
Lemma three_plain {B : Build} {K Hi Lo V} (ko : KeyOps K Hi Lo) (KL : KeyLaws ko) (S : VebOps Hi unit) (Tr : VebOps Lo V) (C : CollOps Hi Lo V Tr)
  (TS : VebType false Hi unit (hi_cmp ko) S) (TT : VebType false Lo V (lo_cmp ko) Tr) (CT : CollType Tr Hi C) : plain TS = true -> plain TT = true ->
  forall cs, th_fitting (k_cmp ko) (fun _ _ => true) cs None ->
  exists ot, run (Tree_ops false ko S Tr C) cs None = Ret (ot, snd (th_run (k_cmp ko) cs None)) /\
    th_state (k_cmp ko) (Tree_ops false ko S Tr C) ot (fst (th_run (k_cmp ko) cs None)).
Proof.
  intros HS HT cs H. apply (three_all ko KL S Tr C TS TT CT). revert H. apply th_fitting_any. apply push_any; intros; apply fits_plain; auto.
Qed.
Lemma three_boxed {B : Build} {K Hi Lo V} (ko : KeyOps K Hi Lo) (KL : KeyLaws ko) (S : VebOps Hi unit) (Tr : VebOps Lo V) (C : CollOps Hi Lo V Tr)
  (TS : VebType false Hi unit (hi_cmp ko) S) (TT : VebType false Lo V (lo_cmp ko) Tr) (CT : CollType Tr Hi C) cs :
  th_fitting (k_cmp ko) (fits_between ko (fits TS) (fits TT)) cs None ->
  exists ot, run (Box_ops (Tree_ops false ko S Tr C)) cs None = Ret (ot, snd (th_run (k_cmp ko) cs None)) /\
    th_state (k_cmp ko) (Box_ops (Tree_ops false ko S Tr C)) ot (fst (th_run (k_cmp ko) cs None)).
Proof.
  intros H. destruct (as_machine (KL_k KL) (box_steps _ _ _ _ (tree_steps ko KL S Tr C TS TT CT)) cs H) as [ot [E [Hs _]]]. eauto.
Qed.
Lemma three_sized {B : Build} {K Hi Lo V} (ko : KeyOps K Hi Lo) (KL : KeyLaws ko) (S : VebOps Hi unit) (Tr : VebOps Lo V) (C : CollOps Hi Lo V Tr)
  (TS : VebType false Hi unit (hi_cmp ko) S) (TT : VebType false Lo V (lo_cmp ko) Tr) (CT : CollType Tr Hi C) cs :
  let W := Sized_ops (Tree_ops false ko S Tr C) in
  th_fitting (k_cmp ko) (fits_between ko (fits TS) (fits TT)) cs None ->
  exists ot, run W cs None = Ret (ot, snd (th_run (k_cmp ko) cs None)) /\ th_state (k_cmp ko) W ot (fst (th_run (k_cmp ko) cs None)) /\
    forall t s, ot = Some t -> fst (th_run (k_cmp ko) cs None) = Some s -> sz_len t = N.of_nat (length (th_all s)).
Proof.
  intros W H.
  assert (HS : steps_as (k_cmp ko) (fits_between ko (fits TS) (fits TT)) W (sized_rel (O := Tree_ops false ko S Tr C) (R := rel (type_laws TS) (type_laws TT) (coll_laws CT)))).
  { apply (sized_steps (KL_k KL) (tree_steps ko KL S Tr C TS TT CT)). intros [mn [[mx o]|]] [p|p q m] Hr; try (destruct Hr; fail); [|exact I].
    destruct Hr as [_ [_ Hr]]. apply Hr. }
  destruct (as_machine (KL_k KL) HS cs H) as [ot [E [Hs Ho]]]. exists ot. split; [exact E|]. split; [exact Hs|].
  intros t s -> Es. rewrite Es in Ho. exact (proj2 Ho).
Qed.

(** Three insertions, the smallest key last *)
Section Last.
  Context {B : Build} {K V : Type} {cmp : K -> K -> comparison} (OL : OrdLaws cmp).
  Context (x y z : K) (a b c : V) (Hzx : cmp z x = Lt) (Hxy : cmp x y = Lt).
  Lemma cmp_same k : cmp k k = Eq.
  Proof. apply (cmp_eq OL). reflexivity. Qed.
  Lemma cmp_zy : cmp z y = Lt.
  Proof. exact (cmp_trans OL _ _ _ Hzx Hxy). Qed.
  Lemma cmp_xz : cmp x z = Gt.
  Proof. rewrite (cmp_opp OL z x), Hzx. reflexivity. Qed.
  Lemma cmp_yx : cmp y x = Gt.
  Proof. rewrite (cmp_opp OL x y), Hxy. reflexivity. Qed.
  Lemma cmp_yz : cmp y z = Gt.
  Proof. rewrite (cmp_opp OL z y), cmp_zy. reflexivity. Qed.
  Definition odd : parts K V := Two (z, c) (x, a) [(y, b)].
  Lemma odd_run cs : cs = [Insert x a; Insert y b; Insert z c] \/ cs = [Insert y b; Insert x a; Insert z c] ->
    th_run cmp cs None = (Some odd, [OP None; OP None; OP None]).
  Proof.
    intros [-> | ->]; unfold th_run, th_step, th_insert, th_place; cbn [fst snd]; rewrite ?Hxy, ?cmp_yx; cbn [fst snd]; rewrite Hzx; cbn [fst snd];
      rewrite ?Hxy, ?cmp_yx; reflexivity.
  Qed.
  Lemma odd_fits f cs : (forall k, f [] k = true) -> cs = [Insert x a; Insert y b; Insert z c] \/ cs = [Insert y b; Insert x a; Insert z c] ->
    th_fitting cmp f cs None.
  Proof.
    assert (U : (2 < usize_max)%N) by (unfold usize_max, usize_bits; destruct ptr; vm_compute; reflexivity).
    intros Hf [-> | ->]; unfold th_fitting, th_step, th_insert, th_place; cbn [fst snd]; rewrite ?Hxy, ?cmp_yx; cbn [fst snd]; rewrite Hzx; cbn [fst snd];
      rewrite ?Hxy, ?cmp_yx; cbn [th_all length app keys map]; repeat split; auto; lia.
  Qed.
  Lemma succ_z : th_succ cmp z odd = Some (Between, (y, b)).
  Proof. unfold th_succ, odd, ltb, leb, eqb. cbn [fst]. rewrite cmp_same, cmp_xz. reflexivity. Qed.
  Lemma succ_y : th_succ cmp y odd = None.
  Proof. unfold th_succ, odd, ltb, leb, eqb. cbn [fst]. rewrite cmp_yz, Hxy. reflexivity. Qed.
  Lemma pred_x : th_pred cmp x odd = Some (Between, (y, b)).
  Proof. unfold th_pred, odd, ltb, leb, eqb. cbn [fst]. rewrite cmp_same, cmp_xz. reflexivity. Qed.
  Lemma pred_y : th_pred cmp y odd = Some (AtMax, (x, a)).
  Proof. unfold th_pred, odd, ltb, leb, eqb. cbn [fst]. rewrite cmp_yz, Hxy. reflexivity. Qed.

  Lemma stopped (s : parts K V) n : th_walk cmp s (repeat false n) None = Some (repeat None n).
  Proof. induction n as [|n IH]; [reflexivity|]. cbn [repeat th_walk it_turn]. rewrite IH. reflexivity. Qed.
  Lemma odd_forward n : th_walk cmp odd (repeat false (2 + n)) (Some (None, None)) = Some (Some (z, c) :: Some (y, b) :: repeat None n).
  Proof.
    cbn [Nat.add repeat th_walk it_turn]. change (th_min odd) with (AtMin, (z, c)). cbn [fst th_walk it_turn]. rewrite succ_z. cbn [fst th_walk it_turn].
    destruct n as [|n]; [reflexivity|]. cbn [repeat th_walk it_turn]. rewrite succ_y, andb_false_r, stopped. reflexivity.
  Qed.
  Lemma odd_around n : th_walk cmp odd (repeat true n) (Some (None, Some x)) = Some (map (fun i => Some (if Nat.even i then (y, b) else (x, a))) (seq 0 n)) /\
    th_walk cmp odd (repeat true n) (Some (None, Some y)) = Some (map (fun i => Some (if Nat.even i then (x, a) else (y, b))) (seq 0 n)).
  Proof.
    induction n as [|n [IHx IHy]]; [split; reflexivity|]. cbn [repeat th_walk it_turn]. rewrite pred_x, pred_y. cbn [fst th_walk it_turn]. rewrite IHx, IHy.
    cbn [seq map Nat.even]. rewrite <- seq_shift, !map_map.
    split; do 2 f_equal; apply map_ext; intros i; rewrite Nat.even_succ, <- Nat.negb_even; destruct (Nat.even i); reflexivity.
  Qed.
  Lemma odd_backward n : th_walk cmp odd (repeat true n) (Some (None, None)) = Some (map (fun i => Some (if Nat.even i then (x, a) else (y, b))) (seq 0 n)).
  Proof.
    destruct n as [|n]; [reflexivity|]. cbn [repeat th_walk it_turn]. change (th_max odd) with (AtMax, (x, a)). cbn [fst th_walk it_turn].
    rewrite (proj1 (odd_around n)). cbn [seq map Nat.even]. rewrite <- seq_shift, !map_map.
    do 2 f_equal; apply map_ext; intros i; rewrite Nat.even_succ, <- Nat.negb_even; destruct (Nat.even i); reflexivity.
  Qed.
  Lemma odd_both : dbg = true -> th_walk cmp odd [false; true; false; false] (Some (None, None)) = None.
  Proof.
    intros Hd. assert (Exz : eqb cmp x z = false) by (unfold eqb; rewrite cmp_xz; reflexivity).
    assert (Eyx : eqb cmp y x = false) by (unfold eqb; rewrite cmp_yx; reflexivity).
    cbn [th_walk it_turn]. change (th_min odd) with (AtMin, (z, c)). cbn [fst]. cbn [it_turn]. change (th_max odd) with (AtMax, (x, a)). cbn [fst].
    rewrite Exz. cbn [it_turn]. rewrite succ_z. cbn [fst]. rewrite Eyx. cbn [it_turn]. rewrite succ_y, Hd. reflexivity.
  Qed.
End Last.
Lemma three_last {B : Build} {K Hi Lo V} (ko : KeyOps K Hi Lo) (KL : KeyLaws ko) (S : VebOps Hi unit) (Tr : VebOps Lo V) (C : CollOps Hi Lo V Tr)
  (TS : VebType false Hi unit (hi_cmp ko) S) (TT : VebType false Lo V (lo_cmp ko) Tr) (CT : CollType Tr Hi C) x y z (a b c : V) cs :
  let O := Tree_ops false ko S Tr C in k_cmp ko z x = Lt -> k_cmp ko x y = Lt ->
  cs = [Insert x a; Insert y b; Insert z c] \/ cs = [Insert y b; Insert x a; Insert z c] ->
  exists t, run O cs None = Ret (Some t, [OP None; OP None; OP None]) /\
  (forall n, (N.of_nat (2 + n) <= usize_max)%N ->
    exists it, it_run O (eqb (k_cmp ko)) t (repeat false (2 + n)) it_new = Ret (it, Some (z, c) :: Some (y, b) :: repeat None n)) /\
  (forall n, (N.of_nat n <= usize_max)%N ->
    exists it, it_run O (eqb (k_cmp ko)) t (repeat true n) it_new = Ret (it, map (fun i => Some (if Nat.even i then (x, a) else (y, b))) (seq 0 n))) /\
  (dbg = true -> it_run O (eqb (k_cmp ko)) t [false; true; false; false] it_new = Panic).
Proof.
  intros O H1 H2 Hcs. assert (OL := KL_k KL).
  destruct (three_all ko KL S Tr C TS TT CT cs) as [ot [E Hs]]; [apply (odd_fits OL x y z a b c H1 H2); [reflexivity|exact Hcs]|].
  rewrite (odd_run OL x y z a b c H1 H2 cs Hcs) in E, Hs. destruct ot as [t|]; [|destruct Hs]. destruct Hs as [_ Hs].
  exists t. split; [exact E|]. split; [|split].
  - intros n Hn. specialize (Hs (repeat false (2 + n))). rewrite repeat_length in Hs. specialize (Hs Hn). cbn [fst] in Hs.
    rewrite (odd_forward OL x y z a b c H1 H2 n) in Hs. exact Hs.
  - intros n Hn. specialize (Hs (repeat true n)). rewrite repeat_length in Hs. specialize (Hs Hn). cbn [fst] in Hs.
    rewrite (odd_backward OL x y z a b c H1 H2 n) in Hs. exact Hs.
  - intros Hd. assert (U : (4 <= usize_max)%N) by (unfold usize_max, usize_bits; destruct ptr; vm_compute; discriminate).
    specialize (Hs [false; true; false; false] U). cbn [fst] in Hs. rewrite (odd_both OL x y z a b c H1 H2 Hd) in Hs. exact Hs.
Qed.
