(** Tree satisfies the laws. *)
From Verif Require Import Base Spec Ops Boxed Lists Laws Tree TreeChildren TreeUpd.

Section TreeLaws.
  Context {B : Build} (fixed : bool).
  Context {K Hi Lo V : Type} {ko : KeyOps K Hi Lo} (KL : KeyLaws ko).
  Context {S : VebOps Hi unit} {Tr : VebOps Lo V} {C : CollOps Hi Lo V Tr}.
  Context (LS : VebLaws (hi_cmp ko) S) (LT : VebLaws (lo_cmp ko) Tr) (LC : CollLaws C).
  Notation J := (k_join ko).
  Notation cmp := (k_cmp ko).
  Notation T := (@Tree K Hi Lo V S Tr C).
  Notation ch_ents := (ch_ents (ko := ko) (S := S) LT LC).
  Notation och_ents := (och_ents (ko := ko) (S := S) LT LC).
  Notation wch := (wch LS LT LC).
  Notation och := (och LS LT LC).
  Notation owch := (owch LS LT LC).
  Notation ooch := (ooch LS LT LC).
  Notation OP := (@Tree_ops B fixed K Hi Lo V ko S Tr C).
  Notation ch_lens := (ch_lens LS LT LC).
  Let OL : OrdLaws cmp := KL_k KL.

  Definition tr_winv (t : T) : Prop :=
    match t_data t with None => True | Some d => owch (d_children d) end.
  Definition tr_ents (t : T) : list (K * V) :=
    t_min t :: match t_data t with None => [] | Some d => d_max d :: och_ents (d_children d) end.
  Definition tr_ord (t : T) : Prop :=
    match t_data t with
    | None => True
    | Some d =>
        cmp (fst (t_min t)) (fst (d_max d)) = Lt /\
        (forall q, In q (och_ents (d_children d)) ->
           cmp (fst (t_min t)) (fst q) = Lt /\ cmp (fst q) (fst (d_max d)) = Lt) /\
        ooch (d_children d)
    end.
  Definition tr_safe (t : T) (k : K) : Prop :=
    match t_data t with
    | None => True
    | Some d =>
        match cmp k (fst (t_min t)) with
        | Eq => True
        | Lt => fixed = true /\ och_safe LS LT LC (d_children d) (fst (t_min t))
        | Gt =>
            match cmp k (fst (d_max d)) with
            | Eq => True
            | Gt => och_safe LS LT LC (d_children d) (fst (d_max d))
            | Lt => och_safe LS LT LC (d_children d) k
            end
        end
    end.

  Lemma ooch_nodup o : owch o -> ooch o -> NoDup (keys (och_ents o)).
  Proof. destruct o; [apply ch_nodup|]. constructor. Qed.

  Lemma tr_nodup t : tr_winv t -> tr_ord t -> NoDup (keys (tr_ents t)).
  Proof.
    destruct t as [mn [[mx ch]|]]; unfold tr_winv, tr_ord, tr_ents; cbn.
    - intros Hw [H1 [H2 H3]]. constructor.
      + intros [E|Hin].
        * rewrite E in H1. exact (lt_irrefl OL _ H1).
        * apply keys_in in Hin. destruct Hin as [v Hin]. apply H2 in Hin. cbn in Hin.
          exact (lt_irrefl OL _ (proj1 Hin)).
      + constructor.
        * intros Hin. apply keys_in in Hin. destruct Hin as [v Hin]. apply H2 in Hin. cbn in Hin.
          exact (lt_irrefl OL _ (proj2 Hin)).
        * apply ooch_nodup; auto.
    - intros _ _. constructor; [intros []|constructor].
  Qed.

  Lemma tr_safe_in t k : tr_winv t -> tr_ord t -> In k (keys (tr_ents t)) -> tr_safe t k.
  Proof.
    destruct t as [mn [[mx ch]|]]; unfold tr_winv, tr_ord, tr_ents, tr_safe; cbn; [|auto].
    intros Hw [H1 [H2 H3]] [E|[E|Hin]].
    - subst k. rewrite (cmp_refl OL). exact I.
    - subst k. apply (cmp_gt_lt OL) in H1. rewrite H1, (cmp_refl OL). exact I.
    - assert (Hin' := Hin). apply keys_in in Hin. destruct Hin as [v Hin]. assert (Hk := H2 _ Hin). cbn in Hk.
      destruct Hk as [Hk1 Hk2]. apply (cmp_gt_lt OL) in Hk1. rewrite Hk1, Hk2.
      destruct ch as [x|]; [|exact I]. cbn in *. unfold ch_safe.
      destruct (split_J KL k) as [h [l [-> [Es _]]]]. rewrite Es.
      apply (in_ch_J LS) in Hin; auto. destruct Hin as [t [Ht1 Ht2]]. split.
      + intros t' Ht'. assert (t' = t) by (eapply coll_inj; [apply Hw| |]; eauto). subst t'.
        apply (L_safe_in LT).
        * apply Hw in Ht1. exact Ht1.
        * apply H3 in Ht1. exact Ht1.
        * apply in_keys in Ht2. exact Ht2.
      + intros Hn. elim Hn. apply (in_map fst) in Ht1. exact Ht1.
  Qed.

  Lemma och_safe_gt o k : owch o -> ooch o ->
    (forall q, In q (och_ents o) -> cmp (fst q) k = Lt) -> och_safe LS LT LC o k.
  Proof.
    destruct o as [x|]; [|constructor]. cbn. intros Hw Ho H. unfold ch_safe.
    destruct (split_J KL k) as [h [l [-> [Es _]]]]. rewrite Es.
    assert (Hlt : forall h' t' l' v', In (h', t') (cents LC (snd x)) -> In (l', v') (ents LT t') ->
      match hi_cmp ko h' h with Eq => lo_cmp ko l' l | c => c end = Lt).
    { intros h' t' l' v' H1 H2. assert (Hr := wch_real LS LT LC x h' t' l' v' Hw H1 H2). rewrite <- (cmp_J KL) by auto.
      apply (H (J h' l', v')). apply (in_ch_J LS); eauto. }
    split.
    - intros t Ht. apply (L_safe_gt LT).
      + apply Hw in Ht. exact Ht.
      + apply Ho in Ht. exact Ht.
      + intros l' Hl'. apply keys_in in Hl'. destruct Hl' as [v' Hl'].
        specialize (Hlt h t l' v' Ht Hl'). rewrite (cmp_refl (KL_hi KL)) in Hlt. exact Hlt.
    - intros Hn. apply (L_safe_gt LS).
      + apply Hw.
      + apply Ho.
      + intros h' Hh'. apply (ch_summary LS LT LC x h' Hw) in Hh'. destruct Hh' as [t Ht].
        assert (Hwt : winv LT t) by (apply Hw in Ht; exact Ht).
        destruct (ents LT t) as [|[l' v'] r] eqn:Et; [elim (L_nonempty LT t Hwt Et)|].
        assert (Hin : In (l', v') (ents LT t)) by (rewrite Et; left; auto).
        specialize (Hlt h' t l' v' Ht Hin). destruct (hi_cmp ko h' h) eqn:Eh; auto; try discriminate.
        apply (cmp_eq_eq (KL_hi KL)) in Eh. subst h'. elim Hn. apply (in_map fst) in Ht. exact Ht.
  Qed.

  Lemma tr_safe_gt t k : tr_winv t -> tr_ord t ->
    (forall k', In k' (keys (tr_ents t)) -> cmp k' k = Lt) -> tr_safe t k.
  Proof.
    destruct t as [mn [[mx ch]|]]; unfold tr_winv, tr_ord, tr_ents, tr_safe; cbn; [|auto].
    intros Hw [H1 [H2 H3]] H.
    assert (E1 : cmp k (fst mn) = Gt) by (apply (cmp_gt_lt OL); apply H; auto).
    assert (E2 : cmp k (fst mx) = Gt) by (apply (cmp_gt_lt OL); apply H; auto).
    rewrite E1, E2. apply och_safe_gt; auto. intros q Hq. apply (H2 q Hq).
  Qed.

  Lemma tr_min_le t : tr_ord t -> forall q, In q (tr_ents t) -> cmp (fst (t_min t)) (fst q) <> Gt.
  Proof.
    destruct t as [mn [[mx ch]|]]; unfold tr_ord, tr_ents; cbn.
    - intros [H1 [H2 _]] q [<-|[<-|Hq]].
      + apply (le_refl OL).
      + congruence.
      + apply lt_le. apply H2; auto.
    - intros _ q [<-|[]]. apply (le_refl OL).
  Qed.
  Lemma tr_max_ge mn mx ch : tr_ord (TR mn (Some (TD mx ch))) ->
    forall q, In q (tr_ents (TR mn (Some (TD mx ch)))) -> cmp (fst q) (fst mx) <> Gt.
  Proof.
    unfold tr_ord, tr_ents; cbn. intros [H1 [H2 _]] q [<-|[<-|Hq]].
    - congruence.
    - apply (le_refl OL).
    - apply lt_le. apply H2; auto.
  Qed.

  Lemma tr_find_ok t k : tr_winv t -> exists o, tr_find ko S Tr C t k = Ret o /\
      match o with
      | Some p => In p (tr_ents t) /\ fst p = k
      | None => tr_ord t -> ~ In k (keys (tr_ents t))
      end.
  Proof.
    intros Hw. unfold tr_find.
    destruct (cmp k (fst (t_min t))) eqn:E0.
    { exists (Some (t_min t)). split; auto. apply (cmp_eq_eq OL) in E0. split; auto. left; auto. }
    { exists None. split; auto. intros Ho Hin. apply keys_in in Hin. destruct Hin as [v Hin].
      apply (tr_min_le t Ho) in Hin. cbn in Hin. apply Hin. apply (cmp_gt_lt OL). exact E0. }
    destruct t as [mn [[mx ch]|]]; cbn in *.
    2:{ exists None. split; auto. intros _ [H|[]]. subst k. rewrite (cmp_refl OL) in E0. discriminate. }
    destruct (eqb cmp k (fst mx)) eqn:Em.
    { exists (Some mx). split; auto. apply (eqb_eq OL) in Em. cbn; auto. }
    apply (eqb_neq OL) in Em.
    assert (Hne : fst mn <> k) by (intros <-; rewrite (cmp_refl OL) in E0; discriminate).
    destruct ch as [[s c]|].
    2:{ exists None. split; auto. intros _ [H|[H|[]]]; congruence. }
    unfold tr_winv in Hw. cbn in Hw.
    destruct (split_J KL k) as [h [l [-> [Hrl Es]]]]. rewrite Es.
    destruct (C_get LC c h) as [[t|] [Eg Hg]]; [apply Hw| |]; rewrite Eg; cbn [bind].
    - assert (Hwt : winv LT t) by (apply Hw in Hg; exact Hg).
      destruct (L_find LT t l Hwt) as [[[l' v]|] [Ef Hf]]; rewrite Ef; cbn [bind].
      + exists (Some (J h l', v)). split; auto. cbn in *. destruct Hf as [Hf1 ->]. split; auto.
        right. right. apply (in_ch_J LS); eauto.
      + exists None. split; auto. intros Ho. unfold tr_ord in Ho. cbn in Ho. destruct Ho as [_ [_ Ho]].
        intros [H|[H|H]]; try congruence. apply keys_in in H. destruct H as [v H].
        apply (in_ch_J LS) in H; auto. destruct H as [t' [H1 H2]].
        assert (t' = t) by (eapply coll_inj; [apply Hw| |]; eauto). subst t'.
        apply Hf; [apply Ho in Hg; exact Hg|apply in_keys in H2; exact H2].
    - exists None. split; auto. intros Ho [H|[H|H]]; try congruence. apply keys_in in H.
      destruct H as [v H]. apply (in_ch_J LS) in H; auto. destruct H as [t' [H1 H2]].
      apply Hg. apply (in_map fst) in H1. exact H1.
  Qed.

  Lemma tr_pred_ok t k : tr_winv t -> exists o, tr_predecessor ko S Tr C t k = Ret o /\
      match o with
      | Some p => In p (tr_ents t) /\
          (tr_ord t -> cmp (fst p) k = Lt /\
           forall q, In q (tr_ents t) -> cmp (fst q) k = Lt -> cmp (fst q) (fst p) <> Gt)
      | None => tr_ord t -> forall q, In q (tr_ents t) -> cmp (fst q) k <> Lt
      end.
  Proof.
    intros Hw. unfold tr_predecessor. destruct (leb cmp k (fst (t_min t))) eqn:E0.
    { exists None. split; auto. apply leb_le in E0. intros Ho q Hq. apply (tr_min_le t Ho) in Hq.
      apply (not_gt_lt OL). apply (le_trans OL) with (fst (t_min t)); auto. }
    apply (leb_gt OL) in E0. destruct t as [mn [[mx ch]|]]; cbn in E0 |- *.
    2:{ exists (Some mn). split; auto. unfold tr_ents. cbn. split; auto.
        intros _. split; auto. intros q [<-|[]] _. apply (le_refl OL). }
    unfold tr_winv in Hw. cbn in Hw.
    destruct (cmp k (fst mx)) eqn:Em.
    - destruct ch as [[s c]|].
      + destruct (ch_ext_ok KL LS LT LC true (s, c) Hw) as [p [Ep [H1 H2]]]. cbn [fst snd vext] in Ep.
        exists (Some p). split; [exact Ep|]. unfold tr_ents, tr_ord. cbn. split; auto.
        intros [Ho1 [Ho2 Ho3]]. apply (cmp_eq_eq OL) in Em. subst k.
        split; [apply Ho2; exact H1|]. intros q [<-|[<-|Hq]] Hlt.
        * apply lt_le. apply Ho2; auto.
        * elim (lt_irrefl OL _ Hlt).
        * apply (H2 Ho3 q Hq).
      + exists (Some mn). split; auto. unfold tr_ents. cbn. split; auto. intros _. split; auto.
        apply (cmp_eq_eq OL) in Em. subst k. intros q [<-|[<-|[]]] Hlt.
        * apply (le_refl OL).
        * elim (lt_irrefl OL _ Hlt).
    - destruct ch as [[s c]|].
      + destruct (ch_next_ok KL LS LT LC true (s, c) k Hw) as [[p [Ep [H1 H2]]]|[Ep H2]];
          cbn [ch_next vnext vext fst snd] in Ep.
        * exists (Some p). split; [exact (Ep (Ret (Some mn)))|]. unfold tr_ents, tr_ord. cbn. split; auto.
          intros [Ho1 [Ho2 Ho3]]. destruct (H2 Ho3) as [H3 H4]. split; [exact H3|].
          intros q [<-|[<-|Hq]] Hlt.
          -- apply lt_le. apply Ho2; auto.
          -- elim (lt_asym OL _ _ Hlt Em).
          -- apply (H4 q Hq Hlt).
        * exists (Some mn). split; [exact (Ep (Ret (Some mn)))|]. unfold tr_ents, tr_ord. cbn. split; auto.
          intros [Ho1 [Ho2 Ho3]]. split; auto. intros q [<-|[<-|Hq]] Hlt.
          -- apply (le_refl OL).
          -- elim (lt_asym OL _ _ Hlt Em).
          -- elim (H2 Ho3 q Hq Hlt).
      + exists (Some mn). split; auto. unfold tr_ents. cbn. split; auto. intros _. split; auto.
        intros q [<-|[<-|[]]] Hlt.
        * apply (le_refl OL).
        * elim (lt_asym OL _ _ Hlt Em).
    - exists (Some mx). split; [destruct ch as [[s c]|]; reflexivity|]. unfold tr_ents. cbn.
      split; auto. intros Ho. apply (cmp_gt_lt OL) in Em. split; auto.
      intros q Hq _. apply (tr_max_ge mn mx ch Ho q). exact Hq.
  Qed.

  Lemma tr_succ_ok t k : tr_winv t -> exists o, tr_successor ko S Tr C t k = Ret o /\
      match o with
      | Some p => In p (tr_ents t) /\
          (tr_ord t -> cmp k (fst p) = Lt /\
           forall q, In q (tr_ents t) -> cmp k (fst q) = Lt -> cmp (fst p) (fst q) <> Gt)
      | None => tr_ord t -> forall q, In q (tr_ents t) -> cmp k (fst q) <> Lt
      end.
  Proof.
    intros Hw. unfold tr_successor. destruct (ltb cmp k (fst (t_min t))) eqn:E0.
    { exists (Some (t_min t)). split; auto. apply ltb_lt in E0. split; [left; auto|]. intros Ho.
      split; auto. intros q Hq _. apply (tr_min_le t Ho q Hq). }
    apply ltb_ge in E0. apply (not_gt_lt OL) in E0. destruct t as [mn [[mx ch]|]]; cbn in E0 |- *.
    2:{ exists None. split; auto. unfold tr_ents. cbn. intros _ q [<-|[]].
        apply (not_gt_lt OL). exact E0. }
    unfold tr_winv in Hw. cbn in Hw.
    destruct (leb cmp (fst mx) k) eqn:Em.
    { exists None. split; auto. intros Ho q Hq Hlt. apply leb_le in Em.
      apply (tr_max_ge mn mx ch Ho) in Hq.
      assert (Hx := lt_le_trans OL _ _ _ Hlt Hq).
      elim (lt_irrefl OL k). apply (lt_le_trans OL) with (fst mx); auto. }
    apply (leb_gt OL) in Em. destruct ch as [[s c]|].
    2:{ exists (Some mx). split; auto. unfold tr_ents. cbn. split; auto. intros _. split; auto.
        intros q [<-|[<-|[]]] Hlt.
        - elim (not_gt_lt OL (fst mn) k). intros HH _. elim (HH E0 Hlt).
        - apply (le_refl OL). }
    destruct (eqb cmp k (fst mn)) eqn:Eq0.
    - destruct (ch_ext_ok KL LS LT LC false (s, c) Hw) as [p [Ep [H1 H2]]]. cbn [fst snd vext] in Ep.
      exists (Some p). split; [exact Ep|]. unfold tr_ents, tr_ord. cbn. split; auto.
      apply (eqb_eq OL) in Eq0. subst k. intros [Ho1 [Ho2 Ho3]]. split; [apply Ho2; auto|].
      intros q [<-|[<-|Hq]] Hlt.
      + elim (lt_irrefl OL _ Hlt).
      + apply lt_le. apply Ho2; auto.
      + apply (H2 Ho3 q Hq).
    - apply (eqb_neq OL) in Eq0.
      assert (Hmn : cmp (fst mn) k = Lt).
      { apply (le_cases OL) in E0. destruct E0 as [E0|E0]; auto. congruence. }
      destruct (ch_next_ok KL LS LT LC false (s, c) k Hw) as [[p [Ep [H1 H2]]]|[Ep H2]];
        cbn [ch_next vnext vext fst snd] in Ep.
      + exists (Some p). split; [exact (Ep (Ret (Some mx)))|]. unfold tr_ents, tr_ord. cbn. split; auto.
        intros [Ho1 [Ho2 Ho3]]. destruct (H2 Ho3) as [H3 H4]. split; [exact H3|].
        intros q [<-|[<-|Hq]] Hlt.
        * elim (lt_asym OL _ _ Hlt Hmn).
        * apply lt_le. apply Ho2; auto.
        * apply (H4 q Hq Hlt).
      + exists (Some mx). split; [exact (Ep (Ret (Some mx)))|]. unfold tr_ents, tr_ord. cbn. split; auto.
        intros [Ho1 [Ho2 Ho3]]. split; auto. intros q [<-|[<-|Hq]] Hlt.
        * elim (lt_asym OL _ _ Hlt Hmn).
        * apply (le_refl OL).
        * elim (H2 Ho3 q Hq Hlt).
  Qed.

  (** *** Lenses *)
  Notation lens := (lens_ok (O := OP) tr_winv tr_ord tr_ents).
  Lemma lens_min t : tr_winv t -> lens t (t_min t) (put_min S Tr C t).
  Proof.
    destruct t as [[k v] od]. unfold lens_ok, tr_winv, tr_ents, tr_ord, put_min. cbn. intros Hw.
    eexists. split; [apply Permutation_refl|]. intros w. split; [exact Hw|]. split; [apply Permutation_refl|].
    destruct od as [d|]; cbn; auto.
  Qed.
  Lemma lens_max mn mx ch : tr_winv (TR mn (Some (TD mx ch))) ->
    lens (TR mn (Some (TD mx ch))) mx (put_max S Tr C (TR mn (Some (TD mx ch))) (TD mx ch)).
  Proof.
    destruct mx as [k v]. unfold lens_ok, tr_winv, tr_ents, tr_ord, put_max. cbn. intros Hw.
    exists (mn :: och_ents ch). split; [apply perm_swap|]. intros w. split; [exact Hw|].
    split; [apply perm_swap|]. auto.
  Qed.
  Lemma lens_child mn mx s c p put putv :
    ch_lens (s, c) p (fun w => put (putv w)) ->
    lens (TR mn (Some (TD mx (Some (s, c))))) p
      (put_child S Tr C (TR mn (Some (TD mx (Some (s, c))))) (TD mx (Some (s, c))) s put putv).
  Proof.
    intros [rest [HP H]]. exists (mn :: mx :: rest). unfold tr_ents, tr_winv, tr_ord, put_child. cbn.
    split.
    - rewrite HP. rewrite (perm_swap p mx rest). apply perm_swap.
    - intros w. destruct (H w) as [H1 [H2 H3]]. cbn [fst] in *. split; [exact H1|]. split.
      + rewrite H2. rewrite (perm_swap _ mx rest). apply perm_swap.
      + intros [Ho1 [Ho2 Ho3]]. split; auto. split; [|auto].
        intros q Hq. apply (Permutation_in _ H2) in Hq. destruct Hq as [<-|Hq].
        * assert (Hp : In p (ch_ents (s, c)))
            by (eapply Permutation_in; [apply Permutation_sym; exact HP|left; auto]).
          apply (Ho2 p Hp).
        * apply Ho2. eapply Permutation_in; [apply Permutation_sym; exact HP|right; exact Hq].
  Qed.

  Notation mok := (mut_ok (O := OP) tr_winv tr_ord tr_ents).
  Lemma mok_none t : mok t (Ret None) (Ret None).
  Proof. exists None. split; auto. split; auto. discriminate. Qed.
  Lemma mok_some t p put : lens t p put -> mok t (Ret (Some (p, put))) (Ret (Some p)).
  Proof.
    intros H. exists (Some (p, put)). split; auto. split; auto. intros p' put' E.
    injection E as <- <-. exact H.
  Qed.
  Lemma mok_min t : tr_winv t -> mok t (Ret (Some (min_mut S Tr C t))) (Ret (Some (t_min t))).
  Proof. intros Hw. apply mok_some. apply lens_min. exact Hw. Qed.
  Lemma mok_max mn mx ch : tr_winv (TR mn (Some (TD mx ch))) ->
    mok (TR mn (Some (TD mx ch))) (Ret (Some (max_mut S Tr C (TR mn (Some (TD mx ch))) (TD mx ch))))
        (Ret (Some mx)).
  Proof. intros Hw. apply mok_some. apply lens_max. exact Hw. Qed.

  Lemma tr_find_mut_ok t k : tr_winv t -> mok t (tr_find_mut ko S Tr C t k) (tr_find ko S Tr C t k).
  Proof.
    intros Hw. unfold tr_find_mut, tr_find.
    destruct (cmp k (fst (t_min t))); [apply mok_min; auto|apply mok_none|].
    destruct t as [mn [[mx ch]|]]; cbn [t_data d_max d_children]; [|apply mok_none].
    destruct (eqb cmp k (fst mx)); [apply mok_max; auto|].
    destruct ch as [[s c]|]; [|apply mok_none].
    unfold tr_winv in Hw. cbn in Hw.
    destruct (split_J KL k) as [h [l [-> [_ Es]]]]. rewrite Es.
    destruct (C_get_mut LC c h) as [o [E1 [E2 _]]]; [apply Hw|]. rewrite E1, E2. cbn [bind].
    destruct o as [[t put]|]; cbn [omap fst]; [|apply mok_none].
    assert (Hwt : winv LT t).
    { destruct (C_get LC c h) as [[t'|] [E3 Hg]]; [apply Hw| |]; rewrite E3 in E2; try discriminate.
      injection E2 as ->. apply Hw in Hg. exact Hg. }
    destruct (L_find_mut LT t l Hwt) as [o [E3 [E4 Hl]]]. rewrite E3, E4. cbn [bind].
    destruct o as [[[l' v] putv]|]; cbn [omap fst]; [|apply mok_none].
    apply mok_some. apply lens_child.
    exact (get_mut_lens LS LT LC s c h t put (l', v) putv Hw E1 (Hl _ _ eq_refl)).
  Qed.

  Lemma tr_pred_mut_ok t k : tr_winv t ->
    mok t (tr_predecessor_mut ko S Tr C t k) (tr_predecessor ko S Tr C t k).
  Proof.
    intros Hw. unfold tr_predecessor_mut, tr_predecessor.
    destruct (leb cmp k (fst (t_min t))) eqn:E0; [apply mok_none|].
    destruct t as [mn [[mx ch]|]]; cbn [t_data t_min d_max d_children] in *; [|apply mok_min; auto].
    destruct (cmp k (fst mx)), ch as [[s c]|];
      try (apply (mok_min (TR mn (Some (TD mx None)))); auto; fail); try (apply mok_max; auto; fail).
    - apply (leb_gt OL) in E0. unfold ltb. rewrite E0. cbn [debug_assert bind].
      assert (Hw' : wch (s, c)) by exact Hw.
      destruct (D_ext LS true s (proj1 Hw')) as [[h []] [Es [Hin _]]]. cbn [vext] in Es. rewrite Es. cbn [bind].
      apply in_keys in Hin. apply (ch_summary LS LT LC (s, c) h Hw') in Hin. destruct Hin as [t Ht].
      destruct (child_end_mut_ok LS LT LC
                  (put_child S Tr C (TR mn (Some (TD mx (Some (s, c))))) (TD mx (Some (s, c))))
                  true (s, c) h t Hw' Ht) as [p [put [putv [H1 [H2 H3]]]]].
      cbn [fst snd vext vext_mut] in *. unfold child_end_mut. unfold child_end_mut' in H1.
      rewrite H1, H2. apply mok_some. apply lens_child. exact H3.
    - assert (Hw' : wch (s, c)) by exact Hw.
      destruct (ch_next_mut_ok KL LS LT LC
                  (put_child S Tr C (TR mn (Some (TD mx (Some (s, c))))) (TD mx (Some (s, c))))
                  true (s, c) k Hw') as [[p [put [putv [H1 [H2 H3]]]]]|[H1 H2]].
      + specialize (H1 (Ret (Some (min_mut S Tr C (TR mn (Some (TD mx (Some (s, c))))))))).
        specialize (H2 (Ret (Some mn))). unfold ch_next_mut, ch_next, child_end_mut' in H1, H2.
        cbn [fst snd vnext vnext_mut vext vext_mut] in H1, H2.
        unfold child_end_mut. rewrite H1, H2. apply mok_some. apply lens_child. exact H3.
      + specialize (H1 (Ret (Some (min_mut S Tr C (TR mn (Some (TD mx (Some (s, c))))))))).
        specialize (H2 (Ret (Some mn))). unfold ch_next_mut, ch_next, child_end_mut' in H1, H2.
        cbn [fst snd vnext vnext_mut vext vext_mut] in H1, H2.
        unfold child_end_mut. rewrite H1, H2. apply (mok_min (TR mn (Some (TD mx (Some (s, c)))))). exact Hw.
  Qed.

  Lemma tr_succ_mut_ok t k : tr_winv t ->
    mok t (tr_successor_mut ko S Tr C t k) (tr_successor ko S Tr C t k).
  Proof.
    intros Hw. unfold tr_successor_mut, tr_successor.
    destruct (ltb cmp k (fst (t_min t))) eqn:E0; [apply mok_min; auto|].
    destruct t as [mn [[mx ch]|]]; cbn [t_data t_min d_max d_children] in *; [|apply mok_none].
    destruct (leb cmp (fst mx) k); [apply mok_none|].
    destruct ch as [[s c]|]; [|apply mok_max; auto].
    assert (Hw' : wch (s, c)) by exact Hw.
    destruct (eqb cmp k (fst mn)).
    - destruct (D_ext LS false s (proj1 Hw')) as [[h []] [Es [Hin _]]]. cbn [vext] in Es. rewrite Es. cbn [bind].
      apply in_keys in Hin. apply (ch_summary LS LT LC (s, c) h Hw') in Hin. destruct Hin as [t Ht].
      destruct (child_end_mut_ok LS LT LC
                  (put_child S Tr C (TR mn (Some (TD mx (Some (s, c))))) (TD mx (Some (s, c))))
                  false (s, c) h t Hw' Ht) as [p [put [putv [H1 [H2 H3]]]]].
      cbn [fst snd vext vext_mut] in *. unfold child_end_mut. unfold child_end_mut' in H1.
      rewrite H1, H2. apply mok_some. apply lens_child. exact H3.
    - destruct (ch_next_mut_ok KL LS LT LC
                  (put_child S Tr C (TR mn (Some (TD mx (Some (s, c))))) (TD mx (Some (s, c))))
                  false (s, c) k Hw') as [[p [put [putv [H1 [H2 H3]]]]]|[H1 H2]].
      + specialize (H1 (Ret (Some (max_mut S Tr C (TR mn (Some (TD mx (Some (s, c)))))
                                                  (TD mx (Some (s, c))))))).
        specialize (H2 (Ret (Some mx))). unfold ch_next_mut, ch_next, child_end_mut' in H1, H2.
        cbn [fst snd vnext vnext_mut vext vext_mut] in H1, H2.
        unfold child_end_mut. rewrite H1, H2. apply mok_some. apply lens_child. exact H3.
      + specialize (H1 (Ret (Some (max_mut S Tr C (TR mn (Some (TD mx (Some (s, c)))))
                                                  (TD mx (Some (s, c))))))).
        specialize (H2 (Ret (Some mx))). unfold ch_next_mut, ch_next, child_end_mut' in H1, H2.
        cbn [fst snd vnext vnext_mut vext vext_mut] in H1, H2.
        unfold child_end_mut. rewrite H1, H2. apply mok_max. exact Hw.
  Qed.

  (** *** Insertion *)
  Definition ins_ok (t : T) (k : K) (v : V) (t' : T) (r : option (K * V)) : Prop :=
    tr_winv t' /\
    match r with
    | None => Permutation (tr_ents t') ((k, v) :: tr_ents t)
    | Some q => exists rest, Permutation (tr_ents t) (q :: rest) /\ Permutation (tr_ents t') ((k, v) :: rest)
    end /\
    (NoDup (keys (tr_ents t)) -> ~ In k (keys (tr_ents t)) -> r = None) /\
    (tr_ord t -> tr_safe t k -> tr_ord t').

  (** Pushing [(a, w)] under a new [mn'], [mx'], when [mn'], [mx'], [(a, w)] are [mn], [mx], [(k, v)] rearranged. *)
  Lemma push_ins mn mx ch k v mn' mx' a w :
    tr_winv (TR mn (Some (TD mx ch))) ->
    (N.of_nat (length (tr_ents (TR mn (Some (TD mx ch))))) < usize_max)%N ->
    Permutation [mn'; mx'; (a, w)] [(k, v); mn; mx] ->
    (tr_ord (TR mn (Some (TD mx ch))) -> tr_safe (TR mn (Some (TD mx ch))) k ->
       och_safe LS LT LC ch a /\ cmp (fst mn') (fst mx') = Lt /\
       cmp (fst mn') a = Lt /\ cmp a (fst mx') = Lt /\
       cmp (fst mn') (fst mn) <> Gt /\ cmp (fst mx) (fst mx') <> Gt) ->
    exists t' r, tr_push ko S Tr C mn' mx' ch a w = Ret (t', r) /\ ins_ok (TR mn (Some (TD mx ch))) k v t' r.
  Proof.
    intros Hw Hlen HP Hord. unfold tr_winv in Hw. cbn [t_data d_children] in Hw.
    destruct (push_ok KL LS LT LC mn' mx' ch a w Hw) as [x' [r [E [Hw' [Hr [Hn Ho]]]]]].
    { unfold tr_ents in Hlen. cbn [length t_data d_max d_children] in Hlen. lia. }
    exists (TR mn' (Some (TD mx' (Some x')))), r. split; [exact E|]. unfold ins_ok.
    unfold tr_winv, tr_ents. cbn [t_data t_min d_max d_children TreeUpd.och_ents TreeUpd.owch].
    split; [exact Hw'|]. split; [|split].
    - destruct r as [q|].
      + destruct Hr as [rest [H1 H2]]. exists (mn :: mx :: rest). split.
        * rewrite H1. rewrite (perm_swap q mx rest). apply perm_swap.
        * rewrite H2. exact (Permutation_app_tail rest HP).
      + rewrite Hr. exact (Permutation_app_tail (och_ents ch) HP).
    - intros Hnd Hk. apply Hn.
      + cbn in Hnd. inversion Hnd as [|? ? _ Hnd']; subst. inversion Hnd'; auto.
      + intros Hin. cbn in Hnd, Hk.
        assert (Hcase : a = k \/ a = fst mn \/ a = fst mx).
        { assert (Ha : In (a, w) [(k, v); mn; mx]) by (apply (Permutation_in _ HP); right; right; left; auto).
          destruct Ha as [Ha|[Ha|[Ha|[]]]]; [left|right; left|right; right]; try (subst; reflexivity).
          congruence. }
        inversion Hnd as [|? ? Hn1 Hnd']; subst. inversion Hnd' as [|? ? Hn2 _]; subst.
        destruct Hcase as [->|[->| ->]]; try (apply Hk; auto; fail); [apply Hn1; cbn; auto|auto].
    - intros Ht Hs. destruct (Hord Ht Hs) as [H1 [H2 [H3 [H4 [H5 H6]]]]].
      unfold tr_ord in Ht |- *. cbn [t_data t_min d_max d_children TreeUpd.och_ents TreeUpd.ooch] in *.
      destruct Ht as [Ht1 [Ht2 Ht3]]. split; auto. split; [|apply Ho; auto].
      assert (Hin : forall q, In q (ch_ents x') -> fst q = a \/ In q (och_ents ch)).
      { intros q Hq. destruct r as [q0|].
        - destruct Hr as [rest [Hr1 Hr2]]. apply (Permutation_in _ Hr2) in Hq. destruct Hq as [<-|Hq]; auto.
          right. eapply Permutation_in; [apply Permutation_sym; exact Hr1|right; exact Hq].
        - apply (Permutation_in _ Hr) in Hq. destruct Hq as [<-|Hq]; auto. }
      intros q Hq. apply Hin in Hq. destruct Hq as [->|Hq]; auto.
      destruct (Ht2 q Hq) as [Hq1 Hq2]. split.
      + apply (le_lt_trans OL) with (fst mn); auto.
      + apply (lt_le_trans OL) with (fst mx); auto.
  Qed.

  Lemma tr_insert_ok t k v : tr_winv t -> (N.of_nat (length (tr_ents t)) < usize_max)%N ->
    exists t' r, tr_insert fixed ko S Tr C t k v = Ret (t', r) /\ ins_ok t k v t' r.
  Proof.
    intros Hw Hlen. unfold tr_insert.
    assert (Hrepl : forall q rest (t' : T), tr_winv t' ->
        Permutation (tr_ents t) (q :: rest) -> Permutation (tr_ents t') ((k, v) :: rest) ->
        (fst q = k \/ ~ NoDup (keys (tr_ents t))) -> (tr_ord t -> tr_safe t k -> tr_ord t') ->
        ins_ok t k v t' (Some q)).
    { intros q rest t' H1 H2 H3 H4 H5. split; auto. split; [eauto|]. split; auto.
      intros Hnd Hn. exfalso. destruct H4 as [<-|H4]; auto. apply Hn.
      apply in_keys'. eapply Permutation_in; [apply Permutation_sym; exact H2|left; auto]. }
    destruct t as [mn [[mx ch]|]]; cbn [t_min t_data d_max d_children] in *.
    2:{ destruct (cmp k (fst mn)) eqn:E0; eexists; eexists; (split; [reflexivity|]).
        - apply (cmp_eq_eq OL) in E0. apply (Hrepl mn []); try exact I; try apply Permutation_refl; auto.
        - split; [exact I|]. split; [apply Permutation_refl|]. split; auto. intros _ _.
          unfold tr_ord. cbn. split; auto. split; [intros q []|exact I].
        - split; [exact I|]. split; [apply perm_swap|]. split; auto. intros _ _.
          unfold tr_ord. cbn. apply (cmp_gt_lt OL) in E0. split; auto. split; [intros q []|exact I]. }
    destruct (cmp k (fst mn)) eqn:E0.
    - (* replaces the minimum *)
      eexists; eexists; (split; [reflexivity|]). apply (cmp_eq_eq OL) in E0.
      apply (Hrepl mn (mx :: och_ents ch)); try apply Permutation_refl; auto.
      intros Ho _. unfold tr_ord in *. cbn in *. subst k. exact Ho.
    - destruct mn as [k1 v1]. cbn [fst snd] in *. destruct (cmp (fst mx) k1) eqn:E1.
      + (* only possible in a tree out of order *)
        eexists; eexists; (split; [reflexivity|]). apply (cmp_eq_eq OL) in E1.
        apply (Hrepl mx ((k1, v1) :: och_ents ch)).
        * exact Hw.
        * unfold tr_ents. cbn. apply perm_swap.
        * unfold tr_ents. cbn. apply Permutation_refl.
        * right. unfold tr_ents. cbn. intros Hnd. apply NoDup_cons_iff in Hnd. apply (proj1 Hnd). left. exact E1.
        * unfold tr_ord. cbn. intros [Ho _] _. subst k1. elim (lt_irrefl OL _ Ho).
      + (* likewise *)
        apply push_ins; auto.
        * apply perm_skip. apply perm_swap.
        * unfold tr_ord. cbn. intros [Ho _] _. elim (lt_asym OL _ _ E1 Ho).
      + assert (Hf : fixed = true \/ fixed = false) by (destruct fixed; auto).
        destruct Hf as [Hf|Hf]; rewrite Hf.
        * apply push_ins; auto.
          -- apply perm_skip. apply perm_swap.
          -- unfold tr_ord, tr_safe. cbn [t_data t_min d_max d_children fst snd]. rewrite E0.
             intros [Ho1 _] [_ Hs]. split; auto. split; [apply (cmp_trans OL) with k1; auto|].
             split; auto. split; auto. split; [congruence|]. apply (le_refl OL).
        * apply push_ins; auto.
          -- destruct mx. apply Permutation_refl.
          -- unfold tr_safe. cbn [t_data t_min d_max d_children fst snd]. rewrite E0, Hf.
             intros _ [Hs _]. discriminate.
    - destruct (cmp k (fst mx)) eqn:E1.
      + (* replaces the maximum *)
        eexists; eexists; (split; [reflexivity|]). apply (cmp_eq_eq OL) in E1.
        apply (Hrepl mx (mn :: och_ents ch)).
        * exact Hw.
        * unfold tr_ents. cbn. apply perm_swap.
        * unfold tr_ents. cbn. apply perm_swap.
        * auto.
        * intros Ho _. unfold tr_ord in *. cbn in *. subst k. exact Ho.
      + apply push_ins; auto.
        * apply Permutation_sym. apply Permutation_cons_append.
        * unfold tr_ord, tr_safe. cbn [t_data t_min d_max d_children fst snd]. rewrite E0, E1.
          intros [Ho1 _] Hs. apply (cmp_gt_lt OL) in E0. split; auto. split; auto. split; auto.
          split; auto. split; apply (le_refl OL).
      + apply push_ins; auto.
        * destruct mx. apply perm_swap.
        * unfold tr_ord, tr_safe. cbn [t_data t_min d_max d_children fst snd]. rewrite E0, E1.
          intros [Ho1 _] Hs. apply (cmp_gt_lt OL) in E0. apply (cmp_gt_lt OL) in E1. split; auto. split; auto. split; auto.
          split; auto. split; [apply (le_refl OL)|congruence].
  Qed.

  (** *** Removal *)
  Notation tk := (taken (O := OP) tr_winv tr_ord tr_ents).
  Notation ch_taken := (ch_taken LS LT LC).

  Lemma tr_remove_min_ok t : tr_winv t -> exists ot,
    tr_remove_min ko S Tr C t = Ret (ot, t_min t) /\ tk t (t_min t) ot.
  Proof.
    intros Hw. unfold tr_remove_min. destruct t as [mn [[mx [[s c]|]]|]]; cbn [t_min t_data d_max d_children].
    - destruct (ends_ok KL LS LT LC false s c Hw) as [h [u [r [l [v [o [E1 [E2 [E3 [[H1 [H2 H3]] H4]]]]]]]]]].
      cbn [vext vrm] in *. rewrite E1. cbn [bind]. rewrite E2. cbn [bind]. rewrite E3. cbn [bind].
      eexists. split; [reflexivity|]. unfold taken, tr_winv, tr_ents, tr_ord.
      cbn [t_min t_data d_max d_children fst snd]. split; auto. split.
      + apply perm_skip. cbn [TreeUpd.och_ents]. rewrite H2. apply perm_swap.
      + intros [Ho1 [Ho2 Ho3]]. cbn [TreeUpd.och_ents TreeUpd.ooch] in *.
        assert (Hp : In (J h l, v) (ch_ents (s, c)))
          by (eapply Permutation_in; [apply Permutation_sym; exact H2|left; auto]).
        assert (Hnd : NoDup (keys (ch_ents (s, c)))) by (apply (ch_nodup LS); auto).
        split; [apply (Ho2 _ Hp)|]. split; [|auto]. intros q Hq.
        assert (Hq' : In q (ch_ents (s, c)))
          by (eapply Permutation_in; [apply Permutation_sym; exact H2|right; exact Hq]).
        split; [|apply Ho2; exact Hq'].
        assert (Hle := H4 Ho3 q Hq'). cbn [dcmp] in Hle. apply (le_cases OL) in Hle.
        destruct Hle as [Hle|Heq]; auto. exfalso.
        apply keys_perm in H2. apply (NoDup_perm _ _ H2) in Hnd. cbn in Hnd. inversion Hnd; subst.
        apply H5. rewrite Heq. apply in_keys'. exact Hq.
    - eexists. split; [reflexivity|]. split; [exact I|]. split; [apply Permutation_refl|]. intros _. exact I.
    - eexists. split; reflexivity.
  Qed.

  (** [remove_max] of a tree with two or more elements; also what [remove] does for the key of [max] *)
  Lemma tr_take_max mn mx s c : tr_winv (TR mn (Some (TD mx (Some (s, c))))) ->
    exists t', (' (hi, _) <- v_max_val S s ;;
                ' (r, (lo, val)) <- c_remove_key C c hi (v_remove_max Tr) ;;
                ch <- after_end S Tr C s r (v_remove_max S) ;;
                Ret (Some (TR mn (Some (TD (J hi lo, val) ch))), mx)) = Ret (Some t', mx) /\
               (' (hi, _) <- v_max_val S s ;;
                ' (r, (lo, val)) <- c_remove_key C c hi (v_remove_max Tr) ;;
                ch <- after_end S Tr C s r (v_remove_max S) ;;
                Ret (Ok (Some (TR mn (Some (TD (J hi lo, val) ch))), mx))) =
               Ret (@Ok _ T (Some t', mx)) /\
               tk (TR mn (Some (TD mx (Some (s, c))))) mx (Some t').
  Proof.
    intros Hw. destruct (ends_ok KL LS LT LC true s c Hw)
      as [h [u [r [l [v [o [E1 [E2 [E3 [[H1 [H2 H3]] H4]]]]]]]]]].
    cbn [vext vrm] in *. rewrite E1. cbn [bind]. rewrite E2. cbn [bind]. rewrite E3. cbn [bind].
    eexists. split; [reflexivity|]. split; [reflexivity|]. unfold taken, tr_winv, tr_ents, tr_ord.
    cbn [t_min t_data d_max d_children fst snd]. split; auto. split.
    - cbn [TreeUpd.och_ents]. rewrite H2. apply perm_swap.
    - intros [Ho1 [Ho2 Ho3]]. cbn [TreeUpd.och_ents TreeUpd.ooch] in *.
      assert (Hp : In (J h l, v) (ch_ents (s, c)))
        by (eapply Permutation_in; [apply Permutation_sym; exact H2|left; auto]).
      assert (Hnd : NoDup (keys (ch_ents (s, c)))) by (apply (ch_nodup LS); auto).
      split; [apply (Ho2 _ Hp)|]. split; [|auto]. intros q Hq.
      assert (Hq' : In q (ch_ents (s, c)))
        by (eapply Permutation_in; [apply Permutation_sym; exact H2|right; exact Hq]).
      split; [apply Ho2; exact Hq'|].
      assert (Hle := H4 Ho3 q Hq'). cbn [dcmp] in Hle. apply (le_cases OL) in Hle.
      destruct Hle as [Hle|Heq]; auto. exfalso.
      apply keys_perm in H2. apply (NoDup_perm _ _ H2) in Hnd. cbn in Hnd. inversion Hnd; subst.
      apply H5. rewrite <- Heq. apply in_keys'. exact Hq.
  Qed.

  Lemma tr_remove_max_ok t : tr_winv t -> exists ot p,
    tr_remove_max ko S Tr C t = Ret (ot, p) /\ tr_max_val S Tr C t = Ret p /\ tk t p ot.
  Proof.
    intros Hw. unfold tr_remove_max, tr_max_val.
    destruct t as [mn [[mx [[s c]|]]|]]; cbn [t_min t_data d_max d_children].
    - destruct (tr_take_max mn mx s c Hw) as [t' [E [_ H]]]. exists (Some t'), mx. auto.
    - eexists. eexists. split; [reflexivity|]. split; auto. split; [exact I|].
      split; [apply perm_swap|]. intros _. exact I.
    - eexists. eexists. split; [reflexivity|]. split; reflexivity.
  Qed.

  Lemma tr_remove_ok t k : tr_winv t ->
      (exists ot p, tr_remove ko S Tr C t k = Ret (Ok (ot, p)) /\ fst p = k /\ tk t p ot) \/
      (tr_remove ko S Tr C t k = Ret (Err t) /\ ~ In k (keys (tr_ents t))).
  Proof.
    intros Hw. unfold tr_remove. destruct (eqb cmp k (fst (t_min t))) eqn:E0.
    { left. apply (eqb_eq OL) in E0. destruct (tr_remove_min_ok t Hw) as [ot [E H]]. rewrite E. cbn [bind].
      exists ot, (t_min t). auto. }
    apply (eqb_neq OL) in E0.
    destruct t as [mn [[mx [[s c]|]]|]]; cbn [t_min t_data d_max d_children] in *.
    - destruct (eqb cmp k (fst mx)) eqn:E1.
      { left. apply (eqb_eq OL) in E1. destruct (tr_take_max mn mx s c Hw) as [t' [_ [E H]]].
        rewrite E. exists (Some t'), mx. auto. }
      apply (eqb_neq OL) in E1. destruct (split_J KL k) as [h [l [Ek [Hrl Es]]]]. rewrite Es.
      destruct (ch_remove_ok LS LT LC s c k h l Hw Ek Hrl) as [[r [l' [v [o [E2 [-> [[H1 [H2 H3]] H4]]]]]]]|[E2 Hn]].
      + left. rewrite E2. cbn [bind].
        exists (Some (TR mn (Some (TD mx o)))), (k, v). rewrite Ek. split.
        * destruct r as [[c' [|]]|].
          -- destruct H4 as [s' [p [E3 ->]]]. rewrite E3. cbn [bind expect]. destruct p as [h' u']. reflexivity.
          -- subst o. reflexivity.
          -- subst o. reflexivity.
        * rewrite <- Ek. split; auto. unfold taken, tr_winv, tr_ents, tr_ord.
          cbn [t_min t_data d_max d_children fst snd]. split; auto. split.
          -- cbn [TreeUpd.och_ents]. rewrite H2. rewrite (perm_swap (k, v) mx). apply perm_swap.
          -- intros [Ho1 [Ho2 Ho3]]. split; auto. cbn [TreeUpd.och_ents TreeUpd.ooch] in *. split; [|auto].
             intros q Hq. apply Ho2.
             eapply Permutation_in; [apply Permutation_sym; exact H2|right; exact Hq].
      + right. rewrite E2. cbn [bind]. split; auto. unfold tr_ents. cbn. intros [H|[H|H]]; auto; congruence.
    - destruct (eqb cmp (fst mx) k) eqn:E1.
      + left. apply (eqb_eq OL) in E1. eexists. eexists. split; [reflexivity|]. split; auto.
        split; [exact I|]. split; [apply perm_swap|]. intros _. exact I.
      + right. apply (eqb_neq OL) in E1. split; auto. unfold tr_ents. cbn. intros [H|[H|[]]]; congruence.
    - right. split; auto. unfold tr_ents. cbn. intros [H|[]]. congruence.
  Qed.

  Lemma tr_is_monad_ok t : tr_winv t -> tr_is_monad S Tr C t = Ret (length (tr_ents t) =? 1).
  Proof. intros _. destruct t as [mn [[mx ch]|]]; reflexivity. Qed.

  Definition Tree_laws : VebLaws cmp OP.
  Proof.
    refine {| winv := tr_winv : vt OP -> Prop; ents := tr_ents; ord := tr_ord; safe := tr_safe |}.
    - discriminate.
    - exact tr_nodup.
    - exact tr_safe_in.
    - exact tr_safe_gt.
    - intros k v. split; [exact I|]. split; [exact I|]. reflexivity.
    - exact tr_is_monad_ok.
    - intros t Hw. cbn [v_len_hint Tree_ops]. unfold default_len_hint.
      rewrite (tr_is_monad_ok t Hw). cbn [bind].
      destruct (length (tr_ents t) =? 1) eqn:El.
      + apply Nat.eqb_eq in El. exists 1%N, None. rewrite El. split; auto. split; [reflexivity|discriminate].
      + apply Nat.eqb_neq in El. exists 2%N, None. split; auto. split; [|discriminate].
        destruct (tr_ents t) as [|a [|b r]] eqn:Et; cbn in El |- *; try lia. discriminate Et.
    - intros [mn [[mx ch]|]] Hw; cbn.
      + right. split; auto.
      + left. exists mn. auto.
    - intros t Hw. exists (t_min t). split; auto. split; [left; auto|]. intros Ho q. apply tr_min_le. exact Ho.
    - intros [mn [[mx ch]|]] Hw; cbn.
      + exists mx. split; auto. split; [right; left; auto|]. apply tr_max_ge.
      + exists mn. split; auto. split; [left; auto|]. intros _ q [<-|[]]. apply (le_refl OL).
    - exact tr_find_ok.
    - exact tr_pred_ok.
    - exact tr_succ_ok.
    - intros t Hw. exists (t_min t), (put_min S Tr C t). split; auto. split; auto. apply lens_min. exact Hw.
    - intros [mn [[mx ch]|]] Hw; cbn.
      + eexists. eexists. split; [reflexivity|]. split; [reflexivity|]. apply lens_max. exact Hw.
      + eexists. eexists. split; [reflexivity|]. split; [reflexivity|]. apply lens_min. exact Hw.
    - exact tr_find_mut_ok.
    - exact tr_pred_mut_ok.
    - exact tr_succ_mut_ok.
    - exact tr_insert_ok.
    - exact tr_remove_ok.
    - intros t Hw. destruct (tr_remove_min_ok t Hw) as [ot [E H]]. exists ot, (t_min t). auto.
    - exact tr_remove_max_ok.
  Defined.

  (** With the defect repaired, or above the minimum, an insertion into a tree whose parts are always safe is safe. *)
  Lemma tr_safe_fixed t k :
    fixed = true -> (forall s h, safe LS s h) -> (forall t l, safe LT t l) -> tr_safe t k.
  Proof.
    intros Hf Hs Ht. unfold tr_safe. destruct (t_data t) as [d|]; auto.
    assert (Hall : forall a, och_safe LS LT LC (d_children d) a).
    { intros a. destruct (d_children d); cbn; auto. unfold ch_safe. destruct (k_split_val ko a). auto. }
    destruct (cmp k (fst (t_min t))); auto. destruct (cmp k (fst (d_max d))); auto.
  Qed.
  Lemma tr_safe_shallow t k :
    (forall s h, safe LS s h) -> (forall t l, safe LT t l) -> tr_winv t ->
    (length (tr_ents t) <= 1 \/ cmp (fst (t_min t)) k <> Gt) -> tr_safe t k.
  Proof.
    intros Hs Ht Hw H. unfold tr_safe. destruct t as [mn [[mx ch]|]]; cbn in *; auto.
    assert (Hall : forall a, och_safe LS LT LC ch a).
    { intros a. destruct ch; cbn; auto. unfold ch_safe. destruct (k_split_val ko a). auto. }
    destruct H as [H|H]; [unfold tr_ents in H; cbn in H; lia|].
    destruct (cmp k (fst mn)) eqn:E; auto.
    - elim H. apply (cmp_gt_lt OL). exact E.
    - destruct (cmp k (fst mx)); auto.
  Qed.
End TreeLaws.
