(** Lemmas about updates of the children of a Tree, used by TreeProofs.v. *)
From Verif Require Import Base Spec Ops Boxed Lists Laws Tree TreeChildren.

Section Upd.
  Context {B : Build} {K Hi Lo V : Type} {ko : KeyOps K Hi Lo} (KL : KeyLaws ko).
  Context {S : VebOps Hi unit} {Tr : VebOps Lo V} {C : CollOps Hi Lo V Tr}.
  Context (LS : VebLaws (hi_cmp ko) S) (LT : VebLaws (lo_cmp ko) Tr) (LC : CollLaws C).
  Notation J := (k_join ko).
  Notation jp := (@jp K Hi Lo V ko).
  Notation flat := (flat (ko := ko) LT).
  Notation ch_ents := (ch_ents (ko := ko) (S := S) LT LC).
  Notation wch := (wch LS LT LC).
  Notation och := (och LS LT LC).

  Definition och_ents (o : option (vt S * ct C)) : list (K * V) :=
    match o with None => [] | Some x => ch_ents x end.
  Definition owch (o : option (vt S * ct C)) : Prop := match o with None => True | Some x => wch x end.
  Definition ooch (o : option (vt S * ct C)) : Prop := match o with None => True | Some x => och x end.

  (** [k] may be pushed into the children without disturbing their order. *)
  Definition ch_safe (x : vt S * ct C) (k : K) : Prop :=
    let (h, l) := k_split_val ko k in
    (forall t, In (h, t) (cents LC (snd x)) -> safe LT t l) /\
    (~ In h (map fst (cents LC (snd x))) -> safe LS (fst x) h).
  Definition och_safe (o : option (vt S * ct C)) (k : K) : Prop :=
    match o with None => True | Some x => ch_safe x k end.

  Lemma length_flat_ge l : (forall h t, In (h, t) l -> winv LT t) -> length l <= length (flat l).
  Proof.
    induction l as [|[h t] l IH]; intros H; [apply Nat.le_refl|].
    rewrite flat_cons, app_length, map_length. simpl.
    assert (ents LT t <> []) by (apply (L_nonempty LT); apply (H h); left; auto).
    destruct (ents LT t); [congruence|]. simpl.
    assert (length l <= length (flat l)) by (apply IH; intros h0 t0 Hin; apply (H h0); right; exact Hin).
    lia.
  Qed.
  Lemma length_summary x : wch x -> length (ents LS (fst x)) <= length (ch_ents x).
  Proof.
    intros [_ [_ [HP [H _]]]]. apply Permutation_length in HP. unfold keys in HP. rewrite !map_length in HP.
    rewrite HP. apply length_flat_ge. exact H.
  Qed.
  Lemma length_child x h t : In (h, t) (cents LC (snd x)) -> length (ents LT t) <= length (ch_ents x).
  Proof.
    intros H. apply in_split in H. destruct H as [a [b E]]. unfold TreeChildren.ch_ents. rewrite E.
    unfold TreeChildren.flat. rewrite flat_map_app, app_length. cbn [flat_map]. rewrite app_length. unfold child_ents at 2.
    cbn [fst snd]. rewrite map_length. lia.
  Qed.

  Lemma in_split_perm {A} (a : A) l : In a l -> exists rest, Permutation l (a :: rest).
  Proof.
    intros H. apply in_split in H. destruct H as [l1 [l2 ->]]. exists (l1 ++ l2).
    apply Permutation_sym, Permutation_middle.
  Qed.

  Lemma push_ok mn mx o k v : owch o -> (N.of_nat (length (och_ents o)) < usize_max)%N ->
    exists x' r, tr_push ko S Tr C mn mx o k v = Ret (TR mn (Some (TD mx (Some x'))), r) /\ wch x' /\
      match r with
      | None => Permutation (ch_ents x') ((k, v) :: och_ents o)
      | Some q => exists rest, Permutation (och_ents o) (q :: rest) /\ Permutation (ch_ents x') ((k, v) :: rest)
      end /\
      (NoDup (keys (och_ents o)) -> ~ In k (keys (och_ents o)) -> r = None) /\
      (ooch o -> och_safe o k -> och x').
  Proof.
    intros Hw Hlen. unfold tr_push. destruct (split_J KL k) as [h [l [-> [Es _]]]]. rewrite Es.
    destruct o as [[s c]|].
    - cbn [och_ents owch ooch och_safe] in *. unfold ch_safe. rewrite Es. cbn [fst snd].
      destruct (C_get LC c h) as [oc [_ Hoc]]; [apply Hw|]. destruct oc as [t|].
      + (* the child exists *)
        assert (Hwt : winv LT t) by (apply Hw in Hoc; exact Hoc).
        assert (Hl : (N.of_nat (length (ents LT t)) < usize_max)%N).
        { assert (H := length_child (s, c) h t Hoc). lia. }
        destruct (L_insert LT t l v Hwt Hl) as [t' [r [Ei [Hwt' [Hr [Hn Ho]]]]]].
        destruct (C_insert_old LC c h (l, v) t t' r) as [c' [rest [Ec [Hc' [HP HP']]]]]; auto; [apply Hw|].
        rewrite Ec. cbn [bind].
        assert (Hre : forall p, In p (ents LT t') -> real (ko := ko) h (fst p)).
        { intros p Hp. assert (Hp' : In p ((l, v) :: ents LT t)).
          { destruct r as [q|]; [|exact (Permutation_in _ Hr Hp)]. destruct Hr as [rest' [H1 H2]]. apply (Permutation_in _ H2) in Hp.
            destruct Hp as [<-|Hp]; [left; auto|right]. apply (Permutation_in _ (Permutation_sym H1)). right. exact Hp. }
          destruct Hp' as [<-|Hp']; [exact Es|]. destruct p as [l0 v0]. exact (wch_real LS LT LC (s, c) h t l0 v0 Hw Hoc Hp'). }
        assert (Hw' : wch (s, c')) by (eapply repl_wch; eauto).
        assert (Ho' : och (s, c) ->
          (forall t0, In (h, t0) (cents LC c) -> safe LT t0 l) /\
          (~ In h (map fst (cents LC c)) -> safe LS s h) -> och (s, c')).
        { intros Hoch [Hs _]. eapply repl_och; eauto. apply Ho; auto. apply Hoch in Hoc. exact Hoc. }
        assert (Hn' : NoDup (keys (ch_ents (s, c))) -> ~ In (J h l) (keys (ch_ents (s, c))) -> r = None).
        { intros Hnd Hk. apply Hn.
          - assert (HE := ch_ents_split (S := S) (ko := ko) LT LC s c h t rest HP).
            apply keys_perm in HE. apply (NoDup_perm _ _ HE) in Hnd. unfold keys in Hnd.
            rewrite map_app in Hnd. apply NoDup_app_l in Hnd.
            fold (keys (map (jp h) (ents LT t))) in Hnd. rewrite keys_jp in Hnd.
            apply NoDup_map_inv in Hnd. exact Hnd.
          - intros Hin. apply Hk. apply keys_in in Hin. destruct Hin as [v0 Hin].
            apply (in_keys (J h l) v0). apply (in_ch_J LS); eauto. }
        assert (HE := ch_ents_split (S := S) (ko := ko) LT LC s c h t rest HP).
        assert (HE' := ch_ents_split (S := S) (ko := ko) LT LC s c' h t' rest HP').
        destruct r as [[l' v']|].
        * exists (s, c'), (Some (J h l', v')). split; auto. split; auto. split; [|split; auto].
          destruct Hr as [r [H1 H2]]. exists (map (jp h) r ++ flat rest). split.
          -- rewrite HE, (Permutation_map (jp h) H1). reflexivity.
          -- rewrite HE', (Permutation_map (jp h) H2). reflexivity.
          -- intros H1 H2. specialize (Hn' H1 H2). discriminate.
        * exists (s, c'), None. split; auto. split; auto. split; [|split; auto].
          rewrite HE', (Permutation_map (jp h) Hr). simpl. apply perm_skip. symmetry. exact HE.
      + (* the child is new *)
        destruct (C_insert_new LC c h (l, v)) as [c' [Ec [Hc' HP]]]; [apply Hw|exact Hoc|].
        rewrite Ec. cbn [bind].
        assert (HwS : winv LS s) by apply Hw.
        assert (HPS : Permutation (keys (ents LS s)) (map fst (cents LC c))) by apply Hw.
        assert (Hl : (N.of_nat (length (ents LS s)) < usize_max)%N).
        { assert (H := length_summary (s, c) Hw). cbn [fst] in H. lia. }
        destruct (L_insert LS s h tt HwS Hl) as [s' [r [Ei [Hws' [Hr [Hn Ho]]]]]].
        assert (r = None) as ->.
        { apply Hn.
          - eapply NoDup_perm; [apply Permutation_sym; exact HPS|]. apply (C_nodup LC). apply Hw.
          - intros Hin. apply Hoc. eapply Permutation_in; [exact HPS|exact Hin]. }
        rewrite Ei. cbn [bind]. cbn [fst snd] in HP.
        destruct (L_from_monad LT l v) as [Hm1 [Hm2 Hm3]].
        exists (s', c'), None. split; auto. split; [|split; [|split]]; auto.
        * split; [|split; [|split; [|split]]]; auto; cbn [fst snd].
          -- rewrite (keys_perm _ _ Hr). rewrite (Permutation_map fst HP). simpl.
             apply perm_skip. exact HPS.
          -- intros h0 t0 Hin. apply (Permutation_in _ HP) in Hin. destruct Hin as [E|Hin].
             ++ injection E as <- <-. exact Hm1.
             ++ exact (wch_win LS LT LC (s, c) h0 t0 Hw Hin).
          -- intros h0 t0 p Hin Hp. apply (Permutation_in _ HP) in Hin. destruct Hin as [E|Hin].
             ++ injection E as <- <-. rewrite Hm3 in Hp. destruct Hp as [<-|[]]. exact Es.
             ++ destruct p as [l0 v0]. exact (wch_real LS LT LC (s, c) h0 t0 l0 v0 Hw Hin Hp).
        * unfold TreeChildren.ch_ents. cbn [snd]. rewrite (flat_perm LT _ _ HP), flat_cons, Hm3. reflexivity.
        * intros [Hox1 Hox2] [_ Hs]. split; cbn [fst snd] in *.
          -- apply Ho; auto.
          -- intros h0 t0 Hin. apply (Permutation_in _ HP) in Hin. destruct Hin as [E|Hin].
             ++ injection E as <- <-. exact Hm2.
             ++ apply (Hox2 h0 t0 Hin).
    - (* no children yet *)
      destruct (C_create LC h (v_from_monad Tr l v)) as [c [Ec [Hc HP]]]. rewrite Ec. cbn [bind].
      destruct (L_from_monad LT l v) as [Hm1 [Hm2 Hm3]].
      destruct (L_from_monad LS h tt) as [Hs1 [Hs2 Hs3]].
      exists (v_from_monad S h tt, c), None. split; auto.
      assert (Hall : forall h0 t0, In (h0, t0) (cents LC c) -> h0 = h /\ t0 = v_from_monad Tr l v).
      { intros h0 t0 Hin. apply (Permutation_in _ HP) in Hin. destruct Hin as [E|[]].
        injection E as <- <-. auto. }
      split; [|split; [|split]]; auto.
      + split; [|split; [|split; [|split]]]; auto; cbn [fst snd].
        * rewrite Hs3, (Permutation_map fst HP). reflexivity.
        * intros h0 t0 Hin. apply Hall in Hin. destruct Hin as [_ ->]. exact Hm1.
        * intros h0 t0 p Hin Hp. apply Hall in Hin. destruct Hin as [-> ->]. rewrite Hm3 in Hp. destruct Hp as [<-|[]]. exact Es.
      + unfold TreeChildren.ch_ents. cbn [snd]. rewrite (flat_perm LT _ _ HP), flat_cons, Hm3. reflexivity.
      + intros _ _. split; auto. cbn [fst snd]. intros h0 t0 Hin. apply Hall in Hin.
        destruct Hin as [_ ->]. exact Hm2.
  Qed.

  (** *** Removal of an extreme *)
  (** What remains of children [x] when [p] was taken out. *)
  Definition ch_taken (x : vt S * ct C) (p : K * V) (o : option (vt S * ct C)) : Prop :=
    owch o /\ Permutation (ch_ents x) (p :: och_ents o) /\ (och x -> ooch o).

  Lemma remove_from_child s c h t p ot oc rm :
    wch (s, c) -> In (h, t) (cents LC c) ->
    taken (winv LT) (ord LT) (ents LT) t p ot ->
    stored (cinv LC) (cents LC) c h t ot oc ->
    (* removing [h] from the summary works *)
    (exists os, rm s = Ret (os, (h, tt)) /\ taken (winv LS) (ord LS) (ents LS) s (h, tt) os) ->
    exists o, after_end S Tr C s oc rm = Ret o /\ ch_taken (s, c) (jp h p) o.
  Proof.
    intros Hw Hin Ht Hst [os [Ers Hos]]. destruct ot as [t'|], oc as [[c' [|]]|]; try contradiction Hst.
    - (* the child stays *)
      destruct Hst as [Hc' [rest [HP HP']]]. destruct Ht as [Hwt' [Ht1 Ht2]].
      exists (Some (s, c')). split; [reflexivity|]. split; [|split]; cbn [owch och_ents ooch].
      + eapply repl_wch; eauto. intros [l0 v0] H0. apply (wch_real LS LT LC (s, c) h t l0 v0 Hw Hin).
        apply (Permutation_in _ (Permutation_sym Ht1)). right. exact H0.
      + rewrite (ch_ents_split LT LC s c h t rest HP), (ch_ents_split LT LC s c' h t' rest HP').
        rewrite (Permutation_map (jp h) Ht1). reflexivity.
      + intros Ho. eapply repl_och; eauto. apply Ht2. apply Ho in Hin. exact Hin.
    - (* the child goes, others stay *)
      destruct Hst as [Hc' HP]. simpl in Ht.
      assert (HPS : Permutation (keys (ents LS s)) (map fst (cents LC c))) by apply Hw.
      destruct os as [s'|].
      + destruct Hos as [Hws' [Hs1 Hs2]].
        exists (Some (s', c')). cbn [after_end]. rewrite Ers. cbn [bind expect]. split; [reflexivity|].
        split; [|split]; cbn [owch och_ents ooch].
        * split; [|split; [|split; [|split]]]; auto; cbn [fst snd].
          -- rewrite (keys_perm _ _ Hs1) in HPS. rewrite (Permutation_map fst HP) in HPS. simpl in HPS.
             apply Permutation_cons_inv in HPS. exact HPS.
          -- intros h0 t0 H0. apply (wch_win LS LT LC (s, c) h0 t0 Hw). cbn [snd].
             eapply Permutation_in; [apply Permutation_sym; exact HP|right; exact H0].
          -- intros h0 t0 [l0 v0] H0. apply (wch_real LS LT LC (s, c) h0 t0 l0 v0 Hw). cbn [snd].
             eapply Permutation_in; [apply Permutation_sym; exact HP|right; exact H0].
        * rewrite (ch_ents_split LT LC s c h t _ HP), Ht. reflexivity.
        * intros [Ho1 Ho2]. split; cbn [fst snd] in *; auto. intros h0 t0 H0. apply (Ho2 h0 t0).
          eapply Permutation_in; [apply Permutation_sym; exact HP|right; exact H0].
      + (* impossible: the summary would hold one key only *)
        exfalso. simpl in Hos. rewrite Hos in HPS. rewrite (Permutation_map fst HP) in HPS. simpl in HPS.
        apply Permutation_length in HPS. simpl in HPS. rewrite map_length in HPS.
        apply (C_nonempty LC c' Hc'). destruct (cents LC c'); [reflexivity|discriminate].
    - (* the last child goes *)
      simpl in Hst, Ht. exists None. split; [reflexivity|]. split; [|split]; cbn [owch och_ents ooch]; auto.
      rewrite (ch_ents_split LT LC s c h t [] Hst), Ht. reflexivity.
  Qed.

  Lemma ends_ok b s c : wch (s, c) ->
    exists h u r l v o,
      vext S b s = Ret (h, u) /\
      c_remove_key C c h (vrm Tr b) = Ret (r, (l, v)) /\
      after_end S Tr C s r (vrm S b) = Ret o /\
      ch_taken (s, c) (J h l, v) o /\
      (och (s, c) -> forall q, In q (ch_ents (s, c)) -> dcmp b (k_cmp ko) (J h l) (fst q) <> Gt).
  Proof.
    intros Hw. assert (HwS : winv LS s) by apply Hw.
    destruct (D_rm LS b s HwS) as [os [[h []] [Er [Ee Ht]]]].
    destruct (D_ext LS b s HwS) as [p0 [Ee' [Hin _]]]. rewrite Ee in Ee'. injection Ee' as <-.
    apply in_keys in Hin. apply (ch_summary LS LT LC (s, c) h Hw) in Hin. destruct Hin as [t Hin].
    cbn [snd] in Hin. assert (Hwt : winv LT t) by (apply Hw in Hin; exact Hin).
    destruct (D_rm LT b t Hwt) as [ot [[l v] [Er2 [Ee2 Ht2]]]].
    destruct (C_remove LC c h (vrm Tr b) t ot (l, v)) as [oc [Ec Hst]]; auto; [apply Hw|].
    destruct (remove_from_child s c h t (l, v) ot oc (vrm S b) Hw Hin Ht2 Hst) as [o [Eo Ho]].
    { exists os. auto. }
    exists h, tt, oc, l, v, o. split; auto. split; auto. split; auto. split; auto.
    intros Hoch q Hq. destruct (ch_ext_ok KL LS LT LC b (s, c) Hw) as [p [Ep [Hp1 Hp2]]].
    cbn [fst snd] in Ep. rewrite Ee in Ep. cbn [bind] in Ep. unfold child_end in Ep.
    rewrite (get_present LC c h t) in Ep; [|apply Hw|exact Hin]. cbn [bind expect] in Ep.
    rewrite Ee2 in Ep. cbn [bind] in Ep. injection Ep as <-. apply (Hp2 Hoch q Hq).
  Qed.

  (** *** Removal of a given key *)
  Lemma ch_remove_ok s c k h l : wch (s, c) -> k = J h l -> real (ko := ko) h l ->
    (exists r l' v o,
       c_maybe_remove_key C c h (fun t => v_remove Tr t l) = Ret (Ok (r, (l', v))) /\ l' = l /\
       ch_taken (s, c) (k, v) o /\
       match r with
       | None => o = None
       | Some (c', false) => o = Some (s, c')
       | Some (c', true) => exists s' p, v_remove S s h = Ret (Ok (Some s', p)) /\ o = Some (s', c')
       end) \/
    (c_maybe_remove_key C c h (fun t => v_remove Tr t l) = Ret (Err c) /\ ~ In k (keys (ch_ents (s, c)))).
  Proof.
    intros Hw -> Hrl. destruct (C_get LC c h) as [[t|] [_ Hoc]]; [apply Hw| |].
    - assert (Hwt : winv LT t) by (apply Hw in Hoc; exact Hoc).
      destruct (L_remove LT t l Hwt) as [[ot [[l' v] [Er [El Ht]]]]|[Er Hn]].
      + left. cbn [fst] in El. subst l'.
        destruct (C_maybe_ok LC c h (fun t => v_remove Tr t l) t ot (l, v)) as [oc [Ec Hst]]; auto;
          [apply Hw|].
        assert (HwS : winv LS s) by apply Hw.
        assert (Hrm : exists os p, v_remove S s h = Ret (Ok (os, p)) /\ p = (h, tt) /\
                       taken (winv LS) (ord LS) (ents LS) s (h, tt) os).
        { destruct (L_remove LS s h HwS) as [[os [[h' []] [E1 [E2 E3]]]]|[E1 E2]].
          - cbn [fst] in E2. subst h'. exists os, (h, tt). auto.
          - exfalso. apply E2. apply (ch_summary LS LT LC (s, c) h Hw). eauto. }
        destruct Hrm as [os [p [Ers [-> Hos]]]].
        destruct (remove_from_child s c h t (l, v) ot oc (fun _ => Ret (os, (h, tt))) Hw Hoc Ht Hst)
          as [o [Eo Ho]]; [eauto|].
        exists oc, l, v, o. split; auto. split; auto. split; auto.
        destruct oc as [[c' [|]]|]; cbn [after_end bind] in Eo.
        * destruct os as [s'|]; cbn [expect bind] in Eo; [|discriminate]. injection Eo as <-. eauto.
        * injection Eo as <-. reflexivity.
        * injection Eo as <-. reflexivity.
      + right. destruct (C_maybe_err LC c h (fun t => v_remove Tr t l) t t) as [c' [rest [Ec [_ [_ [_ E]]]]]];
          auto; [apply Hw|].
        rewrite (E eq_refl) in Ec. split; auto. intros Hk. apply keys_in in Hk. destruct Hk as [v Hk].
        apply (in_ch_J LS) in Hk; auto. destruct Hk as [t' [H1 H2]].
        assert (t' = t) by (eapply coll_inj; [apply Hw| |]; eauto). subst t'.
        apply Hn. apply in_keys in H2. exact H2.
    - right. split; [apply (C_maybe_absent LC); auto; apply Hw|].
      intros Hk. apply keys_in in Hk. destruct Hk as [v Hk]. apply (in_ch_J LS) in Hk; auto.
      destruct Hk as [t' [H1 _]]. apply (in_map fst) in H1. contradiction.
  Qed.
End Upd.
