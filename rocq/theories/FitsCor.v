(** [fits] is exactly the condition under which an insertion leaves a sorted map. *)
From Verif Require Import Base Ints Ops Spec ByteSet ByteMap Coll Boxed BTree SizedT Tree Lists Laws CollProofs TreeChildren TreeUpd TreeProofs
  Hist Types HistProofs TypesProofs HistCor Fits.

Lemma ends_some {A} (a b : A) m : ends (a :: m ++ [b]) = Some (a, m, b).
Proof. unfold ends. rewrite rev_app_distr. cbn. rewrite rev_involutive. reflexivity. Qed.

Section Halves.
  Context {K Hi Lo V : Type} {ko : KeyOps K Hi Lo} (KL : KeyLaws ko).
  Notation J := (k_join ko).
  Let OL := KL_k KL.
  Let OH := KL_hi KL.
  Let OO := KL_lo KL.
  Notation hi k := (fst (k_split_val ko k)).
  Notation lo k := (snd (k_split_val ko k)).

  Definition lowsP (h : Hi) (m : list (K * V)) : list (Lo * V) :=
    map (fun p => (lo (fst p), snd p)) (filter (fun p => eqb (hi_cmp ko) (hi (fst p)) h) m).
  Lemma lowsP_keys h m : keys (lowsP h m) = lows ko h (keys m).
  Proof.
    induction m as [|p m IH]; auto. cbn. unfold lows, lowsP in *. cbn. destruct (eqb _ _ _); cbn; [f_equal|]; auto.
  Qed.
  Notation real := (real (ko := ko)).
  Lemma real_split k : real (hi k) (lo k).
  Proof. unfold TreeChildren.real. rewrite (KL_join_split KL). apply surjective_pairing. Qed.
  Lemma in_lowsP h m l v : In (l, v) (lowsP h m) <-> real h l /\ In (J h l, v) m.
  Proof.
    unfold lowsP. rewrite in_map_iff. split.
    - intros [[k v'] [E H]]. apply filter_In in H. destruct H as [H1 H2]. cbn in *. apply (eqb_eq OH) in H2. subst h.
      injection E as <- <-. split; [apply real_split|]. rewrite (KL_join_split KL). exact H1.
    - intros [Hr H]. unfold TreeChildren.real in Hr. exists (J h l, v). cbn. rewrite Hr. split; auto. apply filter_In. split; auto. cbn.
      rewrite Hr. apply (eqb_refl OH).
  Qed.
  Lemma lowsP_asc h m : ascending (k_cmp ko) m -> ascending (lo_cmp ko) (lowsP h m).
  Proof.
    induction m as [|p m IH]; intros H; [apply asc_nil|]. apply asc_cons in H. destruct H as [H1 H2]. unfold lowsP. cbn.
    destruct (eqb _ _ _) eqn:E; [|apply IH; auto]. cbn. apply asc_cons. split; [apply IH; auto|].
    intros [l v] Hq. apply in_lowsP in Hq. destruct Hq as [Hr Hq]. apply H2 in Hq. cbn in *. apply (eqb_eq OH) in E. subst h.
    unfold TreeChildren.real in Hr. rewrite (KL_cmp KL), !Hr in Hq. cbn in Hq. rewrite (cmp_refl OH) in Hq. exact Hq.
  Qed.
  Lemma in_highs h ks : In h (highs ko ks) <-> exists l, real h l /\ In (J h l) ks.
  Proof.
    induction ks as [|k ks IH]; cbn [highs fold_right].
    - split; [intros []|intros [l [_ []]]].
    - assert (E : In h (hi k :: highs ko ks) <-> exists l, real h l /\ In (J h l) (k :: ks)).
      { cbn [In]. rewrite IH. split.
        - intros [<-|[l [Hr H]]]; [exists (lo k); split; [apply real_split|left; symmetry; apply (KL_join_split KL)]|exists l; auto].
        - intros [l [Hr [->|H]]]; [left; rewrite Hr; auto|right; eauto]. }
      unfold highs in *. destruct (fold_right _ [] ks) as [|h' hs]; [exact E|].
      destruct (eqb _ _ h') eqn:E'; [|exact E]. apply (eqb_eq OH) in E'. rewrite <- E. rewrite E'. cbn. tauto.
  Qed.
  Lemma highs_asc (m : list (K * V)) : ascending (k_cmp ko) m -> ascending (hi_cmp ko) (map (fun h => (h, tt)) (highs ko (keys m))).
  Proof.
    induction m as [|p m IH]; intros H; [apply asc_nil|]. apply asc_cons in H. destruct H as [H1 H2]. specialize (IH H1).
    cbn [keys map highs fold_right]. 
    assert (Hle : forall h, In h (highs ko (keys m)) -> hi_cmp ko (hi (fst p)) h <> Gt).
    { intros h Hh. apply in_highs in Hh. destruct Hh as [l [Hr Hl]]. apply keys_in in Hl. destruct Hl as [v Hl]. apply H2 in Hl. cbn in Hl.
      unfold TreeChildren.real in Hr. rewrite (KL_cmp KL), !Hr in Hl. cbn in Hl. destruct (hi_cmp ko _ h); congruence. }
    fold (keys m). change (fold_right _ [] (keys m)) with (highs ko (keys m)).
    destruct (highs ko (keys m)) as [|h' hs] eqn:Eh.
    - cbn. apply asc_cons. split; [apply asc_nil|intros q []].
    - destruct (eqb _ _ h') eqn:E; [exact IH|]. cbn [map]. apply asc_cons. split; [exact IH|].
      assert (Hlt : hi_cmp ko (hi (fst p)) h' = Lt).
      { assert (H := Hle h' (or_introl eq_refl)). apply (le_cases OH) in H. destruct H as [H|H]; auto.
        apply (eqb_neq OH) in E. contradiction. }
      cbn [map] in IH. apply asc_cons in IH. destruct IH as [_ IH]. intros q [<-|Hq]; [exact Hlt|]. cbn.
      apply (cmp_trans OH) with h'; [exact Hlt|apply (IH q Hq)].
  Qed.
  Lemma map_keys_tt {A} (hs : list A) : keys (map (fun h => (h, tt)) hs) = hs.
  Proof. unfold keys. rewrite map_map. apply map_id. Qed.

  Context {S : VebOps Hi unit} {Tr : VebOps Lo V} {C : CollOps Hi Lo V Tr}.
  Context {B : Build} (LS : VebLaws (hi_cmp ko) S) (LT : VebLaws (lo_cmp ko) Tr) (LC : CollLaws C).
  Notation ch_ents := (ch_ents (ko := ko) (S := S) LT LC).
  Notation wch := (wch LS LT LC).
  Notation och := (och LS LT LC).

  Lemma repr_intro {K' V'} {cmp' : K' -> K' -> comparison} (OL' : OrdLaws cmp') {O'} (L' : VebLaws cmp' O') (t : vt O') (l : list (K' * V')) :
    winv L' t -> ord L' t -> ascending cmp' l -> (forall p, In p l <-> In p (ents L' t)) -> repr L' t l.
  Proof.
    intros H1 H2 H3 H4. split; auto. split; auto. split; auto. apply NoDup_Permutation; auto.
    - apply (NoDup_map_inv fst). apply (asc_nodup OL'). auto.
    - apply (NoDup_map_inv fst). apply (L_nodup L'); auto.
  Qed.
  Lemma child_repr x m h t : wch x -> och x -> ascending (k_cmp ko) m -> Permutation m (ch_ents x) -> In (h, t) (cents LC (snd x)) ->
    repr LT t (lowsP h m).
  Proof.
    intros Hw Ho Ha HP Ht. apply (repr_intro OO).
    - apply Hw in Ht. exact Ht.
    - apply Ho in Ht. exact Ht.
    - apply lowsP_asc. auto.
    - intros [l v]. rewrite in_lowsP. transitivity (real h l /\ In (J h l, v) (ch_ents x)).
      { split; (intros [Hr H]; split; [exact Hr|revert H]; apply Permutation_in; auto using Permutation_sym). }
      split.
      + intros [Hr H]. apply (in_ch_J LS) in H; auto. destruct H as [t' [H1 H2]].
        assert (t' = t) by (eapply coll_inj; [apply Hw| |]; eauto). subst. auto.
      + intros H. assert (Hr := wch_real LS LT LC x h t l v Hw Ht H). split; [exact Hr|]. apply (in_ch_J LS); eauto.
  Qed.
  Lemma summary_repr x m : wch x -> och x -> ascending (k_cmp ko) m -> Permutation m (ch_ents x) ->
    repr LS (fst x) (map (fun h => (h, tt)) (highs ko (keys m))).
  Proof.
    intros Hw Ho Ha HP. apply (repr_intro OH).
    - apply Hw.
    - apply Ho.
    - apply highs_asc. auto.
    - intros [h []]. transitivity (In h (highs ko (keys m))).
      { rewrite in_map_iff. split; [intros [h' [E H]]; congruence|eauto]. }
      rewrite in_highs. transitivity (In h (keys (ents LS (fst x)))).
      2:{ split; [intros H; apply keys_in in H; destruct H as [[] H]; exact H|apply in_keys]. }
      rewrite (ch_summary LS LT LC) by auto. split.
      + intros [l [Hr Hl]]. apply keys_in in Hl. destruct Hl as [v Hl]. apply (Permutation_in _ HP) in Hl.
        apply (in_ch_J LS) in Hl; auto. destruct Hl as [t [Hl _]]. eauto.
      + intros [t Ht]. assert (Hwt : winv LT t) by (apply Hw in Ht; exact Ht). destruct (ents LT t) as [|[l v] e] eqn:E.
        * elim (L_nonempty LT t Hwt E).
        * assert (Hr : real h l) by (apply (wch_real LS LT LC x h t l v Hw Ht); rewrite E; left; auto).
          exists l. split; [exact Hr|]. apply (in_keys _ v). apply (Permutation_in _ (Permutation_sym HP)). apply (in_ch_J LS); auto.
          exists t. split; auto. rewrite E. left. auto.
  Qed.
  Lemma no_child x m h : wch x -> Permutation m (ch_ents x) ->
    lows ko h (keys m) = [] <-> ~ In h (map fst (cents LC (snd x))).
  Proof.
    intros Hw HP. rewrite <- lowsP_keys. split.
    - intros E Hin. apply in_map_iff in Hin. destruct Hin as [[h' t] [E' Ht]]. cbn in E'. subst h'.
      assert (Hwt : winv LT t) by (apply Hw in Ht; exact Ht). destruct (ents LT t) as [|[l v] e] eqn:Ee.
      + elim (L_nonempty LT t Hwt Ee).
      + assert (H : In (l, v) (lowsP h m)).
        { assert (Hr : real h l) by (apply (wch_real LS LT LC x h t l v Hw Ht); rewrite Ee; left; auto).
          apply in_lowsP. split; [exact Hr|]. apply (Permutation_in _ (Permutation_sym HP)). apply (in_ch_J LS); auto. exists t. split; auto. rewrite Ee. left; auto. }
        apply in_keys in H. rewrite E in H. destruct H.
    - intros Hn. destruct (lowsP h m) as [|[l v] e] eqn:E; auto. elim Hn. assert (H : In (l, v) (lowsP h m)) by (rewrite E; left; auto).
      apply in_lowsP in H. destruct H as [Hr H]. apply (Permutation_in _ HP) in H. apply (in_ch_J LS) in H; auto. destruct H as [t [H _]].
      apply (in_map fst) in H. exact H.
  Qed.
End Halves.

Section Succ.
  Context {K V : Type} {cmp : K -> K -> comparison} (OL : OrdLaws cmp).
  Lemma sp_succ_inv q (l : list (K * V)) x : ascending cmp l -> sp_succ cmp q l = Some x ->
    In x l /\ cmp q (fst x) = Lt /\ forall z, In z l -> cmp q (fst z) = Lt -> cmp (fst x) (fst z) <> Gt.
  Proof.
    intros Ha E. unfold sp_succ in E. apply hd_error_in in E. destruct E as [l' E].
    assert (Hx : In x (above cmp q l)) by (rewrite E; left; auto). apply in_above in Hx. destruct Hx as [H1 H2].
    split; auto. split; auto. intros z Hz Hq. assert (Hz' : In z (above cmp q l)) by (apply in_above; auto).
    assert (Ha' : ascending cmp (above cmp q l)) by (apply asc_above; auto). rewrite E in Hz', Ha'. apply asc_cons in Ha'.
    destruct Hz' as [<-|Hz']; [apply (le_refl OL)|]. apply lt_le. apply Ha'. auto.
  Qed.
  (** a successor query about a stored key that now gets a wrong answer *)
  Definition misses (O : VebOps K V) (t' : vt O) (l l' : list (K * V)) : Prop :=
    exists q x, In q (keys l) /\ sp_succ cmp q l' = Some x /\ v_successor O t' q <> Ret (Some x).
End Succ.
Arguments misses {K V} cmp O.

Section Push.
  Context {K Hi Lo V : Type} {ko : KeyOps K Hi Lo} (KL : KeyLaws ko).
  Notation J := (k_join ko).
  Notation cmp := (k_cmp ko).
  Let OL := KL_k KL.
  Let OH := KL_hi KL.
  Let OO := KL_lo KL.
  Context {S : VebOps Hi unit} {Tr : VebOps Lo V} {C : CollOps Hi Lo V Tr}.
  Context {B : Build} (LS : VebLaws (hi_cmp ko) S) (LT : VebLaws (lo_cmp ko) Tr) (LC : CollLaws C).
  Notation ch_ents := (ch_ents (ko := ko) (S := S) LT LC).
  Notation och_ents := (och_ents (ko := ko) (S := S) LT LC).
  Notation wch := (wch LS LT LC).
  Notation och := (och LS LT LC).
  Notation owch := (owch LS LT LC).
  Notation ooch := (ooch LS LT LC).
  Context (fS : list Hi -> Hi -> bool) (fT : list Lo -> Lo -> bool).

  Notation pushf := (fits_between ko fS fT).
  Notation real := (real (ko := ko)).

  Context (HS : forall s ls h, repr LS s ls -> (safe LS s h <-> fS (keys ls) h = true)).
  Context (HT : forall t ls l, repr LT t ls -> (safe LT t l <-> fT (keys ls) l = true)).

  Lemma push_fits o m k : owch o -> ooch o -> ascending cmp m -> Permutation m (och_ents o) ->
    (och_safe LS LT LC o k <-> pushf (keys m) k = true).
  Proof.
    destruct o as [x|]; cbn [TreeUpd.owch TreeUpd.ooch TreeUpd.och_ents och_safe].
    - intros Hw Ho Ha HP. unfold fits_between. destruct (keys m) as [|k0 ks] eqn:Em.
      + exfalso. apply map_eq_nil in Em. subst m. apply Permutation_nil in HP. elim (ch_nonempty LS LT LC x Hw HP).
      + rewrite <- Em. clear k0 ks Em. unfold ch_safe. destruct (k_split_val ko k) as [h l]. cbn [fst snd].
        assert (Hno := no_child KL LS LT LC x m h Hw HP). destruct (lows ko h (keys m)) as [|l0 ls] eqn:El.
        * rewrite <- (map_keys_tt (highs ko (keys m))). rewrite <- (HS (fst x) _ h) by (apply (summary_repr KL LS LT LC); auto).
          assert (Hn : ~ In h (map fst (cents LC (snd x)))) by (apply Hno; auto). split; [tauto|].
          intros H. split; auto. intros t Ht. elim Hn. apply (in_map fst) in Ht. exact Ht.
        * assert (Hin : In h (map fst (cents LC (snd x)))).
          { destruct (in_dec (key_dec OH) h (map fst (cents LC (snd x)))) as [H|H]; auto. apply Hno in H. discriminate H. }
          apply in_map_iff in Hin. destruct Hin as [[h' t] [E Ht]]. cbn in E. subst h'. rewrite <- El, <- (lowsP_keys (V := V)).
          rewrite <- (HT t) by (eapply child_repr; eauto). split; [intros [H _]; apply H; auto|]. intros H. split.
          -- intros t' Ht'. assert (t' = t) by (eapply coll_inj; [apply Hw| |]; eauto). subst. auto.
          -- intros Hn. elim Hn. apply (in_map fst) in Ht. exact Ht.
    - intros _ _ _ HP. apply Permutation_sym, Permutation_nil in HP. subst m. cbn. tauto.
  Qed.

  Context (WS : forall s ls h s' r, repr LS s ls -> (N.of_nat (length (ents LS s)) < usize_max)%N -> fS (keys ls) h = false ->
            v_insert S s h tt = Ret (s', r) -> misses (hi_cmp ko) S s' ls (sp_insert (hi_cmp ko) h tt ls)).
  Context (WT : forall t ls l v t' r, repr LT t ls -> (N.of_nat (length (ents LT t)) < usize_max)%N -> fT (keys ls) l = false ->
            v_insert Tr t l v = Ret (t', r) -> misses (lo_cmp ko) Tr t' ls (sp_insert (lo_cmp ko) l v ls)).

  (** the answer of [successor] strictly between the extremes *)
  Lemma succ_mid mn mx s c q h l : cmp (fst mn) q = Lt -> cmp q (fst mx) = Lt -> q = J h l -> real h l ->
    tr_successor ko S Tr C (TR mn (Some (TD mx (Some (s, c))))) q =
    (oc <- c_get C c h ;;
     o <- (match oc with Some child => v_successor Tr child l | None => Ret None end) ;;
     match o with
     | Some (lo', val) => Ret (Some (J h lo', val))
     | None => oh <- v_successor S s h ;;
               match oh with
               | Some (hi', _) => child_end ko Tr C c hi' (v_min_val Tr)
               | None => Ret (Some mx)
               end
     end).
  Proof.
    intros H1 H2 -> Hr. unfold TreeChildren.real in Hr. unfold tr_successor. cbn [t_min t_data d_max d_children].
    replace (ltb cmp (J h l) (fst mn)) with false by (symmetry; apply (ltb_ge); apply (lt_asym OL); auto).
    replace (leb cmp (fst mx) (J h l)) with false by (symmetry; apply (leb_gt OL); auto).
    replace (eqb cmp (J h l) (fst mn)) with false by (symmetry; apply (eqb_neq OL); intros E; rewrite E in H1; elim (lt_irrefl OL _ H1)).
    rewrite (KL_split_ref KL), Hr. reflexivity.
  Qed.

  Lemma push_wrong mn mx s c k v m t' r : wch (s, c) -> och (s, c) -> ascending cmp m -> Permutation m (ch_ents (s, c)) ->
    (N.of_nat (length (ch_ents (s, c))) < usize_max)%N ->
    (forall p, In p m -> cmp (fst mn) (fst p) = Lt /\ cmp (fst p) (fst mx) = Lt) -> cmp k (fst mx) = Lt ->
    pushf (keys m) k = false -> tr_push ko S Tr C mn mx (Some (s, c)) k v = Ret (t', r) ->
    exists q x, In q (keys m) /\ sp_succ cmp q (sp_insert cmp k v m) = Some x /\ tr_successor ko S Tr C t' q <> Ret (Some x).
  Proof.
    intros Hw Ho Ha HP Hlen Hb Hkx Hf E. unfold fits_between in Hf. destruct (keys m) as [|k0 ks] eqn:Em; [discriminate Hf|].
    rewrite <- Em in *. clear k0 ks Em.
    destruct (push_ok KL LS LT LC mn mx (Some (s, c)) k v Hw Hlen) as [x' [r' [E' [Hw' [Hents _]]]]].
    rewrite E in E'. injection E' as -> <-. unfold tr_push in E. destruct (split_J KL k) as [h [l [-> [Es _]]]]. rewrite Es in *.
    assert (Ha' : ascending cmp (sp_insert cmp (J h l) v m)) by (apply (sp_insert_asc OL); auto).
    assert (Hin : forall z, In z (sp_insert cmp (J h l) v m) <-> z = (J h l, v) \/ In z m /\ fst z <> J h l) by (intros z; apply (in_sp_insert OL); auto).
    assert (Hbx : forall z, In z (sp_insert cmp (J h l) v m) -> cmp (fst z) (fst mx) = Lt).
    { intros z Hz. apply Hin in Hz. destruct Hz as [->|[Hz _]]; auto. apply Hb; auto. }
    assert (Hno := no_child KL LS LT LC (s, c) m h Hw HP). cbn [fst snd] in Hno.
    destruct (lows ko h (keys m)) as [|l0 ls] eqn:El.
    - (* a new child: the summary goes wrong *)
      assert (Hn : ~ In h (map fst (cents LC c))) by (apply Hno; auto).
      destruct (C_insert_new LC c h (l, v) (proj1 (proj2 Hw)) Hn) as [c' [Ec [Hc' HPc]]]. rewrite Ec in E. cbn [bind fst snd] in E.
      assert (Hrs := summary_repr KL LS LT LC (s, c) m Hw Ho Ha HP). cbn [fst] in Hrs.
      assert (Hlen' : (N.of_nat (length (ents LS s)) < usize_max)%N).
      { assert (H := length_summary LS LT LC (s, c) Hw). cbn [fst] in H. lia. }
      destruct (v_insert S s h tt) as [[s' rs]|] eqn:Ei; [|discriminate E]. cbn [bind] in E. injection E as E1 E2. subst x' r.
      destruct (WS s _ h s' rs Hrs Hlen') as [h1 [[h2 []] [Hh1 [Hh2 Hne]]]]; auto; [rewrite map_keys_tt; auto|].
      rewrite map_keys_tt in Hh1. 
      assert (Has : ascending (hi_cmp ko) (sp_insert (hi_cmp ko) h tt (map (fun h => (h, tt)) (highs ko (keys m))))).
      { apply (sp_insert_asc OH). apply highs_asc; auto. }
      destruct (sp_succ_inv OH _ _ _ Has Hh2) as [Hi1 [Hi2 Hi3]]. cbn [fst] in Hi2, Hi3.
      assert (Hnew : forall h', (exists l', real h' l' /\ In (J h' l') (keys (sp_insert cmp (J h l) v m))) <->
                In (h', tt) (sp_insert (hi_cmp ko) h tt (map (fun h => (h, tt)) (highs ko (keys m))))).
      { intros h'. rewrite (in_sp_insert OH) by (apply highs_asc; auto). split.
        - intros [l' [Hr' Hl']]. apply keys_in in Hl'. destruct Hl' as [w Hl']. apply Hin in Hl'. destruct Hl' as [Hl'|[Hl' Hl2]].
          + injection Hl' as Hl' _. apply J_inj in Hl'; auto. left. f_equal. apply Hl'.
          + cbn in Hl2. destruct (key_dec OH h' h) as [->|Hd]; [left; auto|]. right. split; auto. apply in_map_iff. exists h'. split; auto.
            apply (in_highs KL). exists l'. split; [exact Hr'|]. apply in_keys in Hl'. exact Hl'.
        - intros [Hl'|[Hl' Hl2]].
          + injection Hl' as ->. exists l. split; [exact Es|]. apply (in_keys _ v). apply Hin. auto.
          + cbn in Hl2. apply in_map_iff in Hl'. destruct Hl' as [h'' [E' Hl']]. injection E' as ->. apply (in_highs KL) in Hl'. destruct Hl' as [l' [Hr' Hl']].
            exists l'. split; [exact Hr'|]. apply keys_in in Hl'. destruct Hl' as [w Hl']. apply (in_keys _ w). apply Hin. right. split; auto. cbn. intros E'.
            apply J_inj in E'; auto. destruct E'. contradiction. }
      (* the greatest key under h1 *)
      assert (Hch1 : exists t1, In (h1, t1) (cents LC c)).
      { apply (ch_summary LS LT LC (s, c)); auto. cbn [fst]. destruct Hrs as [_ [_ [_ HPs]]]. apply keys_perm in HPs. rewrite map_keys_tt in HPs.
        apply (Permutation_in _ HPs). auto. }
      destruct Hch1 as [t1 Ht1]. assert (Hr1 := child_repr KL LS LT LC (s, c) m h1 t1 Hw Ho Ha HP Ht1).
      destruct (repr_max OO LT t1 _ Hr1) as [[l1 v1] [Emax Hmax]].
      assert (Hl1 : In (l1, v1) (lowsP (ko := ko) h1 m)). { apply last_error_in in Hmax. destruct Hmax as [l' ->]. apply in_app_iff. right. left. auto. }
      apply (in_lowsP KL) in Hl1. destruct Hl1 as [Hrl1 Hl1].
      (* the least key under h2 *)
      assert (Hh12 : h1 <> h). { intros ->. apply Hn. apply (in_map fst) in Ht1. exact Ht1. }
      assert (Hex : exists x, sp_succ cmp (J h1 l1) (sp_insert cmp (J h l) v m) = Some x).
      { destruct (sp_succ cmp (J h1 l1) (sp_insert cmp (J h l) v m)) as [x|] eqn:Ex; eauto. exfalso.
        destruct (proj2 (Hnew h2) Hi1) as [l2 [Hrl2 Hl2]]. apply keys_in in Hl2. destruct Hl2 as [w Hl2].
        unfold sp_succ in Ex. destruct (above _ _ _) as [|y ys] eqn:Ey; [|discriminate Ex].
        assert (Hy : In (J h2 l2, w) (above cmp (J h1 l1) (sp_insert cmp (J h l) v m))).
        { apply in_above. split; auto. cbn. rewrite (cmp_J KL) by auto. rewrite Hi2. reflexivity. }
        rewrite Ey in Hy. destruct Hy. }
      destruct Hex as [x Hx]. exists (J h1 l1), x. split; [apply in_keys in Hl1; exact Hl1|]. split; auto.
      assert (Hx' := sp_succ_inv OL _ _ _ Ha' Hx). destruct Hx' as [Hx1 [Hx2 Hx3]].
      assert (Hxh : exists l2, real h2 l2 /\ fst x = J h2 l2).
      { destruct (split_J KL (fst x)) as [hx [lx [Ex [Hrx _]]]]. exists lx. rewrite Ex. enough (Ehx : hx = h2) by (subst hx; auto).
        assert (Hhx : In (hx, tt) (sp_insert (hi_cmp ko) h tt (map (fun h => (h, tt)) (highs ko (keys m))))).
        { apply Hnew. exists lx. split; [exact Hrx|]. rewrite <- Ex. apply in_keys'. auto. }
        rewrite Ex in Hx2. rewrite (cmp_J KL) in Hx2 by auto.
        assert (Hlt : hi_cmp ko h1 hx = Lt).
        { destruct (hi_cmp ko h1 hx) eqn:Eh; [|reflexivity|discriminate Hx2]. exfalso. apply (cmp_eq_eq OH) in Eh. subst hx.
          assert (Hxm : In x m). { apply Hin in Hx1. destruct Hx1 as [->|[Hx1 _]]; auto. cbn in Ex. apply J_inj in Ex; auto. destruct Ex. congruence. }
          destruct x as [kx vx]. cbn in Ex. subst kx. assert (Hxm' := proj2 (in_lowsP KL _ _ _ _) (conj Hrx Hxm)). clear Hxm. rename Hxm' into Hxm.
          assert (Hle := repr_max OO LT t1 _ Hr1). destruct (L_max LT t1 (proj1 Hr1)) as [p [Ep [_ Hp]]]. rewrite Emax in Ep. injection Ep as <-.
          apply (repr_in LT t1 _ _ Hr1) in Hxm. apply Hp in Hxm; [|apply Hr1]. cbn in Hxm. apply Hxm. apply (cmp_gt_lt OO). exact Hx2. }
        apply (le_antisym OH).
        - destruct (proj2 (Hnew h2) Hi1) as [l2 [Hrl2 Hl2]]. apply keys_in in Hl2. destruct Hl2 as [w Hl2]. apply Hx3 in Hl2.
          + rewrite Ex in Hl2. cbn in Hl2. rewrite (cmp_J KL) in Hl2 by auto. destruct (hi_cmp ko hx h2); congruence.
          + cbn. rewrite (cmp_J KL) by auto. rewrite Hi2. reflexivity.
        - apply (Hi3 (hx, tt) Hhx Hlt). }
      destruct Hxh as [l2 [Hrl2 Hx4]].
      assert (Hbq := Hb _ Hl1). cbn [fst] in Hbq. rewrite (succ_mid mn mx s' c' (J h1 l1) h1 l1) by (auto; apply Hbq || idtac).
      destruct (C_get LC c' h1 Hc') as [oc [Eg Hg]]. rewrite Eg. cbn [bind].
      assert (Hoc : oc = Some t1).
      { assert (H : In (h1, t1) (cents LC c')) by (apply (Permutation_in _ (Permutation_sym HPc)); right; auto). destruct oc as [t2|].
        - f_equal. eapply coll_inj; eauto.
        - elim Hg. apply (in_map fst) in H. exact H. }
      subst oc.
      assert (Es1 : v_successor Tr t1 l1 = Ret None).
      { destruct (L_succ LT t1 l1 (proj1 Hr1)) as [[p|] [Ep Hp]]; auto. destruct Hp as [Hp1 Hp2]. destruct (Hp2 (proj1 (proj2 Hr1))) as [Hp3 _].
        destruct (L_max LT t1 (proj1 Hr1)) as [p' [Ep' [_ Hp']]]. rewrite Emax in Ep'. injection Ep' as <-. elim (Hp' (proj1 (proj2 Hr1)) p Hp1).
        apply (cmp_gt_lt OO). exact Hp3. }
      rewrite Es1. cbn [bind]. destruct (L_succ LS s' h1 (proj1 Hw')) as [oh [Eo Hoh]]. rewrite Eo. cbn [bind]. rewrite Eo in Hne.
      destruct oh as [[h' []]|].
      + assert (Hd : h' <> h2) by (intros ->; apply Hne; reflexivity). destruct Hoh as [Hoh _].
        assert (Hc2 : exists t2, In (h', t2) (cents LC c')). { apply (ch_summary LS LT LC (s', c') h' Hw'). cbn [fst]. apply in_keys in Hoh. exact Hoh. }
        destruct Hc2 as [t2 Ht2]. unfold child_end. rewrite (get_present LC c' h' t2 Hc' Ht2). cbn [bind expect].
        assert (Hwt2 : winv LT t2) by (exact (wch_win LS LT LC _ _ _ Hw' Ht2)).
        destruct (L_min LT t2 Hwt2) as [[lm vm] [Em [Hm _]]]. rewrite Em. cbn [bind]. intros Ex. injection Ex as Ex. rewrite <- Ex in Hx4. cbn in Hx4.
        apply J_inj in Hx4; [|exact (wch_real LS LT LC _ _ _ _ _ Hw' Ht2 Hm)|exact Hrl2]. destruct Hx4. contradiction.
      + intros Ex. injection Ex as ->. elim (lt_irrefl OL _ (Hbx _ Hx1)).
    - (* an old child goes wrong *)
      assert (Hc : In h (map fst (cents LC c))).
      { destruct (in_dec (key_dec OH) h (map fst (cents LC c))) as [H|H]; auto. apply Hno in H. discriminate H. }
      apply in_map_iff in Hc. destruct Hc as [[h' t] [E' Ht]]. cbn in E'. subst h'. rewrite <- El, <- (lowsP_keys (V := V)) in Hf.
      assert (Hr := child_repr KL LS LT LC (s, c) m h t Hw Ho Ha HP Ht).
      assert (Hlen' : (N.of_nat (length (ents LT t)) < usize_max)%N).
      { assert (H := length_child LT LC (S := S) (ko := ko) (s, c) h t Ht). lia. }
      destruct (L_insert LT t l v (proj1 Hr) Hlen') as [t' [r0 [Ei [Hwt' _]]]].
      destruct (C_insert_old LC c h (l, v) t t' r0 (proj1 (proj2 Hw)) Ht Ei) as [c' [rest [Ec [Hc' [HP1 HP2]]]]]. rewrite Ec in E. cbn [bind] in E.
      assert (Ex' : x' = (s, c')) by (destruct r0 as [[]|]; injection E; auto). subst x'. clear E.
      destruct (WT t _ l v t' r0 Hr Hlen' Hf Ei) as [q0 [[l2 v2] [Hq0 [Hs0 Hne]]]].
      assert (Hal : ascending (lo_cmp ko) (sp_insert (lo_cmp ko) l v (lowsP (ko := ko) h m))) by (apply (sp_insert_asc OO); apply (lowsP_asc KL); auto).
      destruct (sp_succ_inv OO _ _ _ Hal Hs0) as [Hi1 [Hi2 Hi3]]. cbn [fst] in Hi2, Hi3.
      assert (Hnew : forall l' v', In (l', v') (sp_insert (lo_cmp ko) l v (lowsP (ko := ko) h m)) <-> real h l' /\ In (J h l', v') (sp_insert cmp (J h l) v m)).
      { intros l' v'. rewrite (in_sp_insert OO) by (apply (lowsP_asc KL); auto). rewrite Hin, (in_lowsP KL). cbn. split.
        - intros [H|[[Hr' H1] H2]]; [injection H as -> ->; auto|split; [exact Hr'|right; split; auto]]. intros E'. apply J_inj in E'; auto. apply H2. apply E'.
        - intros [Hr' [H|[H1 H2]]].
          + left. injection H as H ->. apply J_inj in H; auto. destruct H as [_ ->]. auto.
          + right. split; auto. intros ->. auto. }
      apply keys_in in Hq0. destruct Hq0 as [vq Hq0]. apply (in_lowsP KL) in Hq0. destruct Hq0 as [Hrq Hq0].
      assert (Hrl2 : real h l2) by (apply (Hnew l2 v2); auto).
      assert (Hx1 : In (J h l2, v2) (sp_insert cmp (J h l) v m)) by (apply Hnew; auto).
      exists (J h q0), (J h l2, v2). split; [apply in_keys in Hq0; exact Hq0|]. split.
      + apply (sp_succ_spec OL); auto.
        * cbn. rewrite (cmp_J KL) by auto. rewrite (cmp_refl OH). exact Hi2.
        * intros [kz vz] Hz Hqz. cbn in *. destruct (split_J KL kz) as [hz [lz [-> [Hrz _]]]]. rewrite (cmp_J KL) in Hqz |- * by auto.
          destruct (hi_cmp ko h hz) eqn:Eh; try congruence. apply (cmp_eq_eq OH) in Eh. subst hz. apply (Hi3 _ (proj2 (Hnew _ _) (conj Hrz Hz))). exact Hqz.
      + assert (Hbq := Hb _ Hq0). cbn [fst] in Hbq. rewrite (succ_mid mn mx s c' (J h q0) h q0) by (auto; apply Hbq || idtac).
        rewrite (get_present LC c' h t' Hc') by (apply (Permutation_in _ (Permutation_sym HP2)); left; auto). cbn [bind].
        destruct (L_succ LT t' q0 Hwt') as [o [Eo Hoo]]. rewrite Eo in *. cbn [bind]. destruct o as [[lo' val]|].
        * intros E'. injection E' as E' ->. apply J_inj in E'; [|apply (wch_real LS LT LC _ h t' lo' v2 Hw'); [apply (Permutation_in _ (Permutation_sym HP2)); left; auto|apply Hoo]|auto]. destruct E' as [_ ->]. apply Hne. reflexivity.
        * destruct (L_succ LS s h (proj1 Hw)) as [oh [Eoh Hoh]]. rewrite Eoh. cbn [bind]. destruct oh as [[h' []]|].
          -- destruct Hoh as [Hoh1 Hoh2]. destruct (Hoh2 (proj1 Ho)) as [Hlt _]. cbn in Hlt. 
             assert (Hc2 : exists t2, In (h', t2) (cents LC c')). { apply (ch_summary LS LT LC (s, c') h' Hw'). cbn [fst]. apply in_keys in Hoh1. exact Hoh1. }
             destruct Hc2 as [t2 Ht2]. unfold child_end. rewrite (get_present LC c' h' t2 Hc' Ht2). cbn [bind expect].
             assert (Hwt2 : winv LT t2) by (exact (wch_win LS LT LC _ _ _ Hw' Ht2)).
             destruct (L_min LT t2 Hwt2) as [[lm vm] [Em [Hm _]]]. rewrite Em. cbn [bind]. intros Ex. injection Ex as Ex _.
             apply J_inj in Ex; [|exact (wch_real LS LT LC _ _ _ _ _ Hw' Ht2 Hm)|exact Hrl2]. destruct Ex as [-> _]. elim (lt_irrefl OH _ Hlt).
          -- intros Ex. injection Ex as ->. elim (lt_irrefl OL _ (Hbx _ Hx1)).
  Qed.
End Push.

Section TreeFits.
  Context {B : Build}.
  Context (fixed : bool).
  Context {K Hi Lo V : Type} {ko : KeyOps K Hi Lo} (KL : KeyLaws ko).
  Notation cmp := (k_cmp ko).
  Let OL := KL_k KL.
  Context {S : VebOps Hi unit} {Tr : VebOps Lo V} {C : CollOps Hi Lo V Tr}.
  Context (LS : VebLaws (hi_cmp ko) S) (LT : VebLaws (lo_cmp ko) Tr) (LC : CollLaws C).
  Notation och_ents := (och_ents (ko := ko) (S := S) LT LC).
  Notation TL := (Tree_laws fixed KL LS LT LC).
  Context (fS : list Hi -> Hi -> bool) (fT : list Lo -> Lo -> bool).
  Notation pushf := (fits_between ko fS fT).
  Notation treef := (fits_tree fixed ko fS fT).

  Lemma tree_list t l : repr TL t l ->
    match t_data t with
    | None => l = [t_min t]
    | Some d => exists m, l = t_min t :: m ++ [d_max d] /\ ascending cmp m /\ Permutation m (och_ents (d_children d))
    end.
  Proof.
    intros [Hw [Ho [Ha HP]]]. destruct t as [mn [[mx o]|]]; cbn in Hw, Ho, HP |- *.
    - unfold tr_winv, tr_ord, tr_ents in *. cbn in Hw, Ho, HP. destruct Ho as [H1 [H2 H3]].
      destruct (sort_exists OL (och_ents o) (ooch_nodup LS LT LC o Hw H3)) as [m [Hm HPm]].
      exists m. split; [|split; auto]. apply (asc_perm_eq OL); auto.
      + assert (Hin : forall q, In q m -> In q (och_ents o)) by (intros q; apply (Permutation_in _ HPm)).
        apply asc_cons. split.
        * apply asc_app. split; auto. split; [apply asc_cons; split; [apply asc_nil|intros q []]|].
          intros q z Hq [<-|[]]. apply H2. auto.
        * intros q Hq. apply in_app_iff in Hq. destruct Hq as [Hq|[<-|[]]]; auto. apply H2. auto.
      + rewrite HP. apply perm_skip. rewrite HPm. apply Permutation_cons_append.
    - unfold tr_ents in HP. cbn in HP. apply Permutation_sym, Permutation_length_1_inv in HP. auto.
  Qed.

  Lemma ends_keys (a b : K * V) m : ends (keys (a :: m ++ [b])) = Some (fst a, keys m, fst b).
  Proof. unfold keys. cbn. rewrite map_app. apply ends_some. Qed.

  Section Safe.
    Context (HS : forall s ls h, repr LS s ls -> (safe LS s h <-> fS (keys ls) h = true)).
    Context (HT : forall t ls l, repr LT t ls -> (safe LT t l <-> fT (keys ls) l = true)).
    Lemma tree_safe_fits t l k : repr TL t l -> (safe TL t k <-> treef (keys l) k = true).
    Proof.
      intros Hr. assert (Hl := tree_list t l Hr). destruct Hr as [Hw [Ho [Ha _]]]. destruct t as [mn [[mx o]|]]; cbn in Hw, Ho, Hl |- *.
      - destruct Hl as [m [-> [Hm HPm]]]. unfold fits_tree. rewrite ends_keys. unfold tr_safe, tr_winv, tr_ord in *. cbn in Hw, Ho |- *.
        destruct Ho as [H1 [H2 H3]].
        assert (HP : forall p, och_safe LS LT LC o p <-> pushf (keys m) p = true)
          by (intros p; apply (push_fits KL LS LT LC fS fT HS HT); auto).
        destruct (cmp k (fst mn)); [tauto| |destruct (cmp k (fst mx)); [tauto|apply HP|apply HP]].
        rewrite HP, andb_true_iff. tauto.
      - subst l. cbn. tauto.
    Qed.
  End Safe.

  Lemma sp_succ_mid q (a b x : K * V) m' l' : ascending cmp l' -> ascending cmp m' -> (forall z, In z l' -> z = a \/ z = b \/ In z m') ->
    (forall z, In z m' -> In z l') -> cmp (fst a) q = Lt -> (forall z, In z m' -> cmp (fst z) (fst b) = Lt) ->
    sp_succ cmp q m' = Some x -> sp_succ cmp q l' = Some x.
  Proof.
    intros Hl Hm H1 H2 H3 H4 E. destruct (sp_succ_inv OL _ _ _ Hm E) as [Hx1 [Hx2 Hx3]]. apply (sp_succ_spec OL); auto.
    intros z Hz Hq. apply H1 in Hz. destruct Hz as [->|[->|Hz]]; auto.
    - elim (lt_asym OL _ _ H3 Hq).
    - apply lt_le. auto.
  Qed.

  Section Wrong.
    Context (WS : forall s ls h s' r, repr LS s ls -> (N.of_nat (length (ents LS s)) < usize_max)%N -> fS (keys ls) h = false ->
              v_insert S s h tt = Ret (s', r) -> misses (hi_cmp ko) S s' ls (sp_insert (hi_cmp ko) h tt ls)).
    Context (WT : forall t ls l v t' r, repr LT t ls -> (N.of_nat (length (ents LT t)) < usize_max)%N -> fT (keys ls) l = false ->
              v_insert Tr t l v = Ret (t', r) -> misses (lo_cmp ko) Tr t' ls (sp_insert (lo_cmp ko) l v ls)).
    Context (Hfixed : fixed = false).
    Lemma tree_wrong t l k v t' r : repr TL t l -> (N.of_nat (length (ents TL t)) < usize_max)%N -> treef (keys l) k = false ->
      v_insert (Tree_ops fixed ko S Tr C) t k v = Ret (t', r) -> misses cmp (Tree_ops fixed ko S Tr C) t' l (sp_insert cmp k v l).
    Proof.
      intros Hr Hlen Hf E. assert (Hl := tree_list t l Hr). destruct Hr as [Hw [Ho [Ha _]]]. destruct t as [mn [[mx o]|]]; cbn in Hw, Ho, Hl, E |- *.
      2:{ subst l. cbn in Hf. discriminate Hf. }
      destruct Hl as [m [-> [Hm HPm]]]. unfold fits_tree in Hf. rewrite ends_keys in Hf. unfold tr_winv, tr_ord in *. cbn in Hw, Ho.
      destruct Ho as [H1 [H2 H3]].
      assert (Hlen' : (N.of_nat (length (och_ents o)) < usize_max)%N).
      { change (N.of_nat (Datatypes.S (Datatypes.S (length (och_ents o)))) < usize_max)%N in Hlen. lia. }
      clear Hlen.
      assert (Hin : forall z, In z (sp_insert cmp k v (mn :: m ++ [mx])) <-> z = (k, v) \/ (z = mn \/ In z m \/ z = mx) /\ fst z <> k).
      { intros z. rewrite (in_sp_insert OL) by auto. cbn [In]. rewrite in_app_iff. cbn [In]. intuition auto. }
      assert (Ha' : ascending cmp (sp_insert cmp k v (mn :: m ++ [mx]))) by (apply (sp_insert_asc OL); auto).
      assert (Hb : forall p, In p m -> cmp (fst mn) (fst p) = Lt /\ cmp (fst p) (fst mx) = Lt).
      { intros p Hp. apply H2. apply (Permutation_in _ HPm). auto. }
      unfold misses. cbn [v_successor Tree_ops].
      unfold tr_insert in E. cbn [t_min t_data d_max d_children] in E. destruct (cmp k (fst mn)) eqn:E1; [discriminate Hf| |].
      - (* below the minimum *)
        assert (Hnew : sp_succ cmp (fst mn) (sp_insert cmp k v (mn :: m ++ [mx])) = sp_succ cmp (fst mn) (m ++ [mx])).
        { assert (Hall : forall z, In z (m ++ [mx]) -> cmp (fst mn) (fst z) = Lt).
          { intros z Hz. apply in_app_iff in Hz. destruct Hz as [Hz|[<-|[]]]; auto. apply Hb. auto. }
          assert (Hap : ascending cmp (m ++ [mx])) by (apply asc_cons in Ha; apply Ha).
          destruct (m ++ [mx]) as [|y ys] eqn:Ey; [destruct m; discriminate Ey|].
          assert (HS : sp_succ cmp (fst mn) (y :: ys) = Some y).
          { apply (sp_succ_spec OL); auto; [left; auto|apply Hall; left; auto|]. intros z Hz _. destruct Hz as [<-|Hz]; [apply (le_refl OL)|].
            apply lt_le. apply asc_cons in Hap. apply Hap. auto. }
          rewrite HS. assert (Hy : In y (m ++ [mx])) by (rewrite Ey; left; auto).
          assert (Hky : forall z, In z (y :: ys) -> cmp k (fst z) = Lt). { intros z Hz. apply (cmp_trans OL) with (fst mn); auto. }
          apply (sp_succ_spec OL); auto.
          - apply (in_sp_insert OL); auto. right. split; [right; left; auto|]. intros E'. specialize (Hky y (or_introl eq_refl)). rewrite E' in Hky.
            elim (lt_irrefl OL _ Hky).
          - apply Hall. left. auto.
          - intros z Hz Hq. apply (in_sp_insert OL) in Hz; auto. destruct Hz as [->|[[<-|Hz] _]].
            + cbn in Hq. elim (lt_asym OL _ _ E1 Hq).
            + elim (lt_irrefl OL _ Hq).
            + destruct Hz as [<-|Hz]; [apply (le_refl OL)|]. apply lt_le. apply asc_cons in Hap. apply Hap. auto. }
        destruct (sp_succ cmp (fst mn) (m ++ [mx])) as [x|] eqn:Ex.
        2:{ exfalso. unfold sp_succ in Ex. destruct (above cmp (fst mn) (m ++ [mx])) as [|y ys] eqn:Ey; [|discriminate Ex].
            assert (Hy : In mx (above cmp (fst mn) (m ++ [mx]))) by (apply in_above; split; auto; apply in_app_iff; right; left; auto).
            rewrite Ey in Hy. destruct Hy. }
        exists (fst mn), x. split; [left; auto|]. split; auto.
        destruct mn as [k1 v1]. cbn [fst snd] in *. rewrite (proj2 (cmp_gt_lt OL (fst mx) k1) H1) in E. rewrite Hfixed in E.
        destruct (push_ok KL LS LT LC (k, v) (k1, v1) o (fst mx) (snd mx) Hw Hlen') as [x' [r' [E' _]]]. rewrite E in E'. injection E' as -> _.
        unfold tr_successor. cbn [t_min t_data d_max d_children fst].
        replace (ltb cmp k1 k) with false by (symmetry; apply ltb_ge; apply (lt_asym OL); auto).
        replace (leb cmp k1 k1) with true by (symmetry; apply leb_le; apply (le_refl OL)). discriminate.
      - apply (cmp_gt_lt OL) in E1. destruct o as [[s c]|].
        2:{ apply Permutation_sym, Permutation_nil in HPm. subst m. cbn in Hf. destruct (cmp k (fst mx)); discriminate Hf. }
        destruct (cmp k (fst mx)) eqn:E2; [discriminate Hf| |].
        + destruct (push_wrong KL LS LT LC fS fT WS WT mn mx s c k v m t' r) as [q [x [Hq [Hx Hne]]]]; auto.
          exists q, x. split; [unfold keys; cbn; rewrite map_app, in_app_iff; auto|]. split; auto. apply keys_in in Hq. destruct Hq as [vq Hq].
          apply Hb in Hq. apply (sp_succ_mid q mn mx x (sp_insert cmp k v m)); auto.
          * apply (sp_insert_asc OL); auto.
          * intros z Hz. rewrite (in_sp_insert OL) by auto. apply Hin in Hz. tauto.
          * intros z Hz. apply (in_sp_insert OL) in Hz; auto. apply Hin. tauto.
          * apply Hq.
          * intros z Hz. apply (in_sp_insert OL) in Hz; auto. destruct Hz as [->|[Hz _]]; auto. apply Hb. auto.
        + apply (cmp_gt_lt OL) in E2. destruct mx as [kx vx]. cbn [fst snd] in *.
          assert (Hk : forall p, In p m -> cmp (fst p) k = Lt). { intros p Hp. apply (cmp_trans OL) with kx; auto. apply Hb. auto. }
          destruct (push_wrong KL LS LT LC fS fT WS WT mn (k, v) s c kx vx m t' r) as [q [x [Hq [Hx Hne]]]]; auto.
          { intros p Hp. split; auto. apply Hb. auto. }
          exists q, x. split; [unfold keys; cbn; rewrite map_app, in_app_iff; auto|]. split; auto. apply keys_in in Hq. destruct Hq as [vq Hq].
          apply Hb in Hq. apply (sp_succ_mid q mn (k, v) x (sp_insert cmp kx vx m)); auto.
          * apply (sp_insert_asc OL); auto.
          * intros z Hz. rewrite (in_sp_insert OL) by auto. apply Hin in Hz. destruct Hz as [->|[[->|[Hz| ->]] _]]; auto.
            right. right. right. split; auto. intros E'. apply Hb in Hz. rewrite E' in Hz. elim (lt_irrefl OL _ (proj2 Hz)).
          * intros z Hz. apply (in_sp_insert OL) in Hz; auto. apply Hin. destruct Hz as [->|[Hz _]]; right; (split; [auto|]).
            -- cbn. intros E'. rewrite E' in E2. elim (lt_irrefl OL _ E2).
            -- intros E'. apply Hk in Hz. rewrite E' in Hz. elim (lt_irrefl OL _ Hz).
          * apply Hq.
          * intros z Hz. apply (in_sp_insert OL) in Hz; auto. destruct Hz as [->|[Hz _]]; auto.
    Qed.
  End Wrong.
End TreeFits.

Lemma safe_fits {B : Build} {fixed K V cmp O} (T : VebType fixed K V cmp O) t l k : repr (type_laws T) t l ->
  (safe (type_laws T) t k <-> fits T (keys l) k = true).
Proof.
  revert t l k. induction T as [|V|K V cmp OL|K Hi Lo V ko KL S Tr C TS IHS TT IHT CT|K V cmp O T IH|K V cmp O T IH]; intros t l k Hr.
  1-3: split; intros _; [reflexivity|exact I].
  - apply (tree_safe_fits fixed KL (type_laws TS) (type_laws TT) (coll_laws CT) (fits TS) (fits TT)); auto.
  - exact (IH (unbox t) l k Hr).
  - apply (IH (sz_tree t) l k). destruct Hr as [[H1 _] H2]. split; auto.
Qed.
Lemma covered_fits {B : Build} {fixed K V cmp O} (T : VebType fixed K V cmp O) : covered (type_laws T) (adm_fits T).
Proof. intros t l k Hr H. apply (safe_fits T t l k Hr). exact H. Qed.

(** *** Conditions that let only insertions pass that fit *)
Section PushAsc.
  Context {K Hi Lo V : Type} {ko : KeyOps K Hi Lo} (KL : KeyLaws ko) (fS : list Hi -> Hi -> bool) (fT : list Lo -> Lo -> bool).
  Context (HS : forall (l : list (Hi * unit)) h, ascending (hi_cmp ko) l -> adm_ascending (hi_cmp ko) l h -> fS (keys l) h = true).
  Context (HT : forall (l : list (Lo * V)) x, ascending (lo_cmp ko) l -> adm_ascending (lo_cmp ko) l x -> fT (keys l) x = true).
  Lemma push_asc (m : list (K * V)) p : ascending (k_cmp ko) m -> adm_ascending (k_cmp ko) m p -> fits_between ko fS fT (keys m) p = true.
  Proof.
    intros Ha Hp. unfold fits_between. destruct (keys m) as [|k0 ks] eqn:Em; auto. rewrite <- Em. clear k0 ks Em.
    destruct (k_split_val ko p) as [h x] eqn:Ep. assert (Ej : p = k_join ko h x) by (rewrite <- (KL_join_split KL p), Ep; auto).
    assert (Hrx : real (ko := ko) h x) by (unfold real; rewrite <- Ej; exact Ep).
    rewrite <- lowsP_keys. destruct (lowsP h m) as [|q e] eqn:El.
    - cbn [keys map]. rewrite <- (map_keys_tt (highs ko (keys m))). apply HS; [apply (highs_asc KL); auto|]. right.
      rewrite map_keys_tt. intros h' Hh. apply (in_highs KL) in Hh. destruct Hh as [y [Hry Hy]].
      assert (Hne : h' <> h).
      { intros ->. apply keys_in in Hy. destruct Hy as [v Hv]. assert (Hv' := proj2 (in_lowsP KL _ _ _ _) (conj Hry Hv)). rewrite El in Hv'. destruct Hv'. }
      destruct Hp as [Hp|Hp].
      + exfalso. rewrite Ej in Hp. apply keys_in in Hp. destruct Hp as [v Hv]. assert (Hv' := proj2 (in_lowsP KL _ _ _ _) (conj Hrx Hv)). rewrite El in Hv'. destruct Hv'.
      + apply Hp in Hy. unfold real in Hry. rewrite (KL_cmp KL), !Hry, Ep in Hy. cbn in Hy. destruct (hi_cmp ko h' h) eqn:E; [|reflexivity|discriminate Hy].
        apply (cmp_eq_eq (KL_hi KL)) in E. contradiction.
    - change (fT (keys (q :: e)) x = true). rewrite <- El. apply HT; [apply (lowsP_asc KL); auto|]. destruct Hp as [Hp|Hp].
      + left. rewrite Ej in Hp. apply keys_in in Hp. destruct Hp as [v Hv]. assert (Hv' := proj2 (in_lowsP KL _ _ _ _) (conj Hrx Hv)). apply in_keys in Hv'. auto.
      + right. intros z Hz. apply keys_in in Hz. destruct Hz as [v Hv]. apply (in_lowsP KL) in Hv. destruct Hv as [Hrv Hv]. apply in_keys in Hv. apply Hp in Hv.
        unfold real in Hrv. rewrite (KL_cmp KL), !Hrv, Ep in Hv. cbn in Hv. rewrite (cmp_refl (KL_hi KL)) in Hv. exact Hv.
  Qed.
  Lemma tree_asc fixed (l : list (K * V)) k : ascending (k_cmp ko) l -> adm_ascending (k_cmp ko) l k -> fits_tree fixed ko fS fT (keys l) k = true.
  Proof.
    intros Ha Hk. assert (OL := KL_k KL). destruct l as [|a l]; [reflexivity|]. destruct (exists_last (l := a :: l)) as [i [b E]]; [discriminate|].
    destruct i as [|a' m]; cbn in E; injection E as -> E; [subst l; reflexivity|]. subst l.
    unfold fits_tree. rewrite ends_keys. apply asc_cons in Ha. destruct Ha as [Ha H1]. apply asc_app in Ha. destruct Ha as [Hm [_ H2]].
    assert (Hb : adm_ascending (k_cmp ko) m (fst b)).
    { right. intros k' Hk'. apply keys_in in Hk'. destruct Hk' as [v Hv]. apply (H2 _ b Hv). left; auto. }
    destruct (k_cmp ko k (fst a')) eqn:E1; auto.
    - exfalso. destruct Hk as [Hk|Hk].
      + apply keys_in in Hk. destruct Hk as [v [->|Hv]]; [cbn in E1; rewrite (cmp_refl OL) in E1; discriminate|].
        apply H1 in Hv. cbn in Hv. elim (lt_asym OL _ _ E1 Hv).
      + elim (lt_asym OL _ _ E1 (Hk (fst a') (or_introl eq_refl))).
    - destruct (k_cmp ko k (fst b)) eqn:E2; auto; [|apply push_asc; auto]. apply push_asc; auto. destruct Hk as [Hk|Hk].
      + left. apply keys_in in Hk. destruct Hk as [v [->|Hv]]; [cbn in E1; rewrite (cmp_refl OL) in E1; discriminate|].
        apply in_app_iff in Hv. destruct Hv as [Hv|[->|[]]]; [apply in_keys in Hv; auto|]. cbn in E2. rewrite (cmp_refl OL) in E2. discriminate.
      + exfalso. assert (H : In (fst b) (keys (a' :: m ++ [b]))) by (apply in_map; right; apply in_app_iff; right; left; auto).
        apply Hk in H. elim (lt_asym OL _ _ E2 H).
  Qed.
End PushAsc.

Section PushAny.
  Context {K Hi Lo V : Type} {ko : KeyOps K Hi Lo} (fS : list Hi -> Hi -> bool) (fT : list Lo -> Lo -> bool).
  Context (HS : forall hs h, fS hs h = true) (HT : forall ls x, fT ls x = true).
  Lemma push_any m p : fits_between ko fS fT m p = true.
  Proof. unfold fits_between. destruct m; auto. destruct (k_split_val ko p) as [h x]. destruct (lows ko h _); auto. Qed.
  Lemma tree_fixed ks k : fits_tree true ko fS fT ks k = true.
  Proof. unfold fits_tree. destruct (ends ks) as [[[mn m] mx]|]; auto. rewrite !push_any. destruct (k_cmp ko k mn), (k_cmp ko k mx); auto. Qed.
  Lemma tree_above fixed (l : list (K * V)) k : adm_above_min (k_cmp ko) l k -> fits_tree fixed ko fS fT (keys l) k = true.
  Proof.
    unfold fits_tree. destruct l as [|a [|b l]]; try reflexivity. cbn [adm_above_min keys map ends]. intros Ha.
    destruct (rev (fst b :: map fst l)) as [|z r]; auto. rewrite !push_any.
    destruct (k_cmp ko k (fst a)); [reflexivity|contradiction|]. destruct (k_cmp ko k z); auto.
  Qed.
End PushAny.

Section Conditions.
  Context {B : Build}.
  Lemma fits_plain {fixed K V cmp O} (T : VebType fixed K V cmp O) ks k : plain T = true -> fits T ks k = true.
  Proof. induction T; cbn; auto; discriminate. Qed.
  Lemma fits_fixed {K V cmp O} (T : VebType true K V cmp O) : forall ks k, fits T ks k = true.
  Proof.
    induction T as [|V|K V cmp OL|K Hi Lo V ko KL S Tr C TS IHS TT IHT CT|K V cmp O T IH|K V cmp O T IH]; intros ks k; try reflexivity; [|apply IH|apply IH].
    apply tree_fixed; auto.
  Qed.
  Lemma fits_shallow {fixed K V cmp O} (T : VebType fixed K V cmp O) (l : list (K * V)) k : shallow T = true -> adm_above_min cmp l k -> fits T (keys l) k = true.
  Proof.
    induction T as [|V|K V cmp OL|K Hi Lo V ko KL S Tr C TS _ TT _ CT|K V cmp O T IH|K V cmp O T IH]; try reflexivity; [|apply IH|apply IH].
    cbn [shallow]. intros Hs Ha. apply andb_prop in Hs. destruct Hs. apply tree_above; auto; intros; apply fits_plain; auto.
  Qed.
  Lemma fits_ascending {fixed K V cmp O} (T : VebType fixed K V cmp O) : forall (l : list (K * V)) k, ascending cmp l -> adm_ascending cmp l k -> fits T (keys l) k = true.
  Proof.
    induction T as [|V|K V cmp OL|K Hi Lo V ko KL S Tr C TS IHS TT IHT CT|K V cmp O T IH|K V cmp O T IH]; intros l k Ha Hk; try reflexivity; auto; [|apply IH; auto|apply IH; auto].
    apply (tree_asc KL (fits TS) (fits TT)); auto.
  Qed.

  Lemma AL_plain {fixed K V cmp O} (T : VebType fixed K V cmp O) : plain T = true -> allowed T adm_any.
  Proof. intros H l k _ _. apply fits_plain. auto. Qed.
  Lemma AL_fixed {fixed K V cmp O} (T : VebType fixed K V cmp O) : fixed = true -> allowed T adm_any.
  Proof. intros -> l k _ _. apply fits_fixed. Qed.
  Lemma AL_shallow {fixed K V cmp O} (T : VebType fixed K V cmp O) : shallow T = true -> allowed T (adm_above_min cmp).
  Proof. intros H l k _ Ha. apply fits_shallow; auto. Qed.
  Lemma AL_ascending {fixed K V cmp O} (T : VebType fixed K V cmp O) : allowed T (adm_ascending cmp).
  Proof. intros l k. apply fits_ascending. Qed.
  Lemma AL_fits {fixed K V cmp O} (T : VebType fixed K V cmp O) : allowed T (adm_fits T).
  Proof. intros l k _ H. exact H. Qed.
  Lemma allowed_covered {fixed K V cmp O} (T : VebType fixed K V cmp O) adm : allowed T adm -> covered (type_laws T) adm.
  Proof. intros Ha t l k Hr H. apply (safe_fits T t l k Hr). apply Ha; auto. apply Hr. Qed.
End Conditions.

Lemma box_misses {K V cmp} (O : VebOps K V) (t : vt (Box_ops O)) l k v t' r : v_insert (Box_ops O) t k v = Ret (t', r) ->
  (forall t1 r1, v_insert O (unbox t) k v = Ret (t1, r1) -> misses cmp O t1 l (sp_insert cmp k v l)) ->
  misses cmp (Box_ops O) t' l (sp_insert cmp k v l).
Proof.
  intros E IH. cbn in E. destruct (v_insert O (unbox t) k v) as [[t1 r1]|] eqn:E1; [|discriminate E]. cbn in E. injection E as <- _.
  destruct (IH t1 r1 eq_refl) as [q [x H]]. exists q, x. exact H.
Qed.
Lemma sized_misses {B : Build} {K V cmp} (O : VebOps K V) (t : vt (Sized_ops O)) l k v t' r : v_insert (Sized_ops O) t k v = Ret (t', r) ->
  (forall t1 r1, v_insert O (sz_tree t) k v = Ret (t1, r1) -> misses cmp O t1 l (sp_insert cmp k v l)) ->
  misses cmp (Sized_ops O) t' l (sp_insert cmp k v l).
Proof.
  intros E IH. cbn in E. unfold sz_insert in E. destruct (v_insert O (sz_tree t) k v) as [[t1 r1]|] eqn:E1; [|discriminate E]. cbn in E.
  destruct (IH t1 r1 eq_refl) as [q [x H]]. exists q, x.
  assert (Et : sz_tree t' = t1). { destruct r1; [injection E as <- _; auto|]. destruct (expect (checked_add (sz_size t) 1)); [|discriminate E]. cbn in E. injection E as <- _. auto. }
  cbn. rewrite Et. exact H.
Qed.
Lemma unfit_wrong {B : Build} {K V cmp O} (T : VebType false K V cmp O) t l k v t' r : repr (type_laws T) t l ->
  (N.of_nat (length (ents (type_laws T) t)) < usize_max)%N -> fits T (keys l) k = false -> v_insert O t k v = Ret (t', r) ->
  misses cmp O t' l (sp_insert cmp k v l).
Proof.
  revert t l k v t' r. induction T as [|V|K V cmp OL|K Hi Lo V ko KL S Tr C TS IHS TT IHT CT|K V cmp O T IH|K V cmp O T IH]; intros t l k v t' r Hr Hlen Hf E.
  1-3: discriminate Hf.
  - apply (tree_wrong false KL (type_laws TS) (type_laws TT) (coll_laws CT) (fits TS) (fits TT)) with t r; auto.
    intros s ls h. apply IHS.
  - apply (box_misses O t l k v t' r); auto. intros t1 r1. apply IH; auto.
  - apply (sized_misses O t l k v t' r); auto. intros t1 r1. apply IH; auto. destruct Hr as [[H1 _] H2]. split; auto.
Qed.

Lemma fits_nil {B : Build} {fixed K V cmp O} (T : VebType fixed K V cmp O) k : fits T [] k = true.
Proof. induction T; try reflexivity; apply IHT. Qed.

(** *** Exactness, for any lawful tree whose insertions are subject to a test that is right *)
Section Exactly.
  Context {B : Build} {K V : Type} {cmp : K -> K -> comparison} (OL : OrdLaws cmp) {O : VebOps K V} (L : VebLaws cmp O) (f : list K -> K -> bool).
  Notation adm_f := (fun (l : list (K * V)) (k : K) => f (keys l) k = true).
  Context (Hsafe : forall t l k, repr L t l -> (safe L t k <-> f (keys l) k = true)).
  Context (Hwrong : forall t l k v t' r, repr L t l -> (N.of_nat (length (ents L t)) < usize_max)%N -> f (keys l) k = false ->
    v_insert O t k v = Ret (t', r) -> misses cmp O t' l (sp_insert cmp k v l)).
  Context (Hnil : forall k, f [] k = true).
  Lemma test_covered : covered L adm_f.
  Proof. intros t l k Hr H. apply (Hsafe t l k Hr). exact H. Qed.
(** one insertion, exactly *)
Lemma test_exact t l k v : reached cmp O adm_f t l -> (N.of_nat (length l) < usize_max)%N ->
  exists t' r, v_insert O t k v = Ret (t', r) /\
    (f (keys l) k = true <-> forall q, v_successor O t' q = Ret (sp_succ cmp q (sp_insert cmp k v l))).
Proof.
  intros H Hlen. assert (Hr := reached_repr OL _ _ t l test_covered H). rewrite <- (repr_len _ t l Hr) in Hlen.
  destruct (L_insert L t k v (proj1 Hr) Hlen) as [t' [r [E _]]]. exists t', r. split; auto. split.
  - intros Hf q. rewrite (repr_len _ t l Hr) in Hlen. destruct (repr_insert OL _ t l k v Hr Hlen (test_covered _ _ _ Hr Hf)) as [t2 [E2 Hr2]].
    rewrite E in E2. injection E2 as <- _. apply (repr_succ OL _ t' _ q Hr2).
  - intros Hq. destruct (f (keys l) k) eqn:Hf; auto. destruct (Hwrong t l k v t' r Hr Hlen Hf E) as [q [x [_ [Hx Hne]]]].
    elim Hne. rewrite Hq, Hx. reflexivity.
Qed.

(** histories, exactly *)
Lemma test_needed cs : forall ot l, reprO L ot l -> admissible cmp adm_any cs l ->
  (forall cs1 cs2 q, cs = cs1 ++ cs2 -> exists ot', run O (cs1 ++ [Succ q]) ot = Ret (ot', snd (sp_run cmp (cs1 ++ [Succ q]) l))) ->
  admissible cmp adm_f cs l.
Proof.
  induction cs as [|c cs IH]; intros ot l Hr Ha Hq; [exact I|]. destruct Ha as [Ha1 Ha2].
  assert (Hc : match c with Insert k _ => f (keys l) k = true /\ (N.of_nat (length l) < usize_max)%N | _ => True end).
  { destruct c; auto. destruct Ha1 as [_ Hlen]. split; auto. destruct (f (keys l) k) eqn:Hf; auto. exfalso.
    destruct ot as [t|]; cbn in Hr.
    - rewrite <- (repr_len _ t l Hr) in Hlen. destruct (L_insert L t k v (proj1 Hr) Hlen) as [t' [r [E _]]].
      destruct (Hwrong t l k v t' r Hr Hlen Hf E) as [q [x [_ [Hx Hne]]]].
      destruct (Hq [Insert k v] cs q eq_refl) as [ot' E']. cbn [app run step] in E'. rewrite E in E'. cbn [bind run step] in E'. unfold query in E'.
      destruct (v_successor O t' q) as [o|] eqn:Eo; [|discriminate E']. cbn [bind sp_run sp_step snd] in E'. rewrite Hx in E'. injection E' as _ _ E'.
      apply Hne. rewrite E'. reflexivity.
    - subst l. cbn in Hf. rewrite Hnil in Hf. discriminate Hf. }
  split; auto. destruct (step_refines OL L adm_f c ot l test_covered Hr Hc) as [ot1 [E1 Hr1]].
  apply (IH ot1); auto. intros cs1 cs2 q ->. destruct (Hq (c :: cs1) cs2 q eq_refl) as [ot' E']. exists ot'.
  cbn [app run sp_run] in E'. rewrite E1 in E'. cbn [bind] in E'. destruct (run O (cs1 ++ [Succ q]) ot1) as [[ot2 os2]|]; [|discriminate E'].
  cbn [bind] in E'. destruct (sp_step cmp c l) as [l1 o]. cbn [fst snd] in *. destruct (sp_run cmp (cs1 ++ [Succ q]) l1) as [l2 os]. cbn [snd] in *.
  injection E' as <- <-. reflexivity.
Qed.
Lemma test_exactly cs : admissible cmp adm_any cs [] ->
  (admissible cmp adm_f cs [] <->
   forall cs1 cs2 q, cs = cs1 ++ cs2 -> exists ot, run O (cs1 ++ [Succ q]) None = Ret (ot, snd (sp_run cmp (cs1 ++ [Succ q]) []))).
Proof.
  intros Ha. split.
  - intros H cs1 cs2 q ->. assert (H1 : admissible cmp adm_f (cs1 ++ [Succ q]) []).
    { apply admissible_app; [|cbn; auto]. clear Ha q. revert H. generalize (@nil (K * V)). induction cs1 as [|c cs1 IH]; intros l; [cbn; auto|].
      intros [H1 H2]. split; auto. }
    destruct (sorted_map OL L test_covered _ H1) as [ot [E _]]. eauto.
  - intros H. apply (test_needed cs None []); auto. reflexivity.
Qed.
End Exactly.
Section OfTypes.
  Context {B : Build} {K V : Type} {cmp : K -> K -> comparison} {O : VebOps K V} (T : VebType false K V cmp O).
  Definition fits_exact := test_exact (type_ord T) (type_laws T) (fits T) (safe_fits T) (unfit_wrong T).
  Definition fits_exactly := test_exactly (type_ord T) (type_laws T) (fits T) (safe_fits T) (unfit_wrong T) (fits_nil T).
  Lemma fits_weakest adm : (forall cs, admissible cmp adm cs [] -> exists ot, run O cs None = Ret (ot, snd (sp_run cmp cs []))) ->
    forall cs, admissible cmp adm cs [] -> admissible cmp (adm_fits T) cs [].
  Proof.
    intros H cs Hcs. apply fits_exactly.
    - revert Hcs. generalize (@nil (K * V)). induction cs as [|c cs IH]; intros l; [auto|]. intros [H1 H2]. split; auto.
      destruct c; auto. split; [exact I|apply H1].
    - intros cs1 cs2 q ->. apply H. apply admissible_app; [|cbn; auto].
      revert Hcs. generalize (@nil (K * V)). induction cs1 as [|c cs1 IH]; intros l; [cbn; auto|]. intros [H1 H2]. split; auto.
  Qed.
End OfTypes.
Lemma fits_conditions {B : Build} {fixed K V cmp O} (T : VebType fixed K V cmp O) (l : list (K * V)) k : ascending cmp l ->
  (plain T = true \/ fixed = true -> fits T (keys l) k = true) /\
  (shallow T = true -> adm_above_min cmp l k -> fits T (keys l) k = true) /\
  (adm_ascending cmp l k -> fits T (keys l) k = true).
Proof.
  intros Ha. split; [|split].
  - intros [H|H]; [apply fits_plain; auto|subst fixed; apply fits_fixed].
  - apply fits_shallow.
  - apply fits_ascending. auto.
Qed.
