(** Proofs about histories that insert only absent keys and take out by key, the defect included. *)
From Verif Require Import Base Lists Ops Spec Laws SizedT WrapProofs Hist Types HistProofs TypesProofs HistCor Fits FitsCor TwinCor BuiltCor Salvage SalvageCor Absent.

Section Absent.
  Context {B : Build} {fixed : bool} {K V : Type} {cmp : K -> K -> comparison} {O : VebOps K V} (T : VebType fixed K V cmp O).
  Let OL : OrdLaws cmp := type_ord T.
  Notation L := (type_laws T).

  (** the tree holds the pairs of the map, wherever it keeps them *)
  Definition holds (ot : option (vt O)) (l : list (K * V)) : Prop :=
    match ot with
    | None => l = []
    | Some t => winv L t /\ Permutation (ents L t) l /\ ascending cmp l
    end.
  Lemma taken_in t p ot : taken (winv L) (ord L) (ents L) t p ot -> In p (ents L t).
  Proof.
    destruct ot as [t'|]; cbn; [intros [_ [H _]]; apply (Permutation_in _ (Permutation_sym H)); left; reflexivity|]. intros ->. left. reflexivity.
  Qed.
  Lemma holds_insert t l k v : holds (Some t) l -> ~ In k (keys l) -> (N.of_nat (length l) < usize_max)%N ->
    exists t', v_insert O t k v = Ret (t', None) /\ holds (Some t') (sp_insert cmp k v l).
  Proof.
    intros [Hw [HP Ha]] Hk Hl. rewrite <- (Permutation_length HP) in Hl. destruct (L_insert L t k v Hw Hl) as [t' [r [E [Hw' [HP' [Hr _]]]]]].
    assert (Hn := asc_nodup OL l Ha). assert (HK := keys_perm _ _ HP).
    assert (r = None). { apply Hr; [apply (Permutation_NoDup (Permutation_sym HK)); exact Hn|]. intros H. apply Hk. apply (Permutation_in _ HK). exact H. }
    subst r. exists t'. split; [exact E|]. split; [exact Hw'|]. split; [|apply (sp_insert_asc OL); exact Ha].
    rewrite HP', HP. symmetry. apply (sp_insert_perm_new OL). exact Hk.
  Qed.
  Lemma holds_remove t l k : holds (Some t) l ->
    (exists ot p, v_remove O t k = Ret (Ok (ot, p)) /\ sp_find cmp k l = Some p /\ fst p = k /\ holds ot (sp_remove cmp k l)) \/
    (v_remove O t k = Ret (Err t) /\ sp_find cmp k l = None /\ sp_remove cmp k l = l).
  Proof.
    intros [Hw [HP Ha]]. assert (Hn := asc_nodup OL l Ha). destruct (L_remove L t k Hw) as [[ot [p [E [Hk Ht]]]]|[E Hk]].
    - left. exists ot, p. split; [exact E|].
      assert (Hin : In p l) by (apply (Permutation_in _ HP); apply taken_in in Ht; exact Ht). destruct p as [k' v]. cbn in Hk. subst k'.
      split; [apply (sp_find_some OL); auto|]. split; [reflexivity|]. destruct ot as [t'|]; cbn in Ht |- *.
      + destruct Ht as [Hw' [HP' _]]. split; [exact Hw'|]. split; [|apply (sp_remove_asc OL); exact Ha]. symmetry.
        apply (sp_remove_perm OL (k, v) l (ents L t') Hn). rewrite <- HP. exact HP'.
      + rewrite Ht in HP. apply Permutation_length_1_inv in HP. subst l. apply Permutation_nil. symmetry.
        apply (sp_remove_perm OL (k, v) [(k, v)] [] Hn). reflexivity.
    - right. assert (Hk' : ~ In k (keys l)). { intros H. apply Hk. apply (Permutation_in _ (Permutation_sym (keys_perm _ _ HP))). exact H. }
      split; [exact E|]. split; [apply (sp_find_none OL); exact Hk'|apply (sp_remove_fresh OL); auto].
  Qed.
  Lemma holds_step c ot l : puts_or_takes c = true -> holds ot l ->
    match c with Insert k _ => adm_absent l k /\ (N.of_nat (length l) < usize_max)%N | _ => True end ->
    exists ot' o, step O c ot = Ret (ot', o) /\ holds ot' (fst (sp_step cmp c l)) /\ (settled c = true -> o = snd (sp_step cmp c l)).
  Proof.
    intros Hc Hh Ha. destruct ot as [t|].
    - pose proof Hh as [Hw [HP Hasc]]. destruct c; try discriminate Hc; cbn [step].
      + destruct Ha as [Ha Hl]. destruct (holds_insert t l k v Hh Ha Hl) as [t' [E Hh']]. rewrite E. cbn [bind]. eexists _, _. split; [reflexivity|].
        split; [exact Hh'|]. intros _. cbn. f_equal. symmetry. apply (sp_find_none OL). exact Ha.
      + destruct (holds_remove t l k Hh) as [[ot [p [E [Hf [_ Hh']]]]]|[E [Hf Hl]]]; rewrite E; cbn [bind].
        * eexists _, _. split; [reflexivity|]. split; [exact Hh'|]. intros _. cbn. rewrite Hf. reflexivity.
        * eexists _, _. split; [reflexivity|]. cbn [sp_step fst snd]. rewrite Hl, Hf. auto.
      + destruct (L_into_monad L t Hw) as [[p [E He]]|[E He]]; rewrite E; cbn [bind].
        * rewrite He in HP. apply Permutation_length_1_inv in HP. subst l. eexists _, _. split; [reflexivity|]. cbn. auto.
        * rewrite (Permutation_length HP) in He. eexists _, _. split; [reflexivity|]. destruct l as [|p [|q l]]; [|cbn in He; lia|]; cbn [sp_step fst snd]; auto.
      + rewrite (L_is_monad L t Hw), (Permutation_length HP). cbn [bind]. eexists _, _. split; [reflexivity|]. cbn [sp_step fst snd]. auto.
      + destruct (L_min L t Hw) as [p [E _]]. unfold query1. rewrite E. cbn [bind]. eexists _, _. split; [reflexivity|]. cbn [sp_step fst]. split; [exact Hh|discriminate].
      + destruct (L_max L t Hw) as [p [E _]]. unfold query1. rewrite E. cbn [bind]. eexists _, _. split; [reflexivity|]. cbn [sp_step fst]. split; [exact Hh|discriminate].
      + destruct (L_find L t k Hw) as [p [E _]]. unfold query. rewrite E. cbn [bind]. eexists _, _. split; [reflexivity|]. cbn [sp_step fst]. split; [exact Hh|discriminate].
      + destruct (L_pred L t k Hw) as [p [E _]]. unfold query. rewrite E. cbn [bind]. eexists _, _. split; [reflexivity|]. cbn [sp_step fst]. split; [exact Hh|discriminate].
      + destruct (L_succ L t k Hw) as [p [E _]]. unfold query. rewrite E. cbn [bind]. eexists _, _. split; [reflexivity|]. cbn [sp_step fst]. split; [exact Hh|discriminate].
    - cbn in Hh. subst l. destruct c; try discriminate Hc; cbn [step]; (eexists _, _; split; [reflexivity|]).
      all: try solve [cbn; split; [reflexivity|intros; first [reflexivity|discriminate]]].
      destruct (L_from_monad L k v) as [M1 [_ M3]]. split; [|reflexivity]. cbn [holds]. split; [exact M1|]. rewrite M3. split; [reflexivity|].
      apply (sp_insert_asc OL), asc_nil.
  Qed.
  Lemma holds_run cs : forall ot l, forallb puts_or_takes cs = true -> holds ot l -> admissible cmp adm_absent cs l ->
    exists ot' os, run O cs ot = Ret (ot', os) /\ holds ot' (fst (sp_run cmp cs l)) /\
      forall i c, nth_error cs i = Some c -> settled c = true -> nth_error os i = nth_error (snd (sp_run cmp cs l)) i.
  Proof.
    induction cs as [|c cs IH]; intros ot l Hc Hh Ha; cbn [run sp_run].
    - exists ot, []. split; [reflexivity|]. split; [exact Hh|]. intros i c H. destruct i; discriminate H.
    - cbn in Hc. apply andb_prop in Hc. destruct Hc as [H1 H2]. destruct Ha as [Ha1 Ha2]. destruct (holds_step c ot l H1 Hh Ha1) as [ot1 [o [E1 [Hh1 Hs]]]].
      rewrite E1. cbn [bind]. destruct (IH ot1 _ H2 Hh1 Ha2) as [ot2 [os [E2 [Hh2 Hs2]]]]. rewrite E2. cbn [bind].
      exists ot2, (o :: os). split; [reflexivity|]. rewrite (surjective_pairing (sp_step cmp c l)), (surjective_pairing (sp_run cmp cs (fst (sp_step cmp c l)))).
      cbn [fst snd]. split; [exact Hh2|]. intros [|i] c' Hc Hs'; cbn [nth_error] in *; [injection Hc as ->; rewrite (Hs Hs'); reflexivity|]. eapply Hs2; eauto.
  Qed.
  (** what is drained is the map, in some order, from either end *)
  Lemma holds_drain ot l n : holds ot l -> length l <= n ->
    (exists d, drain (v_remove_min O) n ot = Ret (None, d) /\ Permutation d l) /\ (exists d, drain (v_remove_max O) n ot = Ret (None, d) /\ Permutation d l).
  Proof.
    intros Hh Hn. assert (Hw : weakO L ot l).
    { destruct ot as [t|]; [|exact Hh]. destruct Hh as [H1 [H2 _]]. split; [exact H1|symmetry; exact H2]. }
    split; apply (drain_weak L); auto.
    - intros t H. destruct (L_remove_min L t H) as [ot' [p [E [_ Ht]]]]. eauto.
    - intros t H. destruct (L_remove_max L t H) as [ot' [p [E [_ Ht]]]]. eauto.
  Qed.
  Lemma collect_perm (d l : list (K * V)) : ascending cmp l -> Permutation d l -> collect cmp d = l.
  Proof.
    intros Ha HP. apply (asc_perm_eq OL); [apply (collect_asc OL)|exact Ha|]. rewrite <- HP.
    assert (Hn : NoDup (keys d)) by (apply (Permutation_NoDup (Permutation_sym (keys_perm _ _ HP))); apply (asc_nodup OL); exact Ha). clear l Ha HP.
    assert (G : forall l, NoDup (keys (l ++ d)) -> Permutation (fold_left (fun l p => sp_insert cmp (fst p) (snd p) l) d l) (l ++ d)).
    { clear Hn. induction d as [|p d IH]; intros l Hn; cbn [fold_left]; [rewrite app_nil_r; reflexivity|].
      assert (Hp : ~ In (fst p) (keys l)).
      { unfold keys in Hn. rewrite map_app in Hn. cbn [map] in Hn. apply NoDup_remove_2 in Hn. intros H. apply Hn. apply in_app_iff. left. exact H. }
      assert (H1 : Permutation (sp_insert cmp (fst p) (snd p) l) (p :: l)) by (destruct p; apply (sp_insert_perm_new OL); exact Hp).
      rewrite IH.
      - rewrite H1. cbn [app]. apply Permutation_middle.
      - apply (Permutation_NoDup (l := keys (l ++ p :: d))); [|exact Hn]. apply keys_perm. rewrite H1. cbn [app]. symmetry. apply Permutation_middle. }
    unfold collect. rewrite (G []); [reflexivity|exact Hn].
  Qed.
  (** *** the dictionary *)
  (** taking out and putting in again is inserting, and writing *)
  Lemma taken_out k v (l : list (K * V)) : In (k, v) l -> exists rest, Permutation l ((k, v) :: rest).
  Proof. intros H. apply in_split in H. destruct H as [l1 [l2 ->]]. exists (l1 ++ l2). symmetry. apply Permutation_middle. Qed.
  Lemma removed_key k (l : list (K * V)) : ascending cmp l -> ~ In k (keys (sp_remove cmp k l)).
  Proof.
    intros Ha H. assert (Hn := asc_nodup OL l Ha). destruct (in_dec (Lists.key_dec OL) k (keys l)) as [Hk|Hk].
    - destruct (keys_in _ _ Hk) as [v Hv]. destruct (taken_out k v l Hv) as [rest HP]. assert (H1 := sp_remove_perm OL (k, v) l rest Hn HP). cbn [fst] in H1.
      apply (Permutation_in _ (keys_perm _ _ H1)) in H. apply (Permutation_NoDup (keys_perm _ _ HP)) in Hn. inversion Hn; contradiction.
    - rewrite (sp_remove_fresh OL) in H by auto. contradiction.
  Qed.
  Lemma reinsert k v (l : list (K * V)) : ascending cmp l -> sp_insert cmp k v (sp_remove cmp k l) = sp_insert cmp k v l.
  Proof.
    intros Ha. assert (Hn := asc_nodup OL l Ha). destruct (in_dec (Lists.key_dec OL) k (keys l)) as [Hk|Hk].
    - destruct (keys_in _ _ Hk) as [v' Hv]. destruct (taken_out k v' l Hv) as [rest HP].
      apply (asc_perm_eq OL); [apply (sp_insert_asc OL), (sp_remove_asc OL), Ha|apply (sp_insert_asc OL), Ha|].
      rewrite (sp_insert_perm_new OL) by (apply removed_key; exact Ha). rewrite (sp_remove_perm OL (k, v') l rest Hn HP).
      rewrite (sp_insert_perm_old OL (k, v') v l rest Hn HP). reflexivity.
    - rewrite (sp_remove_fresh OL) by auto. reflexivity.
  Qed.
  Lemma rewrite_key k w v (l : list (K * V)) : ascending cmp l -> sp_find cmp k l = Some (k, v) -> sp_write cmp k w l = sp_insert cmp k w l.
  Proof.
    intros Ha Hf. assert (Hn := asc_nodup OL l Ha). apply (sp_find_in OL) in Hf. destruct Hf as [Hv _]. destruct (taken_out k v l Hv) as [rest HP].
    apply (asc_perm_eq OL); [apply sp_write_asc, Ha|apply (sp_insert_asc OL), Ha|].
    rewrite (sp_write_perm OL (k, v) w l rest Hn HP), (sp_insert_perm_old OL (k, v) w l rest Hn HP). reflexivity.
  Qed.
  Lemma same_key k v (l : list (K * V)) : ascending cmp l -> sp_find cmp k l = Some (k, v) -> sp_insert cmp k v l = l.
  Proof.
    intros Ha Hf. assert (Hn := asc_nodup OL l Ha). apply (sp_find_in OL) in Hf. destruct Hf as [Hv _]. destruct (taken_out k v l Hv) as [rest HP].
    apply (asc_perm_eq OL); [apply (sp_insert_asc OL), Ha|exact Ha|]. rewrite (sp_insert_perm_old OL (k, v) v l rest Hn HP), HP. reflexivity.
  Qed.
  Lemma shorter k (l : list (K * V)) : ascending cmp l -> length (sp_remove cmp k l) <= length l.
  Proof.
    intros Ha. assert (Hn := asc_nodup OL l Ha). destruct (in_dec (Lists.key_dec OL) k (keys l)) as [Hk|Hk].
    - destruct (keys_in _ _ Hk) as [v Hv]. destruct (taken_out k v l Hv) as [rest HP].
      assert (H := Permutation_length (sp_remove_perm OL (k, v) l rest Hn HP)). apply Permutation_length in HP. cbn in H, HP. lia.
    - rewrite (sp_remove_fresh OL) by auto. lia.
  Qed.
  Lemma shorter_found k p (l : list (K * V)) : ascending cmp l -> sp_find cmp k l = Some p -> length (sp_remove cmp k l) < length l.
  Proof.
    intros Ha Hf. assert (Hn := asc_nodup OL l Ha). apply (sp_find_in OL) in Hf. destruct Hf as [Hv <-]. destruct p as [k v]. destruct (taken_out k v l Hv) as [rest HP].
    cbn [fst]. assert (H := Permutation_length (sp_remove_perm OL (k, v) l rest Hn HP)). apply Permutation_length in HP. cbn in H, HP. lia.
  Qed.
  Lemma put_holds ot l k v : holds ot l -> ~ In k (keys l) -> (N.of_nat (length l) < usize_max)%N ->
    exists ot', put O ot k v = Ret ot' /\ holds ot' (sp_insert cmp k v l).
  Proof.
    intros Hh Hk Hl. destruct ot as [t|]; cbn [put].
    - destruct (holds_insert t l k v Hh Hk Hl) as [t' [E Hh']]. rewrite E. cbn [bind]. eauto.
    - cbn in Hh. subst l. eexists. split; [reflexivity|]. destruct (L_from_monad L k v) as [M1 [_ M3]]. cbn [holds]. split; [exact M1|]. rewrite M3.
      split; [reflexivity|]. apply (sp_insert_asc OL), asc_nil.
  Qed.
  Lemma take_holds ot l k : holds ot l -> exists ot', take O ot k = Ret (ot', sp_find cmp k l) /\ holds ot' (sp_remove cmp k l).
  Proof.
    intros Hh. destruct ot as [t|]; cbn [take].
    - destruct (holds_remove t l k Hh) as [[ot [p [E [Hf [_ Hh']]]]]|[E [Hf Hl]]]; rewrite E; cbn [bind]; rewrite Hf; [eauto|]. rewrite Hl. eauto.
    - cbn in Hh. subst l. eexists. split; reflexivity.
  Qed.
  Lemma holds_asc ot l : holds ot l -> ascending cmp l.
  Proof. destruct ot as [t|]; cbn; [intros [_ [_ H]]; exact H|]. intros ->. apply asc_nil. Qed.
  Lemma unfound k (l : list (K * V)) : sp_find cmp k l = None -> ~ In k (keys l).
  Proof. intros Hf H. destruct (keys_in _ _ H) as [v Hv]. apply (find_none _ _ Hf) in Hv. cbn in Hv. rewrite (eqb_refl OL) in Hv. discriminate Hv. Qed.
  Definition roomy (c : op K V) (l : list (K * V)) : Prop :=
    (N.of_nat (length l) <= usize_max)%N /\ match c with Insert _ _ => (N.of_nat (length l) < usize_max)%N | _ => True end.
  Lemma dict_holds c ot l : by_key c = true -> holds ot l -> roomy c l ->
    exists ot', dict_step O c ot = Ret (ot', snd (sp_step cmp c l)) /\ holds ot' (fst (sp_step cmp c l)).
  Proof.
    intros Hc Hh [Hl Hi]. assert (Ha := holds_asc ot l Hh).
    assert (Hput : forall ot1 k v, (N.of_nat (length (sp_remove cmp k l)) < usize_max)%N -> holds ot1 (sp_remove cmp k l) ->
      exists ot2, put O ot1 k v = Ret ot2 /\ holds ot2 (sp_insert cmp k v l)).
    { intros ot1 k v Hk H1. rewrite <- (reinsert k v l Ha). apply put_holds; [exact H1|apply removed_key; exact Ha|exact Hk]. }
    assert (Hfound : forall k p, sp_find cmp k l = Some p -> (N.of_nat (length (sp_remove cmp k l)) < usize_max)%N).
    { intros k p Hp. apply (shorter_found k p l Ha) in Hp. lia. }
    destruct c; try discriminate Hc; cbn [dict_step sp_step fst snd].
    - destruct (take_holds ot l k Hh) as [ot1 [E1 H1]]. rewrite E1. cbn [bind]. assert (Hs := shorter k l Ha).
      destruct (Hput ot1 k v) as [ot2 [E2 H2]]; [lia|exact H1|]. rewrite E2. cbn [bind]. eauto.
    - destruct (take_holds ot l k Hh) as [ot1 [E1 H1]]. rewrite E1. cbn [bind]. eauto.
    - destruct (holds_step IntoMonad ot l eq_refl Hh I) as [ot1 [o [E1 [H1 Ho]]]]. rewrite (Ho eq_refl) in E1. eauto.
    - destruct (holds_step IsMonad ot l eq_refl Hh I) as [ot1 [o [E1 [H1 Ho]]]]. rewrite (Ho eq_refl) in E1. eauto.
    - destruct (take_holds ot l k Hh) as [ot1 [E1 H1]]. rewrite E1. cbn [bind]. destruct (sp_find cmp k l) as [[k' v]|] eqn:Ef.
      + pose proof (sp_find_in OL _ _ _ Ef) as [_ Hk]. cbn in Hk. subst k'. destruct (Hput ot1 k v (Hfound _ _ Ef) H1) as [ot2 [E2 H2]]. cbn [fst snd]. rewrite E2. cbn [bind].
        rewrite (same_key k v l Ha Ef) in H2. eauto.
      + eexists. split; [reflexivity|]. rewrite (sp_remove_fresh OL) in H1; auto. apply (unfound k l Ef).
    - destruct (take_holds ot l k Hh) as [ot1 [E1 H1]]. rewrite E1. cbn [bind]. unfold sp_mut. destruct (sp_find cmp k l) as [[k' v]|] eqn:Ef; cbn [fst snd].
      + pose proof (sp_find_in OL _ _ _ Ef) as [_ Hk]. cbn in Hk. subst k'. destruct (Hput ot1 k w (Hfound _ _ Ef) H1) as [ot2 [E2 H2]]. rewrite E2. cbn [bind].
        rewrite (rewrite_key k w v l Ha Ef). eauto.
      + eexists. split; [reflexivity|]. rewrite (sp_remove_fresh OL) in H1; auto. apply (unfound k l Ef).
  Qed.
  Lemma inserted_length k v (l : list (K * V)) : ascending cmp l -> length (sp_insert cmp k v l) <= S (length l).
  Proof.
    intros Ha. rewrite <- (reinsert k v l Ha), (Permutation_length (sp_insert_perm_new OL k v _ (removed_key k l Ha))). cbn. assert (H := shorter k l Ha). lia.
  Qed.
  Lemma dict_length c l : by_key c = true -> ascending cmp l -> roomy c l -> (N.of_nat (length (fst (sp_step cmp c l))) <= usize_max)%N.
  Proof.
    intros Hc Ha [Hl Hi]. destruct c; try discriminate Hc; cbn [sp_step fst].
    - assert (H := inserted_length k v l Ha). lia.
    - assert (H := shorter k l Ha). lia.
    - destruct l as [|p [|q l]]; cbn [fst length] in *; lia.
    - exact Hl.
    - exact Hl.
    - unfold sp_mut. cbn [fst]. destruct (sp_find cmp k l) as [p|]; [|exact Hl]. unfold sp_write. rewrite map_length. exact Hl.
  Qed.
  Lemma dict_ok cs : forall ot l, forallb by_key cs = true -> holds ot l -> (N.of_nat (length l) <= usize_max)%N ->
    admissible cmp (fun _ _ => True) cs l -> exists ot', dict_run O cs ot = Ret (ot', snd (sp_run cmp cs l)) /\ holds ot' (fst (sp_run cmp cs l)).
  Proof.
    induction cs as [|c cs IH]; intros ot l Hc Hh Hl Ha; cbn [dict_run sp_run]; [eauto|].
    cbn in Hc. apply andb_prop in Hc. destruct Hc as [H1 H2]. destruct Ha as [Ha1 Ha2].
    assert (Hr : roomy c l) by (split; [exact Hl|destruct c; tauto]).
    destruct (dict_holds c ot l H1 Hh Hr) as [ot1 [E1 Hh1]]. rewrite E1. cbn [bind].
    destruct (IH ot1 _ H2 Hh1 (dict_length c l H1 (holds_asc ot l Hh) Hr) Ha2) as [ot2 [E2 Hh2]]. rewrite E2. cbn [bind].
    rewrite (surjective_pairing (sp_step cmp c l)), (surjective_pairing (sp_run cmp cs (fst (sp_step cmp c l)))). cbn [fst snd]. eauto.
  Qed.
  Lemma run_holds cs : forallb puts_or_takes cs = true -> admissible cmp adm_absent cs [] ->
    exists ot os, run O cs None = Ret (ot, os) /\ holds ot (fst (sp_run cmp cs [])).
  Proof. intros H1 H2. destruct (holds_run cs None [] H1 eq_refl H2) as [ot [os [E [Hh _]]]]. eauto. Qed.

  (** *** the theorems *)
  Lemma absent_exact cs n : forallb puts_or_takes cs = true -> admissible cmp adm_absent cs [] -> length (fst (sp_run cmp cs [])) <= n ->
    exists ot os, run O cs None = Ret (ot, os) /\
      (forall i c, nth_error cs i = Some c -> settled c = true -> nth_error os i = nth_error (snd (sp_run cmp cs [])) i) /\
      (exists d, drain (v_remove_min O) n ot = Ret (None, d) /\ Permutation d (fst (sp_run cmp cs []))) /\
      (exists d, drain (v_remove_max O) n ot = Ret (None, d) /\ Permutation d (fst (sp_run cmp cs []))).
  Proof.
    intros H1 H2 Hn. destruct (holds_run cs None [] H1 eq_refl H2) as [ot [os [E [Hh Hs]]]]. exists ot, os. split; [exact E|]. split; [exact Hs|].
    apply (holds_drain ot _ n Hh Hn).
  Qed.
  Lemma holds_salvage ot l n adm cs2 : holds ot l -> length l <= n -> allowed T adm -> admissible cmp adm cs2 l -> (N.of_nat (length l) <= usize_max)%N ->
    exists ot' ot2, salvage cmp O n ot = Ret ot' /\ run O cs2 ot' = Ret (ot2, snd (sp_run cmp cs2 l)).
  Proof.
    intros Hh Hn Hal Hadm Hl. destruct (holds_drain ot l n Hh Hn) as [[d [Ed HP]] _]. assert (Ha := holds_asc ot l Hh). assert (Hc := collect_perm d l Ha HP).
    destruct (ascending_insertions OL l []) as [A1 A2]; [exact Ha|cbn; exact Hl|]. cbn [app] in A2.
    destruct (run_refines OL L _ _ (allowed_covered T _ (AL_ascending T)) None [] eq_refl A1) as [ot' [E' Hr']]. rewrite A2 in Hr'.
    destruct (run_refines OL L adm cs2 (allowed_covered T adm Hal) ot' _ Hr' Hadm) as [ot2 [E2 _]].
    exists ot', ot2. split; [|exact E2]. unfold salvage. rewrite Ed. cbn [bind]. rewrite Hc.
    change (map (fun p => Insert (fst p) (snd p)) l) with (insertions_of l). rewrite E'. reflexivity.
  Qed.
  Lemma absent_length (cs : list (op K V)) : forall l, forallb puts_or_takes cs = true -> ascending cmp l -> (N.of_nat (length l) <= usize_max)%N -> admissible cmp adm_absent cs l ->
    (N.of_nat (length (fst (sp_run cmp cs l))) <= usize_max)%N.
  Proof.
    induction cs as [|c cs IH]; intros l Hc Ha Hl Hadm; cbn [sp_run]; [exact Hl|]. cbn in Hc. apply andb_prop in Hc. destruct Hc as [H1 H2]. destruct Hadm as [A1 A2].
    rewrite (surjective_pairing (sp_step cmp c l)), (surjective_pairing (sp_run cmp cs (fst (sp_step cmp c l)))). cbn [fst].
    apply IH; [exact H2| | |exact A2]; destruct c; try discriminate H1; cbn [sp_step fst]; auto.
    - apply (sp_insert_asc OL); exact Ha.
    - apply (sp_remove_asc OL); exact Ha.
    - destruct l as [|p [|q l]]; auto. apply asc_nil.
    - assert (H := inserted_length k v l Ha). lia.
    - assert (H := shorter k l Ha). lia.
    - destruct l as [|p [|q l]]; cbn [fst length] in *; lia.
  Qed.
  Lemma absent_salvage cs n adm cs2 : forallb puts_or_takes cs = true -> admissible cmp adm_absent cs [] -> length (fst (sp_run cmp cs [])) <= n ->
    allowed T adm -> admissible cmp adm cs2 (fst (sp_run cmp cs [])) ->
    exists ot os ot' ot2, run O cs None = Ret (ot, os) /\ salvage cmp O n ot = Ret ot' /\
      run O cs2 ot' = Ret (ot2, snd (sp_run cmp cs2 (fst (sp_run cmp cs [])))).
  Proof.
    intros H1 H2 Hn Hal Hadm. destruct (run_holds cs H1 H2) as [ot [os [E Hh]]].
    destruct (holds_salvage ot _ n adm cs2 Hh Hn Hal Hadm) as [ot' [ot2 [E1 E2]]]; [apply absent_length; auto; [apply asc_nil|cbn; lia]|].
    exists ot, os, ot', ot2. auto.
  Qed.
  Lemma dictionary cs n : forallb by_key cs = true -> admissible cmp (fun _ _ => True) cs [] -> length (fst (sp_run cmp cs [])) <= n ->
    exists ot, dict_run O cs None = Ret (ot, snd (sp_run cmp cs [])) /\ exists d, drain (v_remove_min O) n ot = Ret (None, d) /\ collect cmp d = fst (sp_run cmp cs []).
  Proof.
    intros H1 H2 Hn. destruct (dict_ok cs None [] H1 eq_refl) as [ot [E Hh]]; [cbn; lia|exact H2|]. exists ot. split; [exact E|].
    destruct (holds_drain ot _ n Hh Hn) as [[d [Ed HP]] _]. exists d. split; [exact Ed|]. apply collect_perm; [exact (holds_asc ot _ Hh)|exact HP].
  Qed.
End Absent.

Section Sized.
  Context {B : Build} {fixed : bool} {K V : Type} {cmp : K -> K -> comparison} {O : VebOps K V} (T : VebType fixed K V cmp O).
  Lemma absent_len cs : forallb puts_or_takes cs = true -> admissible cmp adm_absent cs [] ->
    exists ot os, run (Sized_ops O) cs None = Ret (ot, os) /\
      match ot with None => fst (sp_run cmp cs []) = [] | Some t => sz_len t = N.of_nat (length (fst (sp_run cmp cs []))) end.
  Proof.
    intros H1 H2. destruct (run_holds (VT_Sized _ _ _ _ _ T) cs H1 H2) as [ot [os [E Hh]]]. exists ot, os. split; [exact E|].
    destruct ot as [t|]; [|exact Hh]. destruct Hh as [[_ Hs] [HP _]]. rewrite <- (Permutation_length HP). exact Hs.
  Qed.
End Sized.
