(** [Tree] over parts that simulate up to a relation between keys does so too. *)
From Verif Require Import Base Spec Ops Tree Hist Sim KSim.

(** two key types whose comparisons and splits agree up to relations between the keys and between their halves *)
Record KeyRel {K K' Hi Hi' Lo Lo'} (RK : K -> K' -> Prop) (RH : Hi -> Hi' -> Prop) (RL : Lo -> Lo' -> Prop)
  (ko : KeyOps K Hi Lo) (ko' : KeyOps K' Hi' Lo') : Prop := {
  kr_cmp : forall a a' b b', RK a a' -> RK b b' -> k_cmp ko a b = k_cmp ko' a' b';
  kr_val : forall k k', RK k k' -> rprod RH RL (k_split_val ko k) (k_split_val ko' k');
  kr_ref : forall k k', RK k k' -> rprod RH RL (k_split_ref ko k) (k_split_ref ko' k');
  kr_join : forall h h' l l', RH h h' -> RL l l' -> RK (k_join ko h l) (k_join ko' h' l')
}.
Arguments kr_cmp {K K' Hi Hi' Lo Lo' RK RH RL ko ko'}.
Arguments kr_val {K K' Hi Hi' Lo Lo' RK RH RL ko ko'}.
Arguments kr_ref {K K' Hi Hi' Lo Lo' RK RH RL ko ko'}.
Arguments kr_join {K K' Hi Hi' Lo Lo' RK RH RL ko ko'}.

Section KTreeSim.
  Context {Bd : Build}.
  Context (fixed : bool) {K K' Hi Hi' Lo Lo' V : Type} {RK : K -> K' -> Prop} {RH : Hi -> Hi' -> Prop} {RL : Lo -> Lo' -> Prop}
    {ko : KeyOps K Hi Lo} {ko' : KeyOps K' Hi' Lo'} (X : KeyRel RK RH RL ko ko').
  Context {S : VebOps Hi unit} {S' : VebOps Hi' unit} {Tr : VebOps Lo V} {Tr' : VebOps Lo' V} {C : CollOps Hi Lo V Tr}
    {C' : CollOps Hi' Lo' V Tr'}.
  Context {RS : vt S -> vt S' -> Prop} {RT : vt Tr -> vt Tr' -> Prop} {RC : ct C -> ct C' -> Prop}.
  Context (XS : KSim RH S S' RS) (XT : KSim RL Tr Tr' RT) (XC : KCSim RH RL RT C C' RC).
  Notation O := (Tree_ops fixed ko S Tr C).
  Notation O' := (Tree_ops fixed ko' S' Tr' C').

  Definition kdata_rel (d : TreeData S Tr C) (d' : TreeData S' Tr' C') : Prop :=
    kp (V := V) RK (d_max d) (d_max d') /\ ropt (rprod RS RC) (d_children d) (d_children d').
  Definition ktree_rel (t : vt O) (t' : vt O') : Prop :=
    kp RK (t_min t) (t_min t') /\ ropt kdata_rel (t_data t) (t_data t').

  Lemma kpair h h' l l' (v v' : V) : RH h h' -> RL l l' -> v = v' -> kp RK (k_join ko h l, v) (k_join ko' h' l', v').
  Proof. intros. split; [apply (kr_join X); auto|auto]. Qed.

  Lemma kchild_end c c' h h' ext ext' : RC c c' -> RH h h' -> (forall t t', RT t t' -> both (kp RL) (ext t) (ext' t')) ->
    both (ropt (kp RK)) (child_end ko Tr C c h ext) (child_end ko' Tr' C' c' h' ext').
  Proof.
    intros H Hh He. eapply both_bind; [apply (qc_get XC); eassumption|]. intros o o' Ho. eapply both_bind; [apply both_expect, Ho|].
    intros t t' Ht. eapply both_bind; [apply He, Ht|]. intros [lo v] [lo' v'] [E Hp]. apply both_ret. cbn. apply kpair; auto.
  Qed.
  Lemma kput_child mn mn' mx mx' ch ch' s s' put put' putv putv' : kp RK mn mn' -> kp RK mx mx' -> RS s s' ->
    rfun RT RC put put' -> (forall v : V, RT (putv v) (putv' v)) ->
    forall v, ktree_rel (put_child S Tr C (TR mn (Some (TD mx ch))) (TD mx ch) s put putv v)
                        (put_child S' Tr' C' (TR mn' (Some (TD mx' ch'))) (TD mx' ch') s' put' putv' v).
  Proof. intros H1 H2 H3 H4 H5 w. split; [exact H1|]. cbn. split; [exact H2|]. cbn. split; [exact H3|]. apply H4, H5. Qed.
  Lemma kchild_end_mut mn mn' mx mx' s s' c c' ch ch' h h' ext ext' : kp RK mn mn' -> kp RK mx mx' -> RS s s' -> RC c c' -> RH h h' ->
    (forall t t', RT t t' -> both (klens RL Tr Tr' RT) (ext t) (ext' t')) ->
    both (ropt (klens RK O O' ktree_rel)) (child_end_mut ko S Tr C (TR mn (Some (TD mx ch))) (TD mx ch) s c h ext)
         (child_end_mut ko' S' Tr' C' (TR mn' (Some (TD mx' ch'))) (TD mx' ch') s' c' h' ext').
  Proof.
    intros Hm Hx Hs H Hh He. eapply both_bind; [apply (qc_get_mut XC); eassumption|]. intros o o' Ho. eapply both_bind; [apply both_expect, Ho|].
    intros t t' Ht. destruct t as [t put], t' as [t' put'], Ht as [Ht Hp]. eapply both_bind; [apply He, Ht|].
    intros [[lo v] putv] [[lo' v'] putv'] [[Hp1 Hp2] Hp3]. apply both_ret.
    split; [apply kpair; auto|]. cbn in Hp3. apply kput_child; auto.
  Qed.
  Lemma kpush mn mn' mx mx' ch ch' k k' v v' : kp RK mn mn' -> kp RK mx mx' -> ropt (rprod RS RC) ch ch' -> RK k k' -> v = v' ->
    both (rprod ktree_rel (ropt (kp RK))) (tr_push ko S Tr C mn mx ch k v) (tr_push ko' S' Tr' C' mn' mx' ch' k' v').
  Proof.
    intros Hm Hx Hc Hk <-. unfold tr_push. pose proof (kr_val X k k' Hk) as Hsp.
    destruct (k_split_val ko k) as [h l], (k_split_val ko' k') as [h' l'], Hsp as [Hh Hl]. cbn in Hh, Hl.
    destruct ch as [[s c]|], ch' as [[s' c']|]; cbn in Hc; try contradiction.
    - destruct Hc as [Hs Hc]. cbn in Hs, Hc. eapply both_bind; [apply (qc_insert XC); [exact Hc|exact Hh|split; [exact Hl|reflexivity]]|].
      intros [c1 r] [c1' r'] [H1 H2]. cbn in H1, H2. destruct r as [h1|[h1 o]], r' as [h1'|[h1' o']]; cbn in H2; try contradiction.
      + eapply both_bind; [apply (q_insert XS); [exact Hs|exact H2]|]. intros [s1 u] [s1' u'] [H3 H4].
        apply both_ret. split; [|exact I]. split; [exact Hm|]. split; [exact Hx|]. split; auto.
      + destruct H2 as [E H2]. cbn in E, H2. destruct o as [[lo w]|], o' as [[lo' w']|]; cbn in H2; try contradiction.
        * destruct H2 as [E2 H2]. cbn in E2, H2. apply both_ret. split; [|apply kpair; auto].
          split; [exact Hm|]. split; [exact Hx|]. split; auto.
        * apply both_ret. split; [|exact I]. split; [exact Hm|]. split; [exact Hx|]. split; auto.
    - eapply both_bind; [apply (qc_create XC); [exact Hh|apply (q_from XT), Hl]|]. intros c1 c1' H1. apply both_ret. split; [|exact I].
      split; [exact Hm|]. split; [exact Hx|]. split; [apply (q_from XS), Hh|exact H1].
  Qed.
  Lemma kafter_end s s' r r' rm rm' : RS s s' -> ropt (rprod RC eq) r r' ->
    (forall t t', RS t t' -> both (ktaken RH S S' RS) (rm t) (rm' t')) ->
    both (ropt (rprod RS RC)) (after_end S Tr C s r rm) (after_end S' Tr' C' s' r' rm').
  Proof.
    intros Hs Hr Hm. destruct r as [[c b]|], r' as [[c' b']|]; cbn in Hr; try contradiction; [|apply both_ret; exact I].
    destruct Hr as [Hc E]. cbn in Hc, E. subst b'. destruct b; cbn [after_end].
    - eapply both_bind; [apply Hm, Hs|]. intros [os p] [os' p'] [H1 H2]. eapply both_bind; [apply both_expect, H1|].
      intros s1 s1' H3. apply both_ret. split; auto.
    - apply both_ret. split; auto.
  Qed.

  Ltac start t t' H :=
    destruct t as [[k0 v0] od], t' as [[k0' v0'] od'];
    destruct H as [[Hk0 Hv0] Hd]; cbn in Hk0, Hv0, Hd; subst v0';
    destruct od as [[[k1 v1] och]|], od' as [[[k1' v1'] och']|]; cbn in Hd; try contradiction;
    [destruct Hd as [[Hk1 Hv1] Hch]; cbn in Hk1, Hv1, Hch; subst v1';
     destruct och as [[s c]|], och' as [[s' c']|]; cbn in Hch; try contradiction; [destruct Hch as [Hs Hc]; cbn in Hs, Hc|]|].
  Ltac q := cbn [t_min t_data d_max d_children fst snd].
  Arguments min_mut : simpl never.
  Arguments max_mut : simpl never.
  Arguments put_child : simpl never.
  (** compare the keys of the second side in place of those of the first *)
  Ltac cmps := repeat match goal with
    | Ha : RK ?a ?a', Hb : RK ?b ?b' |- context [k_cmp ko ?a ?b] => rewrite (kr_cmp X a a' b b' Ha Hb)
    end.
  Ltac splits := match goal with
    | Hk : RK ?k ?k' |- context [k_split_ref ko ?k] =>
        let Hsp := fresh "Hsp" in let h := fresh "h" in let l := fresh "l" in let h' := fresh "h'" in let l' := fresh "l'" in
        pose proof (kr_ref X k k' Hk) as Hsp;
        destruct (k_split_ref ko k) as [h l], (k_split_ref ko' k') as [h' l'], Hsp as [Hh Hl]; cbn [fst snd] in Hh, Hl
    end.
  Ltac same := match goal with
    | |- both _ (match ?x with _ => _ end) (match ?x with _ => _ end) => destruct x eqn:?
    | |- both _ (if ?x then _ else _) (if ?x then _ else _) => destruct x eqn:?
    end.
  Lemma kmin_mut t t' : ktree_rel t t' -> klens RK O O' ktree_rel (min_mut S Tr C t) (min_mut S' Tr' C' t').
  Proof.
    intros [H1 H2]. split; [exact H1|]. intros w. destruct H1 as [H1 _]. split; [split; [exact H1|reflexivity]|exact H2].
  Qed.
  Lemma kmax_mut t t' d d' : ktree_rel t t' -> kdata_rel d d' -> klens RK O O' ktree_rel (max_mut S Tr C t d) (max_mut S' Tr' C' t' d').
  Proof.
    intros [H1 H2] [H3 H4]. split; [exact H3|]. intros w. destruct H3 as [H3 _]. split; [exact H1|]. cbn.
    split; [split; [exact H3|reflexivity]|exact H4].
  Qed.

  Ltac fin := cbn [fst snd t_min t_data d_max d_children]; lazymatch goal with
    | |- True => exact I
    | |- _ = _ => first [reflexivity | assumption]
    | |- _ /\ _ => split; fin
    | |- forall v, ktree_rel (put_child _ _ _ _ _ _ _ _ _) _ => apply kput_child; fin
    | |- klens _ _ _ _ (min_mut _ _ _ _) _ => apply kmin_mut; assumption
    | |- klens _ _ _ _ (max_mut _ _ _ _ _) _ => apply kmax_mut; [assumption|fin]
    | |- klens _ _ _ _ (_, put_min _ _ _ _) _ => apply kmin_mut; assumption
    | |- klens _ _ _ _ (_, put_max _ _ _ _ _) _ => apply kmax_mut; [assumption|fin]
    | |- RK (k_join _ _ _) _ => apply (kr_join X); assumption
    | |- ktree_rel _ _ => first [assumption | split; fin]
    | |- kdata_rel _ _ => first [assumption | split; fin]
    | |- ropt _ _ _ => first [assumption | progress cbn; fin]
    | |- rresult _ _ _ _ => first [assumption | progress cbn; fin]
    | |- rprod _ _ _ _ => first [assumption | split; fin]
    | |- kp _ _ _ => first [assumption | split; fin]
    | |- klens _ _ _ _ _ _ => first [assumption | split; fin]
    | |- ktaken _ _ _ _ _ _ => first [assumption | split; fin]
    | |- _ => assumption
    end.
  Ltac done := match goal with |- both _ (Ret _) (Ret _) => apply both_ret; fin | |- both _ Panic Panic => exact I end.
  Ltac go := unfold eqb, leb, ltb; cmps; repeat (same; try done).

  Lemma ktree_find_sim t t' k k' : ktree_rel t t' -> RK k k' -> both (ropt (kp RK)) (tr_find ko S Tr C t k) (tr_find ko' S' Tr' C' t' k').
  Proof.
    intros H Hk. unfold tr_find. start t t' H; q; go; try splits;
    (eapply both_bind; [apply (qc_get XC); eassumption|]; intros [x|] [x'|] Hx; cbn in Hx; try contradiction; [|done];
    eapply both_bind; [apply (q_find XT); eassumption|]; intros [[lo w]|] [[lo' w']|] Ho; cbn in Ho; try contradiction; [|done];
    destruct Ho as [E Ho]; cbn in E, Ho; done).
  Qed.
  Lemma ktree_pred_sim t t' k k' : ktree_rel t t' -> RK k k' ->
    both (ropt (kp RK)) (tr_predecessor ko S Tr C t k) (tr_predecessor ko' S' Tr' C' t' k').
  Proof.
    intros H Hk. unfold tr_predecessor. start t t' H; q; go; try splits;
    lazymatch goal with
    | |- both _ (bind (v_max_val _ _) _) _ => eapply both_bind; [apply (q_max XS), Hs|]; intros [hh u] [hh' u'] [E _]; cbn in E;
      apply kchild_end; auto; apply (q_max XT)
    | |- _ => idtac
    end;
    (eapply both_bind; [apply (qc_get XC); eassumption|]; intros x x' Hx;
      eapply (both_bind (ropt (kp RL)));
      [destruct x, x'; cbn in Hx; try contradiction; [apply (q_pred XT); assumption|done]|];
      intros [[lo w]|] [[lo' w']|] Ho; cbn in Ho; try contradiction;
      [ destruct Ho as [E Ho]; cbn in E, Ho; done
      | eapply both_bind; [apply (q_pred XS); eassumption|]; intros [[hh u]|] [[hh' u']|] Hhh; cbn in Hhh; try contradiction; [|done];
        destruct Hhh as [E _]; cbn in E; apply kchild_end; auto; apply (q_max XT)]).
  Qed.
  Lemma ktree_succ_sim t t' k k' : ktree_rel t t' -> RK k k' ->
    both (ropt (kp RK)) (tr_successor ko S Tr C t k) (tr_successor ko' S' Tr' C' t' k').
  Proof.
    intros H Hk. unfold tr_successor. start t t' H; q; go; try splits;
    lazymatch goal with
    | |- both _ (bind (v_min_val _ _) _) _ => eapply both_bind; [apply (q_min XS), Hs|]; intros [hh u] [hh' u'] [E _]; cbn in E;
      apply kchild_end; auto; apply (q_min XT)
    | |- _ => idtac
    end;
    (eapply both_bind; [apply (qc_get XC); eassumption|]; intros x x' Hx;
      eapply (both_bind (ropt (kp RL)));
      [destruct x, x'; cbn in Hx; try contradiction; [apply (q_succ XT); assumption|done]|];
      intros [[lo w]|] [[lo' w']|] Ho; cbn in Ho; try contradiction;
      [ destruct Ho as [E Ho]; cbn in E, Ho; done
      | eapply both_bind; [apply (q_succ XS); eassumption|]; intros [[hh u]|] [[hh' u']|] Hhh; cbn in Hhh; try contradiction; [|done];
        destruct Hhh as [E _]; cbn in E; apply kchild_end; auto; apply (q_min XT)]).
  Qed.
  Notation rlo := (ropt (klens RK O O' ktree_rel)).
  Lemma ktree_find_mut_sim t t' k k' : ktree_rel t t' -> RK k k' -> both rlo (tr_find_mut ko S Tr C t k) (tr_find_mut ko' S' Tr' C' t' k').
  Proof.
    intros H Hk. assert (H0 := H). unfold tr_find_mut. start t t' H; q; go; try splits;
    (eapply both_bind; [apply (qc_get_mut XC); eassumption|]; intros [[x put]|] [[x' put']|] Hx; cbn in Hx; try contradiction; [|done];
     destruct Hx as [Hx Hp]; cbn in Hx, Hp;
     eapply both_bind; [apply (q_find_mut XT); eassumption|]; intros [[[lo w] pv]|] [[[lo' w'] pv']|] Ho; cbn in Ho; try contradiction; [|done];
     destruct Ho as [[E Ho] Hpv]; cbn in E, Ho, Hpv; done).
  Qed.
  (** the middle part of the two mutable neighbour queries *)
  Lemma kinner_mut (m : vt Tr -> res (option (Lo * V * (V -> vt Tr)))) (m' : vt Tr' -> res (option (Lo' * V * (V -> vt Tr')))) x x' :
    (forall t t', RT t t' -> both (ropt (klens RL Tr Tr' RT)) (m t) (m' t')) -> ropt (rprod RT (rfun RT RC)) x x' ->
    both (ropt (rprod (klens RL Tr Tr' RT) (rfun RT RC)))
      (match x with Some (child, put) => o' <- m child ;; Ret (match o' with Some x => Some (x, put) | None => None end) | None => Ret None end)
      (match x' with Some (child, put) => o' <- m' child ;; Ret (match o' with Some x => Some (x, put) | None => None end) | None => Ret None end).
  Proof.
    intros Hm Hx. destruct x as [[x put]|], x' as [[x' put']|]; cbn in Hx; try contradiction; [|done]. destruct Hx as [Hx Hp]. cbn in Hx, Hp.
    eapply both_bind; [apply Hm, Hx|]. intros [l|] [l'|] Hl; cbn in Hl; try contradiction; done.
  Qed.
  Lemma ktree_pred_mut_sim t t' k k' : ktree_rel t t' -> RK k k' ->
    both rlo (tr_predecessor_mut ko S Tr C t k) (tr_predecessor_mut ko' S' Tr' C' t' k').
  Proof.
    intros H Hk. assert (H0 := H). unfold tr_predecessor_mut. start t t' H; q; go; try splits;
    lazymatch goal with
    | |- both _ (bind (debug_assert _) _) _ => eapply (both_bind eq); [apply both_refl; reflexivity|]; intros _ _ _;
      eapply both_bind; [apply (q_max XS), Hs|]; intros [hh u] [hh' u'] [E _]; cbn in E;
      apply kchild_end_mut; auto; try fin; apply (q_max_mut XT)
    | |- _ => idtac
    end;
    (eapply both_bind; [apply (qc_get_mut XC); eassumption|]; intros x x' Hx;
      eapply both_bind; [apply kinner_mut; [|exact Hx]; intros; apply (q_pred_mut XT); eassumption|];
      intros [[[[lo w] pv] pt]|] [[[[lo' w'] pv'] pt']|] Ho; cbn in Ho; try contradiction;
      [ destruct Ho as [[[E Ho] Hpv] Hpt]; cbn in E, Ho, Hpv, Hpt; done
      | eapply both_bind; [apply (q_pred XS); eassumption|]; intros [[hh u]|] [[hh' u']|] Hhh; cbn in Hhh; try contradiction; [|done];
        destruct Hhh as [E _]; cbn in E; apply kchild_end_mut; auto; try fin; apply (q_max_mut XT)]).
  Qed.
  Lemma ktree_succ_mut_sim t t' k k' : ktree_rel t t' -> RK k k' ->
    both rlo (tr_successor_mut ko S Tr C t k) (tr_successor_mut ko' S' Tr' C' t' k').
  Proof.
    intros H Hk. assert (H0 := H). unfold tr_successor_mut. start t t' H; q; go; try splits;
    lazymatch goal with
    | |- both _ (bind (v_min_val _ _) _) _ =>
      eapply both_bind; [apply (q_min XS), Hs|]; intros [hh u] [hh' u'] [E _]; cbn in E;
      apply kchild_end_mut; auto; try fin; apply (q_min_mut XT)
    | |- _ => idtac
    end;
    (eapply both_bind; [apply (qc_get_mut XC); eassumption|]; intros x x' Hx;
      eapply both_bind; [apply kinner_mut; [|exact Hx]; intros; apply (q_succ_mut XT); eassumption|];
      intros [[[[lo w] pv] pt]|] [[[[lo' w'] pv'] pt']|] Ho; cbn in Ho; try contradiction;
      [ destruct Ho as [[[E Ho] Hpv] Hpt]; cbn in E, Ho, Hpv, Hpt; done
      | eapply both_bind; [apply (q_succ XS); eassumption|]; intros [[hh u]|] [[hh' u']|] Hhh; cbn in Hhh; try contradiction; [|done];
        destruct Hhh as [E _]; cbn in E; apply kchild_end_mut; auto; try fin; apply (q_min_mut XT)]).
  Qed.
  Lemma ktree_insert_sim t t' k k' v : ktree_rel t t' -> RK k k' ->
    both (rprod ktree_rel (ropt (kp RK))) (tr_insert fixed ko S Tr C t k v) (tr_insert fixed ko' S' Tr' C' t' k' v).
  Proof.
    intros H Hk. unfold tr_insert. start t t' H; q; cmps; repeat (same; cmps; try done); apply kpush; cbn; fin.
  Qed.
  Lemma ktree_remove_min_sim t t' : ktree_rel t t' ->
    both (ktaken RK O O' ktree_rel) (tr_remove_min ko S Tr C t) (tr_remove_min ko' S' Tr' C' t').
  Proof.
    intros H. unfold tr_remove_min. start t t' H; q; try done.
    eapply both_bind; [apply (q_min XS), Hs|]. intros [h u] [h' u'] [Hh _]. cbn in Hh.
    eapply both_bind; [apply (qc_remove XC); [exact Hc|exact Hh|apply (q_remove_min XT)]|].
    intros [r [lo w]] [r' [lo' w']] [Hr [E Hw]]. cbn in Hr, E, Hw.
    eapply both_bind; [apply kafter_end; [exact Hs|exact Hr|apply (q_remove_min XS)]|]. intros ch ch' Hch. done.
  Qed.
  Lemma ktree_remove_max_sim t t' : ktree_rel t t' ->
    both (ktaken RK O O' ktree_rel) (tr_remove_max ko S Tr C t) (tr_remove_max ko' S' Tr' C' t').
  Proof.
    intros H. unfold tr_remove_max. start t t' H; q; try done.
    eapply both_bind; [apply (q_max XS), Hs|]. intros [h u] [h' u'] [Hh _]. cbn in Hh.
    eapply both_bind; [apply (qc_remove XC); [exact Hc|exact Hh|apply (q_remove_max XT)]|].
    intros [r [lo w]] [r' [lo' w']] [Hr [E Hw]]. cbn in Hr, E, Hw.
    eapply both_bind; [apply kafter_end; [exact Hs|exact Hr|apply (q_remove_max XS)]|]. intros ch ch' Hch. done.
  Qed.
  Lemma ktree_remove_sim t t' k k' : ktree_rel t t' -> RK k k' ->
    both (rresult (ktaken RK O O' ktree_rel) ktree_rel) (tr_remove ko S Tr C t k) (tr_remove ko' S' Tr' C' t' k').
  Proof.
    intros H Hk. assert (H0 := H). unfold tr_remove.
    assert (Hm : RK (fst (t_min t)) (fst (t_min t'))) by apply H. unfold eqb. cmps. same;
    match goal with |- both _ (bind (tr_remove_min _ _ _ _ _) _) _ =>
      eapply both_bind; [apply ktree_remove_min_sim, H0|]; intros r r' Hr; done | |- _ => idtac end; clear Hm.
    all: start t t' H; q; try done; go; try splits.
    all: lazymatch goal with
    | |- both _ (bind (v_max_val _ _) _) _ =>
      eapply both_bind; [apply (q_max XS), Hs|]; intros [hh u] [hh' u'] [Hhh _]; cbn in Hhh;
      eapply both_bind; [apply (qc_remove XC); [exact Hc|exact Hhh|apply (q_remove_max XT)]|];
      intros [r [lo w]] [r' [lo' w']] [Hr [E Hw]]; cbn in Hr, E, Hw;
      eapply both_bind; [apply kafter_end; [exact Hs|exact Hr|apply (q_remove_max XS)]|]; intros ch ch' Hch; done
    | |- _ => idtac end.
    all: eapply both_bind; [apply (qc_maybe XC); [exact Hc|exact Hh|intros; apply (q_remove XT); assumption]|];
      intros [[oc [lo w]]|c1] [[oc' [lo' w']]|c1'] Hr; cbn in Hr; try contradiction; [|done];
      destruct Hr as [Hr [E Hw]]; cbn in Hr, E, Hw;
      destruct oc as [[c1 b]|], oc' as [[c1' b']|]; cbn in Hr; try contradiction; [|done];
      destruct Hr as [Hc1 Eb]; cbn in Hc1, Eb; subst b'; destruct b; [|done];
      eapply both_bind; [apply (q_remove XS); eassumption|]; intros rs rs' Hrs;
      eapply (both_bind (ktaken RH S S' RS));
      [destruct rs, rs'; cbn in Hrs; try contradiction; done|];
      intros [os u] [os' u'] [Ho _]; cbn in Ho; eapply both_bind; [apply both_expect, Ho|]; intros s1 s1' Hs1; done.
  Qed.

  Lemma ktree_sim : KSim RK O O' ktree_rel.
  Proof.
    constructor.
    - intros k k' v Hk. split; [split; [exact Hk|reflexivity]|exact I].
    - intros t t' H. start t t' H; apply both_ret; reflexivity.
    - intros t t' H. assert (H0 := H). start t t' H; apply both_ret; cbn; try exact H0; split; auto.
    - intros t t' H. apply both_ret. apply H.
    - intros t t' H. apply both_ret. destruct H as [H1 H2]. destruct (t_data t), (t_data t'); cbn in H2; try contradiction; [apply H2|exact H1].
    - intros t t' H. apply both_ret. apply kmin_mut; auto.
    - intros t t' H. apply both_ret. assert (H0 := H). destruct H as [H1 H2]. destruct (t_data t), (t_data t'); cbn in H2; try contradiction;
        [apply kmax_mut; auto|apply kmin_mut; auto].
    - exact ktree_find_sim.
    - exact ktree_pred_sim.
    - exact ktree_succ_sim.
    - exact ktree_find_mut_sim.
    - exact ktree_pred_mut_sim.
    - exact ktree_succ_mut_sim.
    - exact ktree_insert_sim.
    - exact ktree_remove_sim.
    - exact ktree_remove_min_sim.
    - exact ktree_remove_max_sim.
    - intros t t' H. cbn [Tree_ops v_len_hint]. unfold default_len_hint. start t t' H; apply both_ret; reflexivity.
  Qed.
End KTreeSim.
