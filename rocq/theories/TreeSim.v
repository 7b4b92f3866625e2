(** [Tree] over simulated parts simulates.  The two sides may be compiled differently, if the second has no more checks than the first. *)
From Verif Require Import Base Spec Ops Tree Hist Sim.

Section TreeSim.
  Context {B B' : Build} (HB : lenient B B').
  Context (fixed : bool) {K Hi Lo V V' : Type} (ko : KeyOps K Hi Lo) (RV : V -> V' -> Prop).
  Context (S S' : VebOps Hi unit) (Tr : VebOps Lo V) (Tr' : VebOps Lo V') (C : CollOps Hi Lo V Tr) (C' : CollOps Hi Lo V' Tr').
  Context (RS : vt S -> vt S' -> Prop) (RT : vt Tr -> vt Tr' -> Prop) (RC : ct C -> ct C' -> Prop).
  Context (XS : Sim eq S S' RS) (XT : Sim RV Tr Tr' RT) (XC : CSim RV RT C C' RC).
  Notation O := (Tree_ops (B := B) fixed ko S Tr C).
  Notation O' := (Tree_ops (B := B') fixed ko S' Tr' C').

  Definition data_rel (d : TreeData S Tr C) (d' : TreeData S' Tr' C') : Prop :=
    rp (K := K) RV (d_max d) (d_max d') /\ ropt (rprod RS RC) (d_children d) (d_children d').
  Definition tree_rel (t : vt O) (t' : vt O') : Prop :=
    rp RV (t_min t) (t_min t') /\ ropt data_rel (t_data t) (t_data t').

  Lemma child_end_sim c c' h ext ext' : RC c c' -> (forall t t', RT t t' -> rres (rp RV) (ext t) (ext' t')) ->
    rres (ropt (rp RV)) (child_end ko Tr C c h ext) (child_end ko Tr' C' c' h ext').
  Proof.
    intros H He. eapply rres_bind; [apply (cs_get XC), H|]. intros o o' Ho. eapply rres_bind; [apply rres_expect, Ho|].
    intros t t' Ht. eapply rres_bind; [apply He, Ht|]. intros [lo v] [lo' v'] [E Hp].
    cbn in E, Hp. subst. apply rres_ret. split; auto.
  Qed.
  Lemma put_child_sim mn mn' mx mx' ch ch' s s' put put' putv putv' : rp RV mn mn' -> rp RV mx mx' -> RS s s' ->
    rfun RT RC put put' -> rfun RV RT putv putv' ->
    rfun RV tree_rel (put_child S Tr C (TR mn (Some (TD mx ch))) (TD mx ch) s put putv)
                     (put_child S' Tr' C' (TR mn' (Some (TD mx' ch'))) (TD mx' ch') s' put' putv').
  Proof. intros H1 H2 H3 H4 H5 w w' Hw. split; [exact H1|]. cbn. split; [exact H2|]. cbn. split; [exact H3|]. apply H4, H5, Hw. Qed.
  Lemma child_end_mut_sim mn mn' mx mx' s s' c c' ch ch' h ext ext' : rp RV mn mn' -> rp RV mx mx' -> RS s s' -> RC c c' ->
    (forall t t', RT t t' -> rres (rlens RV Tr Tr' RT) (ext t) (ext' t')) ->
    rres (ropt (rlens RV O O' tree_rel)) (child_end_mut ko S Tr C (TR mn (Some (TD mx ch))) (TD mx ch) s c h ext)
         (child_end_mut ko S' Tr' C' (TR mn' (Some (TD mx' ch'))) (TD mx' ch') s' c' h ext').
  Proof.
    intros Hm Hx Hs H He. eapply rres_bind; [apply (cs_get_mut XC), H|]. intros o o' Ho. eapply rres_bind; [apply rres_expect, Ho|].
    intros t t' Ht. destruct t as [t put], t' as [t' put'], Ht as [Ht Hp]. eapply rres_bind; [apply He, Ht|].
    intros [[lo v] putv] [[lo' v'] putv'] [[Hp1 Hp2] Hp3]. cbn in Hp1, Hp2, Hp3. subst lo'. apply rres_ret.
    split; [split; [reflexivity|exact Hp2]|]. apply put_child_sim; auto.
  Qed.
  Lemma push_sim mn mn' mx mx' ch ch' k v v' : rp RV mn mn' -> rp RV mx mx' -> ropt (rprod RS RC) ch ch' -> RV v v' ->
    rres (rprod tree_rel (ropt (rp RV))) (tr_push ko S Tr C mn mx ch k v) (tr_push ko S' Tr' C' mn' mx' ch' k v').
  Proof.
    intros Hm Hx Hc Hv. unfold tr_push. destruct (k_split_val ko k) as [h l].
    destruct ch as [[s c]|], ch' as [[s' c']|]; cbn in Hc; try contradiction.
    - destruct Hc as [Hs Hc]. cbn in Hs, Hc. eapply rres_bind; [apply (cs_insert XC); [exact Hc|split; [reflexivity|exact Hv]]|].
      intros [c1 r] [c1' r'] [H1 H2]. cbn in H1, H2. destruct r as [h1|[h1 o]], r' as [h1'|[h1' o']]; cbn in H2; try contradiction.
      + subst h1'. eapply rres_bind; [apply (s_insert XS); [exact Hs|reflexivity]|]. intros [s1 u] [s1' u'] [H2 H3].
        apply rres_ret. split; [|exact I]. split; [exact Hm|]. split; [exact Hx|]. split; auto.
      + destruct H2 as [E H2]. cbn in E, H2. subst h1'. destruct o as [[lo w]|], o' as [[lo' w']|]; cbn in H2; try contradiction.
        * destruct H2 as [E H2]. cbn in E. subst. apply rres_ret. split; [|split; [reflexivity|exact H2]].
          split; [exact Hm|]. split; [exact Hx|]. split; auto.
        * apply rres_ret. split; [|exact I]. split; [exact Hm|]. split; [exact Hx|]. split; auto.
    - eapply rres_bind; [apply (cs_create XC), (s_from XT), Hv|]. intros c1 c1' H1. apply rres_ret. split; [|exact I].
      split; [exact Hm|]. split; [exact Hx|]. split; [apply (s_from XS); reflexivity|exact H1].
  Qed.
  Lemma after_end_sim s s' r r' rm rm' : RS s s' -> ropt (rprod RC eq) r r' ->
    (forall t t', RS t t' -> rres (rtaken eq S S' RS) (rm t) (rm' t')) ->
    rres (ropt (rprod RS RC)) (after_end S Tr C s r rm) (after_end S' Tr' C' s' r' rm').
  Proof.
    intros Hs Hr Hm. destruct r as [[c b]|], r' as [[c' b']|]; cbn in Hr; try contradiction; [|apply rres_ret; exact I].
    destruct Hr as [Hc E]. cbn in Hc, E. subst b'. destruct b; cbn [after_end].
    - eapply rres_bind; [apply Hm, Hs|]. intros [os p] [os' p'] [H1 H2]. eapply rres_bind; [apply rres_expect, H1|].
      intros s1 s1' H3. apply rres_ret. split; auto.
    - apply rres_ret. split; auto.
  Qed.

  Ltac start t t' H :=
    destruct t as [[k0 v0] od], t' as [[k0' v0'] od'];
    destruct H as [[Ek Hv0] Hd]; cbn in Ek, Hv0, Hd; subst k0';
    destruct od as [[[k1 v1] och]|], od' as [[[k1' v1'] och']|]; cbn in Hd; try contradiction;
    [destruct Hd as [[Ek Hv1] Hch]; cbn in Ek, Hv1, Hch; subst k1';
     destruct och as [[s c]|], och' as [[s' c']|]; cbn in Hch; try contradiction; [destruct Hch as [Hs Hc]; cbn in Hs, Hc|]|].
  Ltac q := cbn [t_min t_data d_max d_children fst snd].
  Arguments min_mut : simpl never.
  Arguments max_mut : simpl never.
  Arguments put_child : simpl never.
  Ltac pr := split; [reflexivity|assumption].
  Ltac same := match goal with
    | |- rres _ (match ?x with _ => _ end) (match ?x with _ => _ end) => destruct x eqn:?
    | |- rres _ (let (_, _) := ?x in _) (let (_, _) := ?x in _) => destruct x eqn:?
    | |- rres _ (if ?x then _ else _) (if ?x then _ else _) => destruct x eqn:?
    end.
  Lemma min_mut_sim t t' : tree_rel t t' -> rlens RV O O' tree_rel (min_mut S Tr C t) (min_mut S' Tr' C' t').
  Proof.
    intros [H1 H2]. split; [exact H1|]. intros w w' Hw. destruct H1 as [H1 _]. split; [split; [exact H1|exact Hw]|exact H2].
  Qed.
  Lemma max_mut_sim t t' d d' : tree_rel t t' -> data_rel d d' -> rlens RV O O' tree_rel (max_mut S Tr C t d) (max_mut S' Tr' C' t' d').
  Proof.
    intros [H1 H2] [H3 H4]. split; [exact H3|]. intros w w' Hw. destruct H3 as [H3 _]. split; [exact H1|]. cbn.
    split; [split; [exact H3|exact Hw]|exact H4].
  Qed.

  Ltac fin := cbn [fst snd]; lazymatch goal with
    | |- True => exact I
    | |- _ = _ => reflexivity
    | |- _ /\ _ => split; fin
    | |- rfun _ _ (put_child _ _ _ _ _ _ _ _) _ => apply put_child_sim; fin
    | |- rlens _ _ _ _ (min_mut _ _ _ _) _ => apply min_mut_sim; assumption
    | |- rlens _ _ _ _ (max_mut _ _ _ _ _) _ => apply max_mut_sim; [assumption|fin]
    | |- rlens _ _ _ _ (_, put_min _ _ _ _) _ => apply min_mut_sim; assumption
    | |- rlens _ _ _ _ (_, put_max _ _ _ _ _) _ => apply max_mut_sim; [assumption|fin]
    | |- tree_rel _ _ => first [assumption | split; fin]
    | |- data_rel _ _ => first [assumption | split; fin]
    | |- ropt _ _ _ => first [assumption | progress cbn; fin]
    | |- rresult _ _ _ _ => first [assumption | progress cbn; fin]
    | |- rprod _ _ _ _ => first [assumption | split; fin]
    | |- rp _ _ _ => first [assumption | split; fin]
    | |- rlens _ _ _ _ _ _ => first [assumption | split; fin]
    | |- rtaken _ _ _ _ _ _ => first [assumption | split; fin]
    | |- rleft _ _ _ _ _ => first [assumption | split; fin]
    | |- _ => assumption
    end.
  Ltac done := match goal with |- rres _ (Ret _) (Ret _) => apply rres_ret; fin end.

  Lemma tree_find_sim t t' k : tree_rel t t' -> rres (ropt (rp RV)) (tr_find ko S Tr C t k) (tr_find ko S' Tr' C' t' k).
  Proof.
    intros H. unfold tr_find. start t t' H; q; repeat (same; try done).
    eapply rres_bind; [apply (cs_get XC), Hc|]. intros [x|] [x'|] Hx; cbn in Hx; try contradiction; [|done].
    eapply rres_bind; [apply (s_find XT), Hx|]. intros [[lo w]|] [[lo' w']|] Ho; cbn in Ho; try contradiction; [|done].
    destruct Ho as [E Ho]. cbn in E, Ho. subst. done.
  Qed.
  Lemma tree_pred_sim t t' k : tree_rel t t' -> rres (ropt (rp RV)) (tr_predecessor ko S Tr C t k) (tr_predecessor ko S' Tr' C' t' k).
  Proof.
    intros H. unfold tr_predecessor. start t t' H; q; repeat (same; try done).
    - eapply rres_bind; [apply (s_max XS), Hs|]. intros [h u] [h' u'] [E _]. cbn in E. subst h'.
      apply child_end_sim; auto. apply (s_max XT).
    - eapply rres_bind; [apply (cs_get XC), Hc|]. intros x x' Hx.
      eapply (rres_bind (ropt (rp RV))).
      { destruct x, x'; cbn in Hx; try contradiction; [apply (s_pred XT), Hx|done]. }
      intros [[lo w]|] [[lo' w']|] Ho; cbn in Ho; try contradiction.
      + destruct Ho as [E Ho]. cbn in E, Ho. subst. done.
      + eapply rres_bind; [apply (s_pred XS), Hs|]. intros [[h' u]|] [[h'' u']|] Hh; cbn in Hh; try contradiction; [|done].
        destruct Hh as [E _]. cbn in E. subst h''. apply child_end_sim; auto. apply (s_max XT).
  Qed.
  Lemma tree_succ_sim t t' k : tree_rel t t' -> rres (ropt (rp RV)) (tr_successor ko S Tr C t k) (tr_successor ko S' Tr' C' t' k).
  Proof.
    intros H. unfold tr_successor. start t t' H; q; repeat (same; try done).
    - eapply rres_bind; [apply (s_min XS), Hs|]. intros [h u] [h' u'] [E _]. cbn in E. subst h'.
      apply child_end_sim; auto. apply (s_min XT).
    - eapply rres_bind; [apply (cs_get XC), Hc|]. intros x x' Hx.
      eapply (rres_bind (ropt (rp RV))).
      { destruct x, x'; cbn in Hx; try contradiction; [apply (s_succ XT), Hx|done]. }
      intros [[lo w]|] [[lo' w']|] Ho; cbn in Ho; try contradiction.
      + destruct Ho as [E Ho]. cbn in E, Ho. subst. done.
      + eapply rres_bind; [apply (s_succ XS), Hs|]. intros [[h' u]|] [[h'' u']|] Hh; cbn in Hh; try contradiction; [|done].
        destruct Hh as [E _]. cbn in E. subst h''. apply child_end_sim; auto. apply (s_min XT).
  Qed.
  Notation rlo := (ropt (rlens RV O O' tree_rel)).
  Lemma tree_find_mut_sim t t' k : tree_rel t t' -> rres rlo (tr_find_mut ko S Tr C t k) (tr_find_mut ko S' Tr' C' t' k).
  Proof.
    intros H. assert (H0 := H). unfold tr_find_mut. start t t' H; q; repeat (same; try done).
    eapply rres_bind; [apply (cs_get_mut XC), Hc|]. intros [[x put]|] [[x' put']|] Hx; cbn in Hx; try contradiction; [|done].
    destruct Hx as [Hx Hp]. cbn in Hx, Hp.
    eapply rres_bind; [apply (s_find_mut XT), Hx|]. intros [[[lo w] pv]|] [[[lo' w'] pv']|] Ho; cbn in Ho; try contradiction; [|done].
    destruct Ho as [[E Ho] Hpv]. cbn in E, Ho, Hpv. subst. done.
  Qed.
  (** the middle part of the two mutable neighbour queries *)
  Lemma inner_mut_sim (m : vt Tr -> res (option (Lo * V * (V -> vt Tr)))) (m' : vt Tr' -> res (option (Lo * V' * (V' -> vt Tr')))) x x' :
    (forall t t', RT t t' -> rres (ropt (rlens RV Tr Tr' RT)) (m t) (m' t')) -> ropt (rprod RT (rfun RT RC)) x x' ->
    rres (ropt (rprod (rlens RV Tr Tr' RT) (rfun RT RC)))
      (match x with Some (child, put) => o' <- m child ;; Ret (match o' with Some x => Some (x, put) | None => None end) | None => Ret None end)
      (match x' with Some (child, put) => o' <- m' child ;; Ret (match o' with Some x => Some (x, put) | None => None end) | None => Ret None end).
  Proof.
    intros Hm Hx. destruct x as [[x put]|], x' as [[x' put']|]; cbn in Hx; try contradiction; [|done]. destruct Hx as [Hx Hp]. cbn in Hx, Hp.
    eapply rres_bind; [apply Hm, Hx|]. intros [l|] [l'|] Hl; cbn in Hl; try contradiction; done.
  Qed.
  Lemma tree_pred_mut_sim t t' k : tree_rel t t' -> rres rlo (tr_predecessor_mut (B := B) ko S Tr C t k) (tr_predecessor_mut (B := B') ko S' Tr' C' t' k).
  Proof.
    intros H. assert (H0 := H). unfold tr_predecessor_mut. start t t' H; q; repeat (same; try done).
    - eapply (rres_bind eq); [apply rres_assert; exact HB|]. intros _ _ _.
      eapply rres_bind; [apply (s_max XS), Hs|]. intros [h u] [h' u'] [E _]. cbn in E. subst h'.
      apply child_end_mut_sim; auto; try pr. apply (s_max_mut XT).
    - eapply rres_bind; [apply (cs_get_mut XC), Hc|]. intros x x' Hx.
      eapply rres_bind; [apply inner_mut_sim; [|exact Hx]; intros; apply (s_pred_mut XT); auto|].
      intros [[[[lo w] pv] pt]|] [[[[lo' w'] pv'] pt']|] Ho; cbn in Ho; try contradiction.
      + destruct Ho as [[[E Ho] Hpv] Hpt]. cbn in E, Ho, Hpv, Hpt. subst. done.
      + eapply rres_bind; [apply (s_pred XS), Hs|]. intros [[h' u]|] [[h'' u']|] Hh; cbn in Hh; try contradiction; [|done].
        destruct Hh as [E _]. cbn in E. subst h''. apply child_end_mut_sim; auto; try pr. apply (s_max_mut XT).
  Qed.
  Lemma tree_succ_mut_sim t t' k : tree_rel t t' -> rres rlo (tr_successor_mut ko S Tr C t k) (tr_successor_mut ko S' Tr' C' t' k).
  Proof.
    intros H. assert (H0 := H). unfold tr_successor_mut. start t t' H; q; repeat (same; try done).
    - eapply rres_bind; [apply (s_min XS), Hs|]. intros [h u] [h' u'] [E _]. cbn in E. subst h'.
      apply child_end_mut_sim; auto; try pr. apply (s_min_mut XT).
    - eapply rres_bind; [apply (cs_get_mut XC), Hc|]. intros x x' Hx.
      eapply rres_bind; [apply inner_mut_sim; [|exact Hx]; intros; apply (s_succ_mut XT); auto|].
      intros [[[[lo w] pv] pt]|] [[[[lo' w'] pv'] pt']|] Ho; cbn in Ho; try contradiction.
      + destruct Ho as [[[E Ho] Hpv] Hpt]. cbn in E, Ho, Hpv, Hpt. subst. done.
      + eapply rres_bind; [apply (s_succ XS), Hs|]. intros [[h' u]|] [[h'' u']|] Hh; cbn in Hh; try contradiction; [|done].
        destruct Hh as [E _]. cbn in E. subst h''. apply child_end_mut_sim; auto; try pr. apply (s_min_mut XT).
  Qed.
  Lemma tree_insert_sim t t' k v v' : tree_rel t t' -> RV v v' ->
    rres (rprod tree_rel (ropt (rp RV))) (tr_insert fixed ko S Tr C t k v) (tr_insert fixed ko S' Tr' C' t' k v').
  Proof.
    intros H Hv. unfold tr_insert. start t t' H; q; repeat (same; try done); apply push_sim; cbn; fin.
  Qed.
  Lemma tree_remove_min_sim t t' : tree_rel t t' -> rres (rtaken RV O O' tree_rel) (tr_remove_min ko S Tr C t) (tr_remove_min ko S' Tr' C' t').
  Proof.
    intros H. unfold tr_remove_min. start t t' H; q; try done.
    eapply rres_bind; [apply (s_min XS), Hs|]. intros [h u] [h' u'] [E _]. cbn in E. subst h'.
    eapply rres_bind; [apply (cs_remove XC); [exact Hc|apply (s_remove_min XT)]|].
    intros [r [lo w]] [r' [lo' w']] [Hr [E Hw]]. cbn in Hr, E, Hw. subst lo'.
    eapply rres_bind; [apply after_end_sim; [exact Hs|exact Hr|apply (s_remove_min XS)]|]. intros ch ch' Hch. done.
  Qed.
  Lemma tree_remove_max_sim t t' : tree_rel t t' -> rres (rtaken RV O O' tree_rel) (tr_remove_max ko S Tr C t) (tr_remove_max ko S' Tr' C' t').
  Proof.
    intros H. unfold tr_remove_max. start t t' H; q; try done.
    eapply rres_bind; [apply (s_max XS), Hs|]. intros [h u] [h' u'] [E _]. cbn in E. subst h'.
    eapply rres_bind; [apply (cs_remove XC); [exact Hc|apply (s_remove_max XT)]|].
    intros [r [lo w]] [r' [lo' w']] [Hr [E Hw]]. cbn in Hr, E, Hw. subst lo'.
    eapply rres_bind; [apply after_end_sim; [exact Hs|exact Hr|apply (s_remove_max XS)]|]. intros ch ch' Hch. done.
  Qed.
  Lemma tree_remove_sim t t' k : tree_rel t t' -> rres (rresult (rtaken RV O O' tree_rel) tree_rel) (tr_remove ko S Tr C t k) (tr_remove ko S' Tr' C' t' k).
  Proof.
    intros H. assert (H0 := H). unfold tr_remove.
    assert (Em : fst (t_min t) = fst (t_min t')) by apply H. rewrite Em. same.
    { eapply rres_bind; [apply tree_remove_min_sim, H0|]. intros r r' Hr. done. }
    clear Em. start t t' H; q; try done; repeat (same; try done).
    - eapply rres_bind; [apply (s_max XS), Hs|]. intros [h u] [h' u'] [E _]. cbn in E. subst h'.
      eapply rres_bind; [apply (cs_remove XC); [exact Hc|apply (s_remove_max XT)]|].
      intros [r [lo w]] [r' [lo' w']] [Hr [E Hw]]. cbn in Hr, E, Hw. subst lo'.
      eapply rres_bind; [apply after_end_sim; [exact Hs|exact Hr|apply (s_remove_max XS)]|]. intros ch ch' Hch. done.
    - eapply rres_bind; [apply (cs_maybe XC); [exact Hc|intros; apply (s_remove XT); auto]|].
      intros [[oc [lo w]]|c1] [[oc' [lo' w']]|c1'] Hr; cbn in Hr; try contradiction; [|done].
      destruct Hr as [Hr [E Hw]]. cbn in Hr, E, Hw. subst lo'.
      destruct oc as [[c1 b]|], oc' as [[c1' b']|]; cbn in Hr; try contradiction; [|done].
      destruct Hr as [Hc1 E]. cbn in Hc1, E. subst b'. destruct b; [|done].
      eapply rres_bind; [apply (s_remove XS), Hs|]. intros rs rs' Hrs.
      eapply (rres_bind (rtaken eq S S' RS)).
      { destruct rs, rs'; cbn in Hrs; try contradiction; [done|apply rres_panic]. }
      intros [os u] [os' u'] [Ho _]. cbn in Ho. eapply rres_bind; [apply rres_expect, Ho|]. intros s1 s1' Hs1. done.
  Qed.

  Lemma tree_sim : Sim RV O O' tree_rel.
  Proof.
    constructor.
    - intros k v v' Hv. split; [split; [reflexivity|exact Hv]|exact I].
    - intros t t' H. start t t' H; apply rres_ret; reflexivity.
    - intros t t' H. assert (H0 := H). start t t' H; apply rres_ret; cbn; try exact H0; pr.
    - intros t t' H. apply rres_ret. apply H.
    - intros t t' H. apply rres_ret. destruct H as [H1 H2]. destruct (t_data t), (t_data t'); cbn in H2; try contradiction; [apply H2|exact H1].
    - intros t t' H. apply rres_ret. apply min_mut_sim; auto.
    - intros t t' H. apply rres_ret. assert (H0 := H). destruct H as [H1 H2]. destruct (t_data t), (t_data t'); cbn in H2; try contradiction;
        [apply max_mut_sim; auto|apply min_mut_sim; auto].
    - exact tree_find_sim.
    - exact tree_pred_sim.
    - exact tree_succ_sim.
    - exact tree_find_mut_sim.
    - exact tree_pred_mut_sim.
    - exact tree_succ_mut_sim.
    - exact tree_insert_sim.
    - exact tree_remove_sim.
    - exact tree_remove_min_sim.
    - exact tree_remove_max_sim.
  Qed.
End TreeSim.
