(** Trees that are sorted maps simulate each other; a BTreeMap simulates a BTreeMap of related values. *)
From Verif Require Import Base Ints Spec Ops Boxed Lists Laws ByteSet ByteMap BTree ByteSetProofs ByteMapProofs BTreeProofs Hist HistProofs Sim.

Section SortedSim.
  Context {B' B : Build} (Hw : (@usize_bits B <= @usize_bits B')%N) {K V : Type} {cmp : K -> K -> comparison} (OL : OrdLaws cmp) {O O' : VebOps K V}
          (L : VebLaws (B := B) cmp O) (L' : VebLaws (B := B') cmp O').
  Context (Hsafe : forall t k, safe L t k) (Hsafe' : forall t k, safe L' t k).
  Context (Hsmall : forall t, winv L t -> ord L t -> (N.of_nat (length (ents L t)) < @usize_max B)%N).
  Definition both (t : vt O) (t' : vt O') : Prop := exists l, repr L t l /\ repr L' t' l.

  Lemma rp_refl (p : K * V) : rp eq p p.
  Proof. split; auto. Qed.
  Lemma orp_refl (o : option (K * V)) : ropt (rp eq) o o.
  Proof. destruct o; cbn; auto using rp_refl. Qed.
  Lemma bothO l (ot : option (vt O)) (ot' : option (vt O')) : reprO L ot l -> reprO L' ot' l -> ropt both ot ot'.
  Proof.
    destruct ot as [t|], ot' as [t'|]; cbn; intros H H'; auto.
    - exists l. auto.
    - subst. elim (repr_ne L t _ H eq_refl).
    - subst. elim (repr_ne L' t' _ H' eq_refl).
  Qed.
  Lemma both_lens t t' l p put put' : repr L t l -> repr L' t' l ->
    lens_ok (winv L) (ord L) (ents L) t p put -> lens_ok (winv L') (ord L') (ents L') t' p put' -> rlens eq O O' both (p, put) (p, put').
  Proof.
    intros H H' Hl Hl'. split; [apply rp_refl|]. intros w w' <-. exists (sp_write cmp (fst p) w l).
    split; [apply (repr_lens OL L t)|apply (repr_lens OL L' t')]; auto.
  Qed.
  Lemma both_mut1 t t' l p (m : res (K * V * (V -> vt O))) (m' : res (K * V * (V -> vt O'))) i i' : repr L t l -> repr L' t' l ->
    mut1_ok (winv L) (ord L) (ents L) t m i -> mut1_ok (winv L') (ord L') (ents L') t' m' i' -> i = Ret p -> i' = Ret p ->
    rres (rlens eq O O' both) m m'.
  Proof.
    intros H H' [q [put [E [E1 H1]]]] [q' [put' [E' [E1' H1']]]] Hi Hi'. assert (q = p) by congruence. assert (q' = p) by congruence. subst q q' m m'.
    apply rres_ret. eapply both_lens; eauto.
  Qed.
  Lemma both_mut t t' l o (m : res (option (K * V * (V -> vt O)))) (m' : res (option (K * V * (V -> vt O')))) i i' : repr L t l -> repr L' t' l ->
    mut_ok (winv L) (ord L) (ents L) t m i -> mut_ok (winv L') (ord L') (ents L') t' m' i' -> i = Ret o -> i' = Ret o ->
    rres (ropt (rlens eq O O' both)) m m'.
  Proof.
    intros H H' [q [E [E1 H1]]] [q' [E' [E1' H1']]] Hi Hi'. subst m m'. apply rres_ret.
    assert (Eo : omap fst q = omap fst q') by congruence. destruct q as [[p put]|], q' as [[p' put']|]; cbn in Eo; try discriminate; [|exact I].
    injection Eo as <-. eapply both_lens; eauto.
  Qed.

  Lemma sorted_sim : Sim eq O O' both.
  Proof.
    constructor.
    - intros k v v' <-. exists [(k, v)]. split; apply repr_from.
    - intros t t' [l [H H']]. rewrite (repr_is_monad L t l H), (repr_is_monad L' t' l H'). apply rres_ret. auto.
    - intros t t' [l [H H']]. rewrite (repr_into_monad L t l H), (repr_into_monad L' t' l H'). apply rres_ret.
      destruct l as [|p [|q l]].
      + exists []. auto.
      + apply rp_refl.
      + exists (p :: q :: l). auto.
    - intros t t' [l [H H']]. destruct (repr_min OL L t l H) as [p [-> E]], (repr_min OL L' t' l H') as [p' [-> E']].
      apply rres_ret. assert (p = p') by congruence. subst. apply rp_refl.
    - intros t t' [l [H H']]. destruct (repr_max OL L t l H) as [p [-> E]], (repr_max OL L' t' l H') as [p' [-> E']].
      apply rres_ret. assert (p = p') by congruence. subst. apply rp_refl.
    - intros t t' [l [H H']]. destruct (repr_min OL L t l H) as [p [Ep E]], (repr_min OL L' t' l H') as [p' [Ep' E']].
      assert (p = p') by congruence. subst. eapply both_mut1; [exact H|exact H'|apply (L_min_mut L), H|apply (L_min_mut L'), H'|eauto|eauto].
    - intros t t' [l [H H']]. destruct (repr_max OL L t l H) as [p [Ep E]], (repr_max OL L' t' l H') as [p' [Ep' E']].
      assert (p = p') by congruence. subst. eapply both_mut1; [exact H|exact H'|apply (L_max_mut L), H|apply (L_max_mut L'), H'|eauto|eauto].
    - intros t t' k [l [H H']]. rewrite (repr_find OL L t l k H), (repr_find OL L' t' l k H'). apply rres_ret, orp_refl.
    - intros t t' k [l [H H']]. rewrite (repr_pred OL L t l k H), (repr_pred OL L' t' l k H'). apply rres_ret, orp_refl.
    - intros t t' k [l [H H']]. rewrite (repr_succ OL L t l k H), (repr_succ OL L' t' l k H'). apply rres_ret, orp_refl.
    - intros t t' k [l [H H']]. eapply both_mut; [exact H|exact H'|apply (L_find_mut L); apply H|apply (L_find_mut L'); apply H'|apply (repr_find OL L), H|apply (repr_find OL L'), H'].
    - intros t t' k [l [H H']]. eapply both_mut; [exact H|exact H'|apply (L_pred_mut L); apply H|apply (L_pred_mut L'); apply H'|apply (repr_pred OL L), H|apply (repr_pred OL L'), H'].
    - intros t t' k [l [H H']]. eapply both_mut; [exact H|exact H'|apply (L_succ_mut L); apply H|apply (L_succ_mut L'); apply H'|apply (repr_succ OL L), H|apply (repr_succ OL L'), H'].
    - intros t t' k v v' [l [H H']] <-. assert (Hl : (N.of_nat (length l) < @usize_max B)%N) by (rewrite <- (repr_len L t l H); apply Hsmall; apply H).
      assert (Hl' : (N.of_nat (length l) < @usize_max B')%N) by (eapply N.lt_le_trans; [exact Hl|apply usize_max_mono, Hw]).
      destruct (repr_insert OL L t l k v H Hl (Hsafe t k)) as [t1 [E H1]], (repr_insert OL L' t' l k v H' Hl' (Hsafe' t' k)) as [t1' [E' H1']].
      rewrite E, E'. apply rres_ret. split; [exists (sp_insert cmp k v l); auto|apply orp_refl].
    - intros t t' k [l [H H']]. assert (H1 := repr_remove OL L t l k H). assert (H1' := repr_remove OL L' t' l k H').
      destruct (sp_find cmp k l) as [p|].
      + destruct H1 as [ot [E H1]], H1' as [ot' [E' H1']]. rewrite E, E'. apply rres_ret. split; [|apply rp_refl]. eapply bothO; eauto.
      + destruct H1 as [E H1], H1' as [E' H1']. rewrite E, E'. apply rres_ret. exists l. auto.
    - intros t t' [l [H H']]. destruct (repr_remove_min OL L t l H) as [ot [p [E [Ep H1]]]], (repr_remove_min OL L' t' l H') as [ot' [p' [E' [Ep' H1']]]].
      assert (p = p') by congruence. subst p'. rewrite E, E'. apply rres_ret. split; [|apply rp_refl]. eapply bothO; eauto.
    - intros t t' [l [H H']]. destruct (repr_remove_max OL L t l H) as [ot [p [E [Ep H1]]]], (repr_remove_max OL L' t' l H') as [ot' [p' [E' [Ep' H1']]]].
      assert (p = p') by congruence. subst p'. rewrite E, E'. apply rres_ret. split; [|apply rp_refl]. eapply bothO; eauto.
  Qed.
End SortedSim.

Section BTreeSim.
  Context {K V V' : Type} (RV : V -> V' -> Prop) (cmp : K -> K -> comparison).
  Notation rl := (Forall2 (rp (K := K) RV)).
  Notation O := (BTree_ops V cmp).
  Notation O' := (BTree_ops V' cmp).
  Ltac ind := let H := fresh in intros H; induction H as [|[k0 v0] [k0' v0'] m m' [E Hv] Hm IH]; cbn; [|cbn in E, Hv; subst k0'].
  Lemma get_rl m m' k : rl m m' -> ropt (rp RV) (map_get cmp m k) (map_get cmp m' k).
  Proof. ind; [exact I|]. destruct (cmp k k0); try exact I; auto. split; auto. Qed.
  Lemma insert_rl m m' k v v' : RV v v' -> rl m m' -> rl (map_insert cmp m k v) (map_insert cmp m' k v').
  Proof. intros Hw. ind. - constructor; auto. split; auto. - destruct (cmp k k0); repeat (constructor; auto); split; auto. Qed.
  Lemma del_rl m m' k : rl m m' -> rl (map_del cmp m k) (map_del cmp m' k).
  Proof. ind; [constructor|]. destruct (cmp k k0); auto; repeat (constructor; auto); split; auto. Qed.
  Lemma back_rl m m' k : rl m m' -> ropt (rp RV) (map_range_to_back cmp m k) (map_range_to_back cmp m' k).
  Proof.
    ind; [exact I|]. destruct (cmp k0 k); try exact I. destruct (map_range_to_back cmp m k), (map_range_to_back cmp m' k); cbn in IH; try contradiction; auto.
    split; auto.
  Qed.
  Lemma from_rl m m' k : rl m m' -> ropt (rp RV) (map_range_from cmp m k) (map_range_from cmp m' k).
  Proof. ind; [exact I|]. destruct (cmp k k0); try exact I; auto. split; auto. Qed.
  Lemma incl_rl m m' k : rl m m' -> ropt (rp RV) (map_range_incl cmp m k) (map_range_incl cmp m' k).
  Proof. ind; [exact I|]. destruct (cmp k0 k); try exact I; auto. split; auto. Qed.
  Lemma put_rl m m' k v v' : RV v v' -> rl m m' -> rl (map_put cmp m k v) (map_put cmp m' k v').
  Proof. intros Hw. ind; [constructor|]. destruct (cmp k k0); repeat (constructor; auto); split; auto. Qed.
  Lemma last_rl m m' : rl m m' -> ropt (rp RV) (map_last m) (map_last m').
  Proof. ind; [exact I|]. destruct (map_last m), (map_last m'); cbn in IH; try contradiction; auto. split; auto. Qed.
  Lemma init_rl m m' : rl m m' -> rl (map_init m) (map_init m').
  Proof. ind; [constructor|]. destruct Hm; constructor; auto. split; auto. Qed.
  Lemma hd_rl m m' : rl m m' -> ropt (rp RV) (hd_error m) (hd_error m').
  Proof. ind; [exact I|]. split; auto. Qed.
  Lemma tl_rl m m' : rl m m' -> rl (tl m) (tl m').
  Proof. ind; auto. Qed.
  Lemma some_rl m m' : rl m m' -> ropt rl (if is_nil m then None else Some m) (if is_nil m' then None else Some m').
  Proof. intros H. destruct H; cbn; auto. Qed.
  Lemma monad_rl m m' : rl m m' -> rres eq (bt_is_monad m) (bt_is_monad m').
  Proof. intros H. apply rres_ret. assert (E : length m = length m') by (induction H; cbn; congruence). rewrite E. auto. Qed.
  Lemma put_lens m m' p p' : rl m m' -> rp RV p p' -> rlens RV O O' rl (with_put cmp m p) (with_put cmp m' p').
  Proof. intros H Hp. split; [exact Hp|]. intros w w' Hw. destruct Hp as [E _]. cbn. rewrite <- E. apply put_rl; auto. Qed.
  Lemma opt_lens m m' o o' : rl m m' -> ropt (rp RV) o o' -> ropt (rlens RV O O' rl) (opt_put cmp m o) (opt_put cmp m' o').
  Proof. intros H Ho. destruct o, o'; cbn in Ho; try contradiction; [|exact I]. apply put_lens; auto. Qed.
  Lemma expect_lens m m' o o' : rl m m' -> ropt (rp RV) o o' ->
    rres (rlens RV O O' rl) (p <- expect o ;; Ret (with_put cmp m p)) (p <- expect o' ;; Ret (with_put cmp m' p)).
  Proof. intros H Ho. eapply rres_bind; [apply rres_expect, Ho|]. intros p p' Hp. apply rres_ret. apply put_lens; auto. Qed.

  Lemma btree_sim : Sim RV O O' rl.
  Proof.
    constructor.
    - intros k v v' Hv. cbn. constructor; auto. split; auto.
    - intros t t' H. apply monad_rl; auto.
    - intros t t' H. eapply rres_bind; [apply monad_rl, H|]. intros b b' <-. destruct b; [|apply rres_ret; exact H].
      eapply rres_bind; [apply rres_expect, hd_rl, H|]. intros p p' Hp. apply rres_ret. exact Hp.
    - intros t t' H. apply rres_expect, hd_rl, H.
    - intros t t' H. apply rres_expect, last_rl, H.
    - intros t t' H. apply expect_lens; auto. apply hd_rl, H.
    - intros t t' H. apply expect_lens; auto. apply last_rl, H.
    - intros t t' k H. apply rres_ret, get_rl, H.
    - intros t t' k H. apply rres_ret, back_rl, H.
    - intros t t' k H. apply rres_ret, from_rl, H.
    - intros t t' k H. apply rres_ret, opt_lens; auto. apply incl_rl, H.
    - intros t t' k H. apply rres_ret, opt_lens; auto. apply back_rl, H.
    - intros t t' k H. apply rres_ret, opt_lens; auto. apply from_rl, H.
    - intros t t' k v v' H Hv. apply rres_ret. assert (Hg := get_rl t t' k H).
      destruct (map_get cmp t k) as [[a b]|], (map_get cmp t' k) as [[a' b']|]; cbn in Hg; try contradiction.
      + destruct Hg as [E Hb]. cbn in E, Hb. subst a'. split; [apply put_rl; auto|]. split; auto.
      + split; [apply insert_rl; auto|exact I].
    - intros t t' k H. eapply rres_bind; [apply monad_rl, H|]. intros b b' <-. apply rres_ret. assert (Hg := get_rl t t' k H).
      destruct (map_get cmp t k) as [p|], (map_get cmp t' k) as [p'|]; cbn in Hg; try contradiction.
      + destruct b; split; auto; cbn; auto. apply del_rl, H.
      + destruct b; exact H.
    - intros t t' H. eapply rres_bind; [apply rres_expect, hd_rl, H|]. intros p p' Hp. apply rres_ret. split; [|exact Hp]. cbn. apply some_rl, tl_rl, H.
    - intros t t' H. eapply rres_bind; [apply rres_expect, last_rl, H|]. intros p p' Hp. apply rres_ret. split; [|exact Hp]. cbn. apply some_rl, init_rl, H.
  Qed.
End BTreeSim.
