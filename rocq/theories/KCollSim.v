(** Collections and [BTreeMap] up to a relation between keys: entry by entry. *)
From Verif Require Import Base Ints Spec Ops ByteSet ByteMap Coll Boxed BTree Sim KSim.

Ltac bs := match goal with
  | |- both _ (Ret _) (Ret _) => apply both_ret
  | |- both _ Panic Panic => exact I
  | |- both _ (bind ?m _) (bind ?m _) => eapply (both_bind eq); [apply both_refl; reflexivity|]; intros ? ? <-
  end.

Section Lists.
  Context {A A' : Type} {R : A -> A' -> Prop}.
  Lemma f2_nth l l' n : Forall2 R l l' -> ropt R (nth_error l n) (nth_error l' n).
  Proof. intros H. revert n. induction H; intros [|n]; cbn; auto. Qed.
  Lemma f2_set l l' n a a' : Forall2 R l l' -> R a a' -> Forall2 R (list_set l n a) (list_set l' n a').
  Proof. intros H Ha. revert n. induction H; intros [|n]; cbn; constructor; auto. Qed.
  Lemma f2_length l l' : Forall2 R l l' -> length l = length l'.
  Proof. intros H. induction H; cbn; auto. Qed.
  Lemma f2_firstn l l' n : Forall2 R l l' -> Forall2 R (firstn n l) (firstn n l').
  Proof. intros H. revert n. induction H; intros [|n]; cbn; constructor; auto. Qed.
  Lemma f2_skipn l l' n : Forall2 R l l' -> Forall2 R (skipn n l) (skipn n l').
  Proof. intros H. revert n. induction H; intros [|n]; cbn; auto. Qed.
  Lemma f2_app l l' m m' : Forall2 R l l' -> Forall2 R m m' -> Forall2 R (l ++ m) (l' ++ m').
  Proof. intros H. induction H; cbn; auto. Qed.
  Lemma f2_nil l l' : Forall2 R l l' -> is_nil l = is_nil l'.
  Proof. intros []; reflexivity. Qed.
  Lemma f2_del l l' n : Forall2 R l l' -> Forall2 R (list_del l n) (list_del l' n).
  Proof. intros H. apply f2_app; [apply f2_firstn, H|apply f2_skipn, H]. Qed.
  Lemma f2_replace l l' n o o' : Forall2 R l l' -> ropt R o o' -> Forall2 R (replace_at l n o) (replace_at l' n o').
  Proof. intros H Ho. destruct o, o'; cbn in Ho; try contradiction; cbn; [apply f2_set; auto|apply f2_del; auto]. Qed.
  Lemma f2_get l l' n : Forall2 R l l' -> both R (vd_get l n) (vd_get l' n).
  Proof. intros H. apply both_expect, f2_nth, H. Qed.
  Lemma f2_get_mut l l' n : Forall2 R l l' -> both (rprod R (rfun R (Forall2 R))) (vd_get_mut l n) (vd_get_mut l' n).
  Proof.
    intros H. eapply both_bind; [apply f2_get, H|]. intros a a' Ha. apply both_ret. split; [exact Ha|]. intros b b' Hb. apply f2_set; auto.
  Qed.
  Lemma f2_insert l l' n a a' : Forall2 R l l' -> R a a' -> both (Forall2 R) (vd_insert l n a) (vd_insert l' n a').
  Proof.
    intros H Ha. unfold vd_insert. rewrite (f2_length _ _ H). destruct (_ <=? _)%N; [|exact I]. cbn [both].
    apply f2_app; [apply f2_firstn, H|]. constructor; [exact Ha|apply f2_skipn, H].
  Qed.
End Lists.

Lemma is_none_rel {A A'} (R : A -> A' -> Prop) o o' : ropt R o o' -> is_none o = is_none o'.
Proof. destruct o, o'; cbn; tauto. Qed.

Section Colls.
  Context {Bd : Build}.
  Context {Lo Lo' V : Type} {RL : Lo -> Lo' -> Prop} {Tr : VebOps Lo V} {Tr' : VebOps Lo' V} {RT : vt Tr -> vt Tr' -> Prop}
    (XT : KSim RL Tr Tr' RT).

  Section Array.
    Context {Hi Hi' : Type} {RH : Hi -> Hi' -> Prop} {ix : IdxOps Hi} {ix' : IdxOps Hi'}.
    Context (Hcard : i_card ix = i_card ix') (Hidx : forall h h', RH h h' -> i_index ix h = i_index ix' h').
    Definition karr_rel (c : ct (Array_coll ix Tr)) (c' : ct (Array_coll ix' Tr')) : Prop :=
      Forall2 (ropt RT) (ac_array c) (ac_array c') /\ ac_count c = ac_count c'.
    Lemma koa_get (a : list (option (vt Tr))) a' n : Forall2 (ropt RT) a a' -> both (ropt RT) (oa_get a n) (oa_get a' n).
    Proof. intros H. apply both_expect, f2_nth, H. Qed.
    Lemma koa_set (a : list (option (vt Tr))) a' n o o' : Forall2 (ropt RT) a a' -> ropt RT o o' ->
      both (Forall2 (ropt RT)) (oa_set a n o) (oa_set a' n o').
    Proof. intros H Ho. eapply both_bind; [apply koa_get, H|]. intros. apply both_ret, f2_set; auto. Qed.
    Lemma kac_store a a' n h h' ot ot' : Forall2 (ropt RT) a a' -> RH h h' -> ropt RT ot ot' ->
      both (ropt (rprod karr_rel eq)) (ac_store ix Tr a n h ot) (ac_store ix' Tr' a' n h' ot').
    Proof.
      intros Ha Hh Ho. unfold ac_store. rewrite (is_none_rel _ _ _ Ho), (Hidx _ _ Hh). bs.
      eapply both_bind; [apply koa_set; eassumption|]. intros b b' Hb. apply both_ret. destruct (_ =? 0)%N; cbn; auto.
      split; [split; [exact Hb|reflexivity]|reflexivity].
    Qed.
    Lemma karray : KCSim RH RL RT (Array_coll ix Tr) (Array_coll ix' Tr') karr_rel.
    Proof.
      constructor; cbn [Array_coll ct c_create c_get c_get_mut c_insert_key c_remove_key c_maybe_remove_key].
      - intros h h' t t' Hh Ht. unfold ac_create. rewrite Hcard, (Hidx _ _ Hh).
        eapply both_bind; [apply koa_set|]. { unfold oa_create. induction (N.to_nat (card_usize (i_card ix'))); cbn; constructor; auto. exact I. }
        { exact Ht. } intros a a' Ha. apply both_ret. split; [exact Ha|reflexivity].
      - intros c c' h h' [Ha _] Hh. unfold ac_get. rewrite (Hidx _ _ Hh). apply koa_get, Ha.
      - intros c c' h h' [Ha Hn] Hh. unfold ac_get_mut. rewrite (Hidx _ _ Hh). eapply both_bind; [apply koa_get, Ha|].
        intros [t|] [t'|] Ht; cbn in Ht; try contradiction; apply both_ret; cbn; auto. split; [exact Ht|].
        intros b b' Hb. split; [apply f2_set; auto|exact Hn].
      - intros c c' h h' [l v] [l' v'] [Ha Hn] Hh [Hl Hv]. cbn in Hl, Hv. subst v'. unfold ac_insert_key. rewrite (Hidx _ _ Hh), Hn. cbn [fst snd].
        eapply both_bind; [apply koa_get, Ha|]. intros [t|] [t'|] Ht; cbn in Ht; try contradiction.
        + eapply both_bind; [apply (q_insert XT); eassumption|]. intros [t1 o] [t1' o'] [Ht1 Ho]. cbn in Ht1, Ho.
          eapply both_bind; [apply koa_set; [exact Ha|exact Ht1]|]. intros a a' Ha'. apply both_ret. split; [split; [exact Ha'|reflexivity]|].
          cbn. split; auto.
        + eapply both_bind; [apply koa_set; [exact Ha|apply (q_from XT), Hl]|]. intros a a' Ha'. bs. bs.
          split; [split; [exact Ha'|reflexivity]|exact Hh].
      - intros c c' h h' f f' [Ha Hn] Hh Hf. unfold ac_remove_key. rewrite (Hidx _ _ Hh), Hn.
        eapply both_bind; [apply koa_get, Ha|]. intros o o' Ho. eapply both_bind; [apply koa_set; [exact Ha|exact I]|].
        intros a a' Ha'. eapply both_bind; [apply both_expect, Ho|]. intros t t' Ht. eapply both_bind; [apply Hf, Ht|].
        intros [ot p] [ot' p'] [H1 H2]. eapply both_bind; [apply kac_store; eassumption|]. intros r r' Hr. apply both_ret. split; auto.
      - intros c c' h h' f f' [Ha Hn] Hh Hf. unfold ac_maybe_remove_key. rewrite (Hidx _ _ Hh), Hn.
        eapply both_bind; [apply koa_get, Ha|]. intros o o' Ho. eapply both_bind; [apply koa_set; [exact Ha|exact I]|].
        intros a a' Ha'. destruct o as [t|], o' as [t'|]; cbn in Ho; try contradiction; [|bs; split; [exact Ha'|reflexivity]].
        eapply both_bind; [apply Hf, Ho|]. intros [[ot p]|t1] [[ot' p']|t1'] Hr; cbn in Hr; try contradiction.
        + destruct Hr as [H1 H2]. eapply both_bind; [apply kac_store; eassumption|]. intros r r' Hr. apply both_ret. split; auto.
        + eapply both_bind; [apply koa_set; [exact Ha'|exact Hr]|]. intros b b' Hb. apply both_ret. split; [exact Hb|reflexivity].
    Qed.
  End Array.

  Section Hash.
    Context {Hi Hi' : Type} {RH : Hi -> Hi' -> Prop} {e : Hi -> Hi -> bool} {e' : Hi' -> Hi' -> bool}.
    Context (He : forall a a' b b', RH a a' -> RH b b' -> e a b = e' a' b').
    Definition khash_rel : ct (Hash_coll e Tr) -> ct (Hash_coll e' Tr') -> Prop := Forall2 (rprod RH RT).
    Lemma khm_get m m' h h' : khash_rel m m' -> RH h h' -> ropt RT (hm_get e m h) (hm_get e' m' h').
    Proof.
      intros H Hh. induction H as [|[a t] [a' t'] m m' [Ha Ht] H IH]; cbn [hm_get]; [exact I|]. cbn in Ha, Ht.
      rewrite (He _ _ _ _ Hh Ha). destruct (e' h' a'); auto.
    Qed.
    Lemma khm_set m m' h h' t t' : khash_rel m m' -> RH h h' -> RT t t' -> khash_rel (hm_set e m h t) (hm_set e' m' h' t').
    Proof.
      intros H Hh Hx. induction H as [|[a b] [a' b'] m m' [Ha Hb] H IH]; cbn [hm_set]; [constructor|]. cbn in Ha, Hb.
      rewrite (He _ _ _ _ Hh Ha). destruct (e' h' a'); constructor; auto; split; auto.
    Qed.
    Lemma khm_del m m' h h' : khash_rel m m' -> RH h h' -> khash_rel (hm_del e m h) (hm_del e' m' h').
    Proof.
      intros H Hh. induction H as [|[a b] [a' b'] m m' [Ha Hb] H IH]; cbn [hm_del]; [constructor|]. cbn in Ha, Hb.
      rewrite (He _ _ _ _ Hh Ha). destruct (e' h' a'); auto. constructor; auto; split; auto.
    Qed.
    Lemma khm_replace m m' h h' o o' : khash_rel m m' -> RH h h' -> ropt RT o o' -> khash_rel (hm_replace e m h o) (hm_replace e' m' h' o').
    Proof. intros H Hh Ho. destruct o, o'; cbn in Ho; try contradiction; [apply khm_set; auto|apply khm_del; auto]. Qed.
    Lemma khash : KCSim RH RL RT (Hash_coll e Tr) (Hash_coll e' Tr') khash_rel.
    Proof.
      constructor; cbn [Hash_coll ct c_create c_get c_get_mut c_insert_key c_remove_key c_maybe_remove_key].
      - intros h h' t t' Hh Ht. unfold hc_create. assert (H : khash_rel [(h, t)] [(h', t')]) by (constructor; [split; auto|constructor]).
        rewrite (is_none_rel _ _ _ (khm_get _ _ _ _ H Hh)). cbn [length]. bs. bs. bs. exact H.
      - intros c c' h h' H Hh. apply both_ret, khm_get; auto.
      - intros c c' h h' H Hh. unfold hc_get_mut. pose proof (khm_get _ _ _ _ H Hh) as Ho.
        destruct (hm_get e c h), (hm_get e' c' h'); cbn in Ho; try contradiction; apply both_ret; [|exact I]. split; [exact Ho|].
        intros b b' Hb. apply khm_set; auto.
      - intros c c' h h' [l v] [l' v'] H Hh [Hl Hv]. cbn in Hl, Hv. subst v'. unfold hc_insert_key. cbn [fst snd].
        pose proof (khm_get _ _ _ _ H Hh) as Ho. destruct (hm_get e c h), (hm_get e' c' h'); cbn in Ho; try contradiction.
        + eapply both_bind; [apply (q_insert XT); eassumption|]. intros [t1 o] [t1' o'] [Ht1 Ho']. apply both_ret.
          split; [apply khm_set; auto|split; auto].
        + apply both_ret. split; [constructor; [split; [exact Hh|apply (q_from XT), Hl]|exact H]|exact Hh].
      - intros c c' h h' f f' H Hh Hf. unfold hc_remove_key. pose proof (khm_get _ _ _ _ H Hh) as Ho.
        destruct (hm_get e c h), (hm_get e' c' h'); cbn in Ho; try contradiction; [|exact I].
        eapply both_bind; [apply Hf, Ho|]. intros [ot p] [ot' p'] [H1 H2]. cbn in H1, H2. bs.
        pose proof (khm_replace _ _ _ _ _ _ H Hh H1) as Hm. rewrite (f2_nil _ _ Hm), (is_none_rel _ _ _ H1).
        destruct (is_nil (hm_replace e' c' h' ot')); split; cbn; auto. split; auto.
      - intros c c' h h' f f' H Hh Hf. unfold hc_maybe_remove_key. pose proof (khm_get _ _ _ _ H Hh) as Ho.
        destruct (hm_get e c h), (hm_get e' c' h'); cbn in Ho; try contradiction; [|apply both_ret; exact H].
        eapply both_bind; [apply Hf, Ho|]. intros [[ot p]|t1] [[ot' p']|t1'] Hr; cbn in Hr; try contradiction.
        + destruct Hr as [H1 H2]. cbn in H1, H2. pose proof (khm_replace _ _ _ _ _ _ H Hh H1) as Hm.
          rewrite (f2_nil _ _ Hm), (is_none_rel _ _ _ H1).
          destruct (is_nil (hm_replace e' c' h' ot')); bs; split; cbn; auto. split; auto.
        + assert (Hm : khash_rel (hm_replace e c h (Some t1)) (hm_replace e' c' h' (Some t1'))) by (apply khm_replace; auto).
          rewrite (f2_nil _ _ Hm). destruct (is_nil (hm_replace e' c' h' (Some t1'))); [exact I|bs; exact Hm].
    Qed.
  End Hash.

  Section Bytes.
    Definition kbytes_rel (c : ct (ByteMap_coll Tr)) (c' : ct (ByteMap_coll Tr')) : Prop :=
      bm_set c = bm_set c' /\ Forall2 RT (bm_list c) (bm_list c').
    Lemma kbc_after c c' k l l' b : kbytes_rel c c' -> Forall2 RT l l' -> both (rprod kbytes_rel eq) (bc_after Tr c k l b) (bc_after Tr' c' k l' b).
    Proof.
      intros [Hs _] Hl. unfold bc_after. rewrite Hs. destruct b; [bs|]; bs; split; try reflexivity; split; auto.
    Qed.
    Lemma kbytes : KCSim eq RL RT (ByteMap_coll Tr) (ByteMap_coll Tr') kbytes_rel.
    Proof.
      constructor; cbn [ByteMap_coll ct c_create c_get c_get_mut c_insert_key c_remove_key c_maybe_remove_key].
      - intros h h' t t' <- Ht. apply both_ret. split; [reflexivity|]. repeat constructor. exact Ht.
      - intros c c' h h' [Hs Hl] <-. unfold bc_get. rewrite Hs. destruct (negb _); [apply both_ret; exact I|].
        eapply both_bind; [apply f2_get, Hl|]. intros t t' Ht. apply both_ret. exact Ht.
      - intros c c' h h' [Hs Hl] <-. unfold bc_get_mut. rewrite Hs. destruct (negb _); [apply both_ret; exact I|].
        eapply both_bind; [apply (f2_get_mut (R := RT)), Hl|]. intros [t p] [t' p'] [Ht Hp]. apply both_ret. split; [exact Ht|].
        intros b b' Hb. split; [exact Hs|]. apply Hp, Hb.
      - intros c c' h h' [l v] [l' v'] [Hs Hl] <- [Hlo Hv]. cbn in Hlo, Hv. subst v'. unfold bc_insert_key. rewrite Hs. cbn [fst snd].
        eapply (both_bind eq); [apply both_refl; reflexivity|]. intros [set r] y <-. destruct r.
        + eapply both_bind; [apply (f2_get_mut (R := RT)), Hl|]. intros [t put] [t' put'] [Ht Hp]. cbn in Ht, Hp.
          eapply both_bind; [apply (q_insert XT); eassumption|]. intros [t1 o] [t1' o'] [Ht1 Ho]. apply both_ret.
          split; [split; [reflexivity|apply Hp, Ht1]|split; auto].
        + eapply both_bind; [apply (f2_insert (R := RT)); [exact Hl|apply (q_from XT), Hlo]|]. intros a a' Ha. apply both_ret.
          split; [split; [reflexivity|exact Ha]|reflexivity].
      - intros c c' h h' f f' Hc <- Hf. assert (Hc0 := Hc). destruct Hc as [Hs Hl]. unfold bc_remove_key. rewrite Hs. bs. bs.
        eapply (both_bind (rprod (ropt (rprod (Forall2 RT) eq)) (kp RL))).
        { unfold tl_remove_key. eapply both_bind; [apply f2_get, Hl|]. intros t t' Ht. eapply both_bind; [apply Hf, Ht|].
          intros [ot p] [ot' p'] [H1 H2]. cbn in H1, H2.
          pose proof (f2_replace _ _ (N.to_nat (count_below (bm_set c') h)) _ _ Hl H1) as Hr. rewrite (f2_nil _ _ Hr), (is_none_rel _ _ _ H1).
          destruct (is_nil _); [bs; bs; split; [exact I|exact H2]|]. bs. split; [split; [exact Hr|reflexivity]|exact H2]. }
        intros [[[l b]|] p] [[[l' b']|] p'] [H1 H2]; cbn in H1, H2; try contradiction.
        + destruct H1 as [H1 E]. cbn in H1, E. subst b'. eapply both_bind; [apply kbc_after; eassumption|].
          intros x x' Hx. apply both_ret. split; auto.
        + apply both_ret. split; auto.
      - intros c c' h h' f f' Hc <- Hf. assert (Hc0 := Hc). destruct Hc as [Hs Hl]. unfold bc_maybe_remove_key. rewrite Hs. bs.
        destruct (is_none _); [apply both_ret; exact Hc0|].
        eapply (both_bind (rresult (rprod (ropt (rprod (Forall2 RT) eq)) (kp RL)) (Forall2 RT))).
        { unfold tl_maybe_remove_key. eapply both_bind; [apply f2_get, Hl|]. intros t t' Ht. eapply both_bind; [apply Hf, Ht|].
          intros [[ot p]|t1] [[ot' p']|t1'] Hr; cbn in Hr; try contradiction.
          - destruct Hr as [H1 H2]. cbn in H1, H2.
            pose proof (f2_replace _ _ (N.to_nat (count_below (bm_set c') h)) _ _ Hl H1) as Hr. rewrite (f2_nil _ _ Hr), (is_none_rel _ _ _ H1).
            destruct (is_nil _); [bs; bs; split; [exact I|exact H2]|]. bs. split; [split; [exact Hr|reflexivity]|exact H2].
          - bs. apply f2_set; auto. }
        intros [[[[l b]|] p]|l] [[[[l' b']|] p']|l'] Hr; cbn in Hr; try contradiction; try (destruct Hr as [[] _]; fail).
        + destruct Hr as [[H1 E] H2]. cbn in H1, E. subst b'. eapply both_bind; [apply kbc_after; eassumption|].
          intros x x' Hx. apply both_ret. split; auto.
        + apply both_ret. split; [exact I|apply Hr].
        + apply both_ret. split; [reflexivity|exact Hr].
    Qed.
  End Bytes.

  Section BoxC.
    Context {Hi Hi' : Type} {RH : Hi -> Hi' -> Prop} {C : CollOps Hi Lo V Tr} {C' : CollOps Hi' Lo' V Tr'} {RC : ct C -> ct C' -> Prop}
      (XC : KCSim RH RL RT C C' RC).
    Definition kboxc_rel (c : ct (Box_coll C)) (c' : ct (Box_coll C')) : Prop := RC (unbox c) (unbox c').
    Lemma kbox_cb p p' : kleft RL C C' RC p p' -> kleft RL (Box_coll C) (Box_coll C') kboxc_rel (box_cb C p) (box_cb C' p').
    Proof. destruct p as [[[c b]|] p], p' as [[[c' b']|] p']; intros [H1 H2]; cbn in H1; try contradiction; split; auto. Qed.
    Lemma kboxc : KCSim RH RL RT (Box_coll C) (Box_coll C') kboxc_rel.
    Proof.
      constructor; cbn [Box_coll ct c_create c_get c_get_mut c_insert_key c_remove_key c_maybe_remove_key].
      - intros h h' t t' Hh Ht. eapply both_map; [apply (qc_create XC); eassumption|]. auto.
      - intros c c' h h' Hc Hh. apply (qc_get XC); auto.
      - intros c c' h h' Hc Hh. eapply both_map; [apply (qc_get_mut XC); eassumption|]. intros o o' Ho.
        eapply ropt_map; [exact Ho|]. intros [t p] [t' p'] [H1 H2]. split; [exact H1|]. intros b b' Hb. apply H2, Hb.
      - intros c c' h h' lv lv' Hc Hh Hl. eapply both_bind; [apply (qc_insert XC); eassumption|]. intros [x r] [x' r'] [H1 H2].
        apply both_ret. split; auto.
      - intros c c' h h' f f' Hc Hh Hf. eapply both_map; [apply (qc_remove XC); eassumption|]. exact kbox_cb.
      - intros c c' h h' f f' Hc Hh Hf. eapply both_bind; [apply (qc_maybe XC); eassumption|].
        intros [p|x] [p'|x'] H; cbn in H; try contradiction; apply both_ret; [apply kbox_cb, H|exact H].
    Qed.
  End BoxC.
End Colls.

Section BTree.
  Context {K K' V : Type} {RK : K -> K' -> Prop} {cmp : K -> K -> comparison} {cmp' : K' -> K' -> comparison}
    (Hcmp : forall a a' b b', RK a a' -> RK b b' -> cmp a b = cmp' a' b').
  Notation M := (vt (BTree_ops V cmp)).
  Notation M' := (vt (BTree_ops V cmp')).
  Definition kmap_rel : M -> M' -> Prop := Forall2 (kp RK).
  Ltac ind H := induction H as [|[a x] [a' x'] m m' [Ha Hx] H IH]; [cbn; auto; try constructor|cbn in Ha, Hx; subst x'].
  Ltac ksplit := repeat match goal with |- Forall2 _ (_ :: _) (_ :: _) => constructor | |- kp _ _ _ => split; cbn; auto end; auto.
  Lemma kmap_get m m' k k' : kmap_rel m m' -> RK k k' -> ropt (kp RK) (map_get cmp m k) (map_get cmp' m' k').
  Proof. intros H Hk. ind H. cbn [map_get]. rewrite (Hcmp _ _ _ _ Hk Ha). destruct (cmp' k' a'); cbn; auto. split; auto. Qed.
  Lemma kmap_insert m m' k k' v : kmap_rel m m' -> RK k k' -> kmap_rel (map_insert cmp m k v) (map_insert cmp' m' k' v).
  Proof.
    intros H Hk. unfold kmap_rel in *. ind H; try (split; auto; fail); try (constructor; fail).
    cbn [map_insert]. rewrite (Hcmp _ _ _ _ Hk Ha). destruct (cmp' k' a'); ksplit.
  Qed.
  Lemma kmap_del m m' k k' : kmap_rel m m' -> RK k k' -> kmap_rel (map_del cmp m k) (map_del cmp' m' k').
  Proof. intros H Hk. unfold kmap_rel in *. ind H. cbn [map_del]. rewrite (Hcmp _ _ _ _ Hk Ha). destruct (cmp' k' a'); ksplit. Qed.
  Lemma kmap_put m m' k k' v : kmap_rel m m' -> RK k k' -> kmap_rel (map_put cmp m k v) (map_put cmp' m' k' v).
  Proof. intros H Hk. unfold kmap_rel in *. ind H. cbn [map_put]. rewrite (Hcmp _ _ _ _ Hk Ha). destruct (cmp' k' a'); ksplit. Qed.
  Lemma kmap_to m m' k k' : kmap_rel m m' -> RK k k' -> ropt (kp RK) (map_range_to_back cmp m k) (map_range_to_back cmp' m' k').
  Proof.
    intros H Hk. ind H. cbn [map_range_to_back]. rewrite (Hcmp _ _ _ _ Ha Hk). destruct (cmp' a' k'); try exact I.
    destruct (map_range_to_back cmp m k), (map_range_to_back cmp' m' k'); cbn in IH |- *; try contradiction; auto. split; auto.
  Qed.
  Lemma kmap_from m m' k k' : kmap_rel m m' -> RK k k' -> ropt (kp RK) (map_range_from cmp m k) (map_range_from cmp' m' k').
  Proof. intros H Hk. ind H. cbn [map_range_from]. rewrite (Hcmp _ _ _ _ Hk Ha). destruct (cmp' k' a'); cbn; auto. split; auto. Qed.
  Lemma kmap_incl m m' k k' : kmap_rel m m' -> RK k k' -> ropt (kp RK) (map_range_incl cmp m k) (map_range_incl cmp' m' k').
  Proof. intros H Hk. ind H. cbn [map_range_incl]. rewrite (Hcmp _ _ _ _ Ha Hk). destruct (cmp' a' k'); cbn; auto. split; auto. Qed.
  Lemma kmap_last m m' : kmap_rel m m' -> ropt (kp RK) (map_last m) (map_last m').
  Proof.
    intros H. ind H. cbn [map_last]. destruct (map_last m), (map_last m'); cbn in IH |- *; try contradiction; auto. split; auto.
  Qed.
  Lemma kmap_init m m' : kmap_rel m m' -> kmap_rel (map_init m) (map_init m').
  Proof. intros H. unfold kmap_rel in *. ind H. destruct H; cbn [map_init] in *; constructor; auto. split; auto. Qed.
  Lemma khd m m' : kmap_rel m m' -> ropt (kp RK) (hd_error m) (hd_error m').
  Proof. intros []; cbn; auto. Qed.
  Lemma ktl m m' : kmap_rel m m' -> kmap_rel (tl m) (tl m').
  Proof. intros []; cbn; auto. constructor. Qed.
  Notation kl := (klens RK (BTree_ops V cmp) (BTree_ops V cmp') kmap_rel).
  Lemma kwith_put m m' p p' : kmap_rel m m' -> kp RK p p' -> kl (with_put cmp m p) (with_put cmp' m' p').
  Proof. intros H Hp. split; [exact Hp|]. intros v. apply kmap_put; [exact H|apply Hp]. Qed.
  Lemma kopt_put m m' o o' : kmap_rel m m' -> ropt (kp RK) o o' -> ropt kl (opt_put cmp m o) (opt_put cmp' m' o').
  Proof. intros H Ho. destruct o, o'; cbn in Ho |- *; try contradiction; auto. apply kwith_put; auto. Qed.
  Lemma kbtree : KSim RK (BTree_ops V cmp) (BTree_ops V cmp') kmap_rel.
  Proof.
    assert (Hlen : forall m m', kmap_rel m m' -> length m = length m') by (intros m m' H; exact (f2_length _ _ H)).
    constructor; cbn [BTree_ops vt v_from_monad v_is_monad v_into_monad v_min_val v_max_val v_min_val_mut v_max_val_mut v_find v_predecessor
      v_successor v_find_mut v_predecessor_mut v_successor_mut v_insert v_remove v_remove_min v_remove_max].
    - intros k k' v Hk. constructor; [split; auto|constructor].
    - intros t t' H. unfold bt_is_monad. rewrite (Hlen _ _ H). apply both_refl. reflexivity.
    - intros t t' H. unfold bt_into_monad, bt_is_monad. rewrite (Hlen _ _ H). bs. match goal with |- both _ (if ?b then _ else _) _ => destruct b end; [|apply both_ret; exact H].
      eapply both_bind; [apply both_expect, khd, H|]. intros p p' Hp. apply both_ret. exact Hp.
    - intros t t' H. apply both_expect, khd, H.
    - intros t t' H. apply both_expect, kmap_last, H.
    - intros t t' H. eapply both_bind; [apply both_expect, khd, H|]. intros p p' Hp. apply both_ret, kwith_put; auto.
    - intros t t' H. eapply both_bind; [apply both_expect, kmap_last, H|]. intros p p' Hp. apply both_ret, kwith_put; auto.
    - intros t t' k k' H Hk. apply both_ret, kmap_get; auto.
    - intros t t' k k' H Hk. apply both_ret, kmap_to; auto.
    - intros t t' k k' H Hk. apply both_ret, kmap_from; auto.
    - intros t t' k k' H Hk. apply both_ret, kopt_put, kmap_incl; auto.
    - intros t t' k k' H Hk. apply both_ret, kopt_put, kmap_to; auto.
    - intros t t' k k' H Hk. apply both_ret, kopt_put, kmap_from; auto.
    - intros t t' k k' v H Hk. apply both_ret. pose proof (kmap_get _ _ _ _ H Hk) as Ho.
      destruct (map_get cmp t k) as [[a o]|], (map_get cmp' t' k') as [[a' o']|]; cbn in Ho; try contradiction.
      + destruct Ho as [Ha Ho]. cbn in Ha, Ho. split; [apply kmap_put; auto|]. split; auto.
      + split; [apply kmap_insert; auto|exact I].
    - intros t t' k k' H Hk. unfold bt_remove, bt_is_monad. rewrite (Hlen _ _ H). bs. bs. pose proof (kmap_get _ _ _ _ H Hk) as Ho.
      destruct (map_get cmp t k), (map_get cmp' t' k'); cbn in Ho; try contradiction; match goal with |- rresult _ _ (if ?b then _ else _) _ => destruct b | _ => idtac end; cbn in Ho; try contradiction; cbn; try exact H; split; auto; cbn; auto; apply kmap_del; auto.
    - intros t t' H. eapply both_bind; [apply both_expect, khd, H|]. intros p p' Hp. cbv zeta. bs. pose proof (ktl _ _ H) as Hm.
      rewrite (f2_nil _ _ Hm). destruct (is_nil (tl t')); split; cbn; auto.
    - intros t t' H. eapply both_bind; [apply both_expect, kmap_last, H|]. intros p p' Hp. cbv zeta. bs. pose proof (kmap_init _ _ H) as Hm.
      rewrite (f2_nil _ _ Hm). destruct (is_nil (map_init t')); split; cbn; auto.
    - intros t t' H. cbn [BTree_ops v_len_hint]. unfold bt_len_hint. rewrite (Hlen _ _ H). apply both_refl. reflexivity.
  Qed.
End BTree.
