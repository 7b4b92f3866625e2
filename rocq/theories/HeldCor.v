(** What is left of the laws of a map on trees that the defect of [Tree::insert] may have put out of order. *)
From Verif Require Import Base Ints Ops Spec ByteSet ByteMap Coll Boxed BTree SizedT Tree Lists Laws CollProofs WrapProofs TreeChildren TreeUpd TreeProofs
  Hist Types HistProofs TypesProofs HistCor Iter IterSpec.

Notation room L t := (N.of_nat (length (ents L t)) < usize_max)%N (only parsing).

Section Laws.
  Context {B : Build} {K V : Type} {cmp : K -> K -> comparison} {O : VebOps K V} (L : VebLaws cmp O).
  Implicit Types (t : vt O).
  (** what [find] finds, [remove] takes out *)
  Definition finds_removes : Prop := forall t k p, winv L t -> v_find O t k = Ret (Some p) -> exists ot, v_remove O t k = Ret (Ok (ot, p)).
  (** what was just inserted is found ... *)
  Definition finds_inserted : Prop := forall t k v t' r, winv L t -> room L t -> v_insert O t k v = Ret (t', r) -> v_find O t' k = Ret (Some (k, v)).
  (** ... and replaced by an insertion with the same key *)
  Definition replaces_inserted : Prop := forall t k v t' r w, winv L t -> room L t -> v_insert O t k v = Ret (t', r) -> room L t' ->
    exists t2, v_insert O t' k w = Ret (t2, Some (k, v)).

  Lemma taken_in t p ot : taken (winv L) (ord L) (ents L) t p ot -> In p (ents L t).
  Proof.
    destruct ot as [t'|]; cbn.
    - intros [_ [H _]]. apply (Permutation_in _ (Permutation_sym H)). left. auto.
    - intros ->. left. auto.
  Qed.
  Lemma ord_find t k v : winv L t -> ord L t -> In (k, v) (ents L t) -> v_find O t k = Ret (Some (k, v)).
  Proof.
    intros Hw Ho Hin. destruct (L_find L t k Hw) as [[p|] [E H]]; rewrite E.
    - destruct H as [H1 H2]. destruct p as [k' v']. cbn in H2. subst k'. do 3 f_equal. eapply nodup_keys_inj; eauto. apply (L_nodup L); auto.
    - elim (H Ho). apply in_keys in Hin. exact Hin.
  Qed.
  Lemma ord_remove t k p : winv L t -> ord L t -> v_find O t k = Ret (Some p) -> exists ot, v_remove O t k = Ret (Ok (ot, p)).
  Proof.
    intros Hw Ho E. destruct (L_find L t k Hw) as [o [E' H]]. rewrite E in E'. injection E' as <-. destruct H as [H1 H2].
    destruct (L_remove L t k Hw) as [[ot [q [Er [Hk Ht]]]]|[_ Hk]].
    - exists ot. rewrite Er. do 3 f_equal. apply taken_in in Ht. destruct p as [k1 v1], q as [k2 v2]. cbn in *. subst k1 k2. f_equal.
      eapply nodup_keys_inj; eauto. apply (L_nodup L); auto.
    - elim Hk. subst k. apply in_keys'. auto.
  Qed.
  Lemma ord_insert t k v w : winv L t -> ord L t -> room L t -> In (k, v) (ents L t) -> exists t2, v_insert O t k w = Ret (t2, Some (k, v)).
  Proof.
    intros Hw Ho Hr Hin. assert (Hk : In k (keys (ents L t))) by (apply in_keys in Hin; auto).
    destruct (L_insert L t k w Hw Hr) as [t2 [r [E [Hw2 [HP [_ Ho2]]]]]]. exists t2. rewrite E. do 2 f_equal.
    assert (Hn := L_nodup L t2 Hw2 (Ho2 Ho (L_safe_in L t k Hw Ho Hk))). destruct r as [q|].
    - destruct HP as [rest [H1 H2]]. f_equal. apply (Permutation_in _ H1) in Hin. destruct Hin as [Hin|Hin]; auto. exfalso.
      apply keys_perm in H2. apply (NoDup_perm _ _ H2) in Hn. cbn in Hn. inversion Hn as [|? ? Hx _]. apply Hx. apply in_keys in Hin. exact Hin.
    - exfalso. apply keys_perm in HP. apply (NoDup_perm _ _ HP) in Hn. cbn in Hn. inversion Hn as [|? ? Hx _]. apply Hx. exact Hk.
  Qed.
  (** trees that are always in order *)
  Context (Hord : forall t, ord L t) (Hsafe : forall t k, safe L t k).
  Lemma inserted_in t k v t' r : winv L t -> room L t -> v_insert O t k v = Ret (t', r) -> winv L t' /\ In (k, v) (ents L t').
  Proof.
    intros Hw Hr E. destruct (L_insert L t k v Hw Hr) as [t2 [r2 [E2 [Hw2 [HP _]]]]]. rewrite E in E2. injection E2 as <- <-. split; auto.
    destruct r as [q|].
    - destruct HP as [rest [_ H]]. apply (Permutation_in _ (Permutation_sym H)). left. auto.
    - apply (Permutation_in _ (Permutation_sym HP)). left. auto.
  Qed.
  Lemma always_fr : finds_removes.
  Proof. intros t k p Hw. apply ord_remove; auto. Qed.
  Lemma always_fi : finds_inserted.
  Proof. intros t k v t' r Hw Hr E. destruct (inserted_in t k v t' r Hw Hr E). apply ord_find; auto. Qed.
  Lemma always_ri : replaces_inserted.
  Proof. intros t k v t' r w Hw Hr E Hr'. destruct (inserted_in t k v t' r Hw Hr E). apply ord_insert; auto. Qed.
End Laws.

Section Trees.
  Context {B : Build} (fixed : bool) {K Hi Lo V : Type} {ko : KeyOps K Hi Lo} (KL : KeyLaws ko).
  Notation J := (k_join ko).
  Notation cmp := (k_cmp ko).
  Let OL := KL_k KL.
  Context {S : VebOps Hi unit} {Tr : VebOps Lo V} {C : CollOps Hi Lo V Tr}.
  Context (LS : VebLaws (hi_cmp ko) S) (LT : VebLaws (lo_cmp ko) Tr) (LC : CollLaws C).
  Notation TL := (Tree_laws fixed KL LS LT LC).
  Notation TO := (Tree_ops fixed ko S Tr C).
  Notation och_ents := (och_ents (ko := ko) (S := S) LT LC).
  Notation owch := (owch LS LT LC).

  Lemma tree_fr : finds_removes LT -> finds_removes TL.
  Proof.
    intros IH t k p Hw E. destruct (L_remove TL t k Hw) as [[ot [q [Er _]]]|[_ Hn]].
    2:{ exfalso. apply Hn. destruct (L_find TL t k Hw) as [o [E' H]]. rewrite E in E'. injection E' as <-. destruct H as [H1 H2]. subst k.
        apply in_keys'. exact H1. }
    exists ot. rewrite Er. do 3 f_equal. cbn in E, Er. unfold tr_remove in Er. destruct t as [mn od]. cbn [t_min t_data] in *.
    unfold tr_find in E. cbn [t_min t_data] in E. destruct (cmp k (fst mn)) eqn:E1.
    - injection E as <-. unfold eqb in Er at 1. rewrite E1 in Er. unfold tr_remove_min in Er. cbn [t_min t_data] in Er.
      destruct od as [[mx [[s c]|]]|]; cbn [d_children d_max] in Er.
      + destruct (v_min_val S s) as [[h []]|]; [|discriminate Er]. cbn [bind] in Er.
        destruct (c_remove_key C c h (v_remove_min Tr)) as [[r [lo val]]|]; [|discriminate Er]. cbn [bind] in Er.
        destruct (after_end _ _ _ _ _ _) as [ch|]; [|discriminate Er]. cbn [bind] in Er. injection Er as _ Er. auto.
      + injection Er as _ Er. auto.
      + injection Er as _ Er. auto.
    - discriminate E.
    - destruct od as [[mx o]|]; [|discriminate E]. cbn [d_max d_children] in *. unfold eqb in Er at 1. rewrite E1 in Er.
      destruct (eqb cmp k (fst mx)) eqn:E2.
      + injection E as <-. destruct o as [[s c]|].
        * destruct (v_max_val S s) as [[h []]|]; [|discriminate Er]. cbn [bind] in Er.
          destruct (c_remove_key C c h (v_remove_max Tr)) as [[r [lo val]]|]; [|discriminate Er]. cbn [bind] in Er.
          destruct (after_end _ _ _ _ _ _) as [ch|]; [|discriminate Er]. cbn [bind] in Er. injection Er as _ Er. auto.
        * apply (eqb_eq OL) in E2. rewrite E2, (eqb_refl OL) in Er. injection Er as _ Er. auto.
      + destruct o as [[s c]|]; [|discriminate E]. cbn in Hw. destruct (k_split_ref ko k) as [h l].
        destruct (C_get LC c h) as [oc [Eg Hg]]; [apply Hw|]. rewrite Eg in E. cbn [bind] in E. destruct oc as [child|]; [|discriminate E].
        destruct (v_find Tr child l) as [[[l' val]|]|] eqn:Ef; try discriminate E. cbn [bind] in E. injection E as <-.
        assert (Hwc : winv LT child) by (apply Hw in Hg; exact Hg). destruct (IH child l _ Hwc Ef) as [oc Ec].
        destruct (C_maybe_ok LC c h (fun x => v_remove Tr x l) child oc (l', val)) as [ox [Em _]]; auto; [apply Hw|].
        rewrite Em in Er. cbn [bind] in Er. destruct ox as [[c' [|]]|].
        * destruct (v_remove S s h) as [[[os [h' []]]|]|]; try discriminate Er. cbn [bind] in Er. destruct (expect os); [|discriminate Er].
          cbn [bind] in Er. injection Er as _ Er. auto.
        * injection Er as _ Er. auto.
        * injection Er as _ Er. auto.
  Qed.

  Notation real := (real (ko := ko)).

  Context (IF : finds_inserted LT) (IR : replaces_inserted LT).
  Lemma push_held mn mx o h l v t' r : owch o -> real h l -> (N.of_nat (length (och_ents o)) < usize_max)%N ->
    tr_push ko S Tr C mn mx o (J h l) v = Ret (t', r) ->
    exists s c t1, t' = TR mn (Some (TD mx (Some (s, c)))) /\ cinv LC c /\ In (h, t1) (cents LC c) /\
      v_find Tr t1 l = Ret (Some (l, v)) /\ forall w, room LT t1 -> exists t2, v_insert Tr t1 l w = Ret (t2, Some (l, v)).
  Proof.
    intros Hw Es Hl E. unfold TreeChildren.real in Es. unfold tr_push in E. rewrite Es in E.
    assert (Hm : v_find Tr (v_from_monad Tr l v) l = Ret (Some (l, v)) /\
      forall w, room LT (v_from_monad Tr l v) -> exists t2, v_insert Tr (v_from_monad Tr l v) l w = Ret (t2, Some (l, v))).
    { destruct (L_from_monad LT l v) as [H1 [H2 H3]]. assert (Hin : In (l, v) (ents LT (v_from_monad Tr l v))) by (rewrite H3; left; auto).
      split; [apply (ord_find LT); auto|]. intros w Hr. apply (ord_insert LT); auto. }
    destruct o as [[s c]|].
    - cbn [TreeUpd.owch TreeUpd.och_ents] in *. destruct (C_get LC c h) as [oc [_ Hg]]; [apply Hw|]. destruct oc as [t|].
      + assert (Hwt : winv LT t) by (apply Hw in Hg; exact Hg).
        assert (Hlt : room LT t) by (assert (H := length_child LT LC (S := S) (ko := ko) (s, c) h t Hg); lia).
        destruct (L_insert LT t l v Hwt Hlt) as [t1 [r1 [Ei _]]].
        destruct (C_insert_old LC c h (l, v) t t1 r1) as [c' [rest [Ec [Hc' [_ HP]]]]]; auto; [apply Hw|]. rewrite Ec in E. cbn [bind] in E.
        exists s, c', t1. split; [destruct r1 as [[]|]; injection E; auto|]. split; auto.
        split; [apply (Permutation_in _ (Permutation_sym HP)); left; auto|]. split; [eapply IF; eauto|]. intros w Hr. eapply IR; eauto.
      + destruct (C_insert_new LC c h (l, v)) as [c' [Ec [Hc' HP]]]; auto; [apply Hw|]. rewrite Ec in E. cbn [bind fst snd] in E.
        destruct (v_insert S s h tt) as [[s' rs]|]; [|discriminate E]. cbn [bind] in E. injection E as <- _.
        exists s', c', (v_from_monad Tr l v). split; auto. split; auto. split; auto. apply (Permutation_in _ (Permutation_sym HP)). left. auto.
    - destruct (C_create LC h (v_from_monad Tr l v)) as [c [Ec [Hc HP]]]. rewrite Ec in E. cbn [bind] in E. injection E as <- _.
      exists (v_from_monad S h tt), c, (v_from_monad Tr l v). split; auto. split; auto. split; auto.
      apply (Permutation_in _ (Permutation_sym HP)). left. auto.
  Qed.

  Lemma push_min mn mx o k v t' r : tr_push ko S Tr C mn mx o k v = Ret (t', r) -> exists o', t' = TR mn (Some (TD mx o')).
  Proof.
    unfold tr_push. destruct (k_split_val ko k) as [h l]. destruct o as [[s c]|].
    - destruct (c_insert_key C c h (l, v)) as [[c' [h'|[h' [[]|]]]]|]; cbn [bind]; try discriminate.
      + destruct (v_insert S s h' tt) as [[s' rs]|]; cbn [bind]; [|discriminate]. intros E. injection E as <- _. eauto.
      + intros E. injection E as <- _. eauto.
      + intros E. injection E as <- _. eauto.
    - destruct (c_create C h (v_from_monad Tr l v)) as [c|]; cbn [bind]; [|discriminate]. intros E. injection E as <- _. eauto.
  Qed.

  (** where an inserted key is *)
  Lemma insert_where t k v t' r : tr_winv LS LT LC t -> (N.of_nat (length (tr_ents LT LC t)) < usize_max)%N ->
    tr_insert fixed ko S Tr C t k v = Ret (t', r) ->
    t_min t' = (k, v) \/
    (cmp k (fst (t_min t')) = Gt /\ exists o, t_data t' = Some (TD (k, v) o)) \/
    (cmp k (fst (t_min t')) = Gt /\ exists mx s c h l t1, t_data t' = Some (TD mx (Some (s, c))) /\ cmp k (fst mx) = Lt /\ k = J h l /\ real h l /\
      cinv LC c /\ In (h, t1) (cents LC c) /\ v_find Tr t1 l = Ret (Some (l, v)) /\
      forall w, room LT t1 -> exists t2, v_insert Tr t1 l w = Ret (t2, Some (l, v))).
  Proof.
    intros Hw Hl E. destruct t as [mn od]. unfold tr_insert in E. cbn [t_min t_data] in E. destruct (cmp k (fst mn)) eqn:E1.
    - injection E as <- _. left. auto.
    - left. destruct od as [[mx o]|].
      + destruct mn as [k1 v1]. cbn [d_max d_children] in E. destruct (cmp (fst mx) k1).
        * injection E as <- _. auto.
        * apply push_min in E. destruct E as [o' ->]. auto.
        * destruct fixed; apply push_min in E; destruct E as [o' ->]; auto.
      + injection E as <- _. auto.
    - right. destruct od as [[mx o]|].
      + cbn [d_max d_children] in E. destruct (cmp k (fst mx)) eqn:E2.
        * injection E as <- _. left. cbn. eauto.
        * right. destruct (split_J KL k) as [h [l [-> [Hrl _]]]].
          assert (Hlen : (N.of_nat (length (och_ents o)) < usize_max)%N).
          { unfold tr_ents in Hl. cbn [t_min t_data d_max d_children length] in Hl. lia. }
          destruct (push_held mn mx o h l v t' r) as [s [c [t1 [-> [H1 [H2 [H3 H4]]]]]]]; auto. cbn [t_min t_data]. split; auto.
          exists mx, s, c, h, l, t1. auto 9.
        * left. apply push_min in E. destruct E as [o' ->]. cbn. eauto.
      + injection E as <- _. left. cbn. eauto.
  Qed.

  Lemma tree_fi : finds_inserted TL.
  Proof.
    intros t k v t' r Hw Hr E. change (tr_find ko S Tr C t' k = Ret (Some (k, v))). unfold tr_find.
    destruct (insert_where t k v t' r Hw Hr E) as [H|[[H [o H']]|[H [mx [s [c [h [l [t1 [H' [Hm [-> [Hrl [Hc [Hin [Hf _]]]]]]]]]]]]]]]].
    - rewrite H. cbn [fst]. rewrite (cmp_refl OL). reflexivity.
    - rewrite H, H'. cbn [d_max fst]. rewrite (eqb_refl OL). reflexivity.
    - rewrite H, H'. cbn [d_max d_children]. unfold eqb. rewrite Hm.
      rewrite (KL_split_ref KL), Hrl.
      rewrite (get_present LC c h t1 Hc Hin). cbn [bind]. rewrite Hf. reflexivity.
  Qed.
  Lemma tree_ri : replaces_inserted TL.
  Proof.
    intros t k v t' r w Hw Hr E Hr'. assert (Hw' : winv TL t').
    { destruct (L_insert TL t k v Hw Hr) as [t2 [r2 [E2 [H _]]]]. rewrite E in E2. injection E2 as <- _. exact H. }
    destruct (insert_where t k v t' r Hw Hr E) as [H|[[H [o H']]|[H [mx [s [c [h [l [t1 [H' [Hm [-> [Hrl [Hc [Hin [_ Hii]]]]]]]]]]]]]]]];
      cbn [v_insert Tree_ops]; unfold tr_insert.
    - rewrite H. cbn [fst]. rewrite (cmp_refl OL). eauto.
    - rewrite H, H'. cbn [d_max d_children fst]. rewrite (cmp_refl OL). eauto.
    - rewrite H, H'. cbn [d_max d_children]. rewrite Hm. unfold tr_push.
      rewrite Hrl.
      assert (Hlt : room LT t1).
      { assert (H1 := length_child LT LC (S := S) (ko := ko) (s, c) h t1 Hin). destruct t' as [mn' od']. cbn in H'. subst od'.
        change (N.of_nat (length (tr_ents LT LC (TR mn' (Some (TD mx (Some (s, c))))))) < usize_max)%N in Hr'. unfold tr_ents in Hr'.
        cbn [t_min t_data d_max d_children length TreeUpd.och_ents] in Hr'. lia. }
      destruct (Hii w Hlt) as [t2 Ei]. destruct (C_insert_old LC c h (l, w) t1 t2 (Some (l, v)) Hc Hin Ei) as [c' [rest [Ec _]]].
      rewrite Ec. cbn [bind]. eauto.
  Qed.
End Trees.

Section Types.
  Context {B : Build}.
  Lemma box_fr {K V cmp} {O : VebOps K V} (L : VebLaws cmp O) : finds_removes L -> finds_removes (Box_laws L).
  Proof.
    intros IH t k p Hw E. cbn in E |- *. destruct (IH (unbox t) k p Hw E) as [ot E']. rewrite E'. cbn. eexists. reflexivity.
  Qed.
  Lemma box_fi {K V cmp} {O : VebOps K V} (L : VebLaws cmp O) : finds_inserted L -> finds_inserted (Box_laws L).
  Proof.
    intros IH t k v t' r Hw Hr E. cbn in E |- *. destruct (v_insert O (unbox t) k v) as [[t1 r1]|] eqn:E1; [|discriminate E].
    cbn in E. injection E as <- _. cbn. exact (IH (unbox t) k v t1 r1 Hw Hr E1).
  Qed.
  Lemma box_ri {K V cmp} {O : VebOps K V} (L : VebLaws cmp O) : replaces_inserted L -> replaces_inserted (Box_laws L).
  Proof.
    intros IH t k v t' r w Hw Hr E Hr'. cbn in E |- *. destruct (v_insert O (unbox t) k v) as [[t1 r1]|] eqn:E1; [|discriminate E].
    cbn in E. injection E as <- _. cbn. destruct (IH (unbox t) k v t1 r1 w Hw Hr E1 Hr') as [t2 E2]. rewrite E2. cbn. eauto.
  Qed.
  Lemma sized_fr {K V cmp} {O : VebOps K V} (L : VebLaws cmp O) : finds_removes L -> finds_removes (Sized_laws L).
  Proof.
    intros IH t k p Hw E. destruct (L_remove (Sized_laws L) t k Hw) as [[ot [q [Er _]]]|[_ Hn]].
    - exists ot. rewrite Er. do 3 f_equal. cbn in Er. unfold sz_remove in Er. destruct (IH (sz_tree t) k p (proj1 Hw) E) as [o E'].
      rewrite E' in Er. cbn [bind] in Er. destruct o as [t1|]; [|injection Er; auto].
      destruct (checked_sub (sz_size t) 1) as [n|]; [|discriminate Er]. cbn [bind] in Er. destruct (expect (nonzero n)); [|discriminate Er].
      cbn [bind] in Er. injection Er; auto.
    - exfalso. apply Hn. destruct (L_find (Sized_laws L) t k Hw) as [o [E' H]]. rewrite E in E'. injection E' as <-. destruct H as [H1 H2]. subst k.
      apply in_keys'. exact H1.
  Qed.
  Lemma sz_insert_tree {K V} {O : VebOps K V} t k v t' r : sz_insert O t k v = Ret (t', r) -> v_insert O (sz_tree t) k v = Ret (sz_tree t', r).
  Proof.
    unfold sz_insert. destruct (v_insert O (sz_tree t) k v) as [[t1 r1]|]; cbn [bind]; [|discriminate]. destruct r1 as [q|].
    - intros E. injection E as <- <-. auto.
    - destruct (expect (checked_add (sz_size t) 1)); cbn [bind]; [|discriminate]. intros E. injection E as <- <-. auto.
  Qed.
  Lemma sized_fi {K V cmp} {O : VebOps K V} (L : VebLaws cmp O) : finds_inserted L -> finds_inserted (Sized_laws L).
  Proof. intros IH t k v t' r Hw Hr E. apply sz_insert_tree in E. exact (IH (sz_tree t) k v (sz_tree t') r (proj1 Hw) Hr E). Qed.
  Lemma sized_ri {K V cmp} {O : VebOps K V} (L : VebLaws cmp O) : replaces_inserted L -> replaces_inserted (Sized_laws L).
  Proof.
    intros IH t k v t' r w Hw Hr E Hr'. apply sz_insert_tree in E. destruct (IH (sz_tree t) k v (sz_tree t') r w (proj1 Hw) Hr E Hr') as [t2 E2].
    cbn. unfold sz_insert. rewrite E2. cbn. eauto.
  Qed.

  Lemma type_fr {fixed K V cmp O} (T : VebType fixed K V cmp O) : finds_removes (type_laws T).
  Proof.
    induction T as [|V|K V cmp OL|K Hi Lo V ko KL S Tr C TS IHS TT IHT CT|K V cmp O T IH|K V cmp O T IH].
    1-3: apply always_fr; intros; exact I.
    - apply tree_fr. exact IHT.
    - apply box_fr. exact IH.
    - apply sized_fr. exact IH.
  Qed.
  Lemma type_fi_ri {fixed K V cmp O} (T : VebType fixed K V cmp O) : finds_inserted (type_laws T) /\ replaces_inserted (type_laws T).
  Proof.
    induction T as [|V|K V cmp OL|K Hi Lo V ko KL S Tr C TS IHS TT [IF IR] CT|K V cmp O T [IF IR]|K V cmp O T [IF IR]].
    1-3: split; [apply always_fi|apply always_ri]; intros; exact I.
    - split; [apply tree_fi; auto|apply tree_ri; auto].
    - split; [apply box_fi; auto|apply box_ri; auto].
    - split; [apply sized_fi; auto|apply sized_ri; auto].
  Qed.
End Types.

(** *** Reachable trees *)
Section Answers.
  Context {B : Build} {fixed : bool} {K V : Type} {cmp : K -> K -> comparison} {O : VebOps K V} (T : VebType fixed K V cmp O).
  Notation L := (type_laws T).
  Lemma stored_w t d : winv L t -> contents O t d ->
    (exists p, v_min_val O t = Ret p /\ In p d) /\ (exists p, v_max_val O t = Ret p /\ In p d) /\
    (forall k p, v_find O t k = Ret (Some p) -> In p d /\ fst p = k) /\
    (forall k p, v_predecessor O t k = Ret (Some p) -> In p d) /\
    (forall k p, v_successor O t k = Ret (Some p) -> In p d) /\
    (forall k v t' p, (N.of_nat (length d) < usize_max)%N -> v_insert O t k v = Ret (t', Some p) -> In p d) /\
    (forall k ot p, v_remove O t k = Ret (Ok (ot, p)) -> In p d /\ fst p = k).
  Proof.
    intros Hr Hc. assert (HP := contents_perm L t d Hr Hc).
    assert (Hin : forall p, In p (ents L t) -> In p d) by (intros p; apply (Permutation_in _ (Permutation_sym HP))).
    split; [|split; [|split; [|split; [|split; [|split]]]]].
    - destruct (L_min L t Hr) as [p [E [H _]]]. eauto.
    - destruct (L_max L t Hr) as [p [E [H _]]]. eauto.
    - intros k p E. destruct (L_find L t k Hr) as [o [E' H]]. rewrite E in E'. injection E' as <-. destruct H. auto.
    - intros k p E. destruct (L_pred L t k Hr) as [o [E' H]]. rewrite E in E'. injection E' as <-. destruct H. auto.
    - intros k p E. destruct (L_succ L t k Hr) as [o [E' H]]. rewrite E in E'. injection E' as <-. destruct H. auto.
    - intros k v t' p Hl E. rewrite (Permutation_length HP) in Hl. destruct (L_insert L t k v Hr Hl) as [t2 [r [E' [_ [H _]]]]]. rewrite E in E'. injection E' as <- <-.
      destruct H as [rest [H _]]. apply Hin. apply (Permutation_in _ (Permutation_sym H)). left. auto.
    - intros k ot p E. destruct (L_remove L t k Hr) as [[ot' [q [E' [Hk Ht]]]]|[E' _]]; rewrite E in E'; [|discriminate E'].
      injection E' as <- <-. split; auto. apply Hin. eapply taken_in; eauto.
  Qed.
  Lemma answers_stored t d : reachable O t -> contents O t d ->
    (exists p, v_min_val O t = Ret p /\ In p d) /\ (exists p, v_max_val O t = Ret p /\ In p d) /\
    (forall k p, v_find O t k = Ret (Some p) -> In p d /\ fst p = k) /\
    (forall k p, v_predecessor O t k = Ret (Some p) -> In p d) /\
    (forall k p, v_successor O t k = Ret (Some p) -> In p d) /\
    (forall k v t' p, (N.of_nat (length d) < usize_max)%N -> v_insert O t k v = Ret (t', Some p) -> In p d) /\
    (forall k ot p, v_remove O t k = Ret (Ok (ot, p)) -> In p d /\ fst p = k).
  Proof. intros Hr. apply stored_w. apply (reachable_weak L). exact Hr. Qed.
  Lemma iter_stored t d dirs it os p : reachable O t -> contents O t d -> it_run O (eqb cmp) t dirs it_new = Ret (it, os) -> In (Some p) os -> In p d.
  Proof.
    intros Hr Hc. destruct (answers_stored t d Hr Hc) as [[p1 [E1 H1]] [[p2 [E2 H2]] [_ [HP [HS _]]]]].
    assert (Hem : forall it1 x (q : K * V) it2 o, emit it1 x q = Ret (it2, o) -> o = Some q).
    { intros it1 x q it2 o. unfold emit. destruct (usize_add (it_emitted it1) 1); cbn; [|discriminate]. intros E. injection E; auto. }
    assert (Hca : forall b it1 it2 q, it_call O (eqb cmp) t b it1 = Ret (it2, Some q) -> In q d).
    { intros b it1 it2 q. unfold it_call. destruct b; unfold it_next, it_next_back; rewrite ?E1, ?E2; cbn [bind];
        (destruct (it_data it1) as [[|a|a|a a']|]; [| | | |discriminate]).
      all: repeat match goal with
        | |- emit _ _ _ = _ -> _ => let E := fresh in intros E; apply Hem in E; injection E as ->; solve [eauto]
        | |- stop _ = _ -> _ => discriminate
        | |- bind (debug_assert false) _ = _ -> _ => let x := fresh in destruct (debug_assert false) as [x|]; cbn [bind]; [|discriminate]
        | |- (if ?c then _ else _) = _ -> _ => destruct c
        | |- bind ?e _ = _ -> _ => let E := fresh "E" in destruct e as [[|]|] eqn:E; cbn [bind]; [| |discriminate]
        end. }
    generalize (@it_new K). revert os. induction dirs as [|b dirs IH]; intros os i; cbn [it_run].
    - intros E. injection E as _ <-. intros [].
    - destruct (it_call O (eqb cmp) t b i) as [[i1 o]|] eqn:E; cbn [bind]; [|discriminate].
      destruct (it_run O (eqb cmp) t dirs i1) as [[i2 os2]|] eqn:Er; cbn [bind]; [|discriminate].
      intros E'. injection E' as <- <-. intros [->|H]; eauto.
  Qed.
  Lemma found_removed t k p : reachable O t -> v_find O t k = Ret (Some p) -> exists ot, v_remove O t k = Ret (Ok (ot, p)).
  Proof. intros Hr. apply (type_fr T). apply (reachable_weak L). auto. Qed.
  Lemma read_w t d k v : winv L t -> contents O t d -> (N.of_nat (length d) < usize_max)%N ->
    exists t' r, v_insert O t k v = Ret (t', r) /\ v_find O t' k = Ret (Some (k, v)) /\
      (exists ot, v_remove O t' k = Ret (Ok (ot, (k, v)))) /\
      ((N.of_nat (length d) + 1 < usize_max)%N -> forall w, exists t2, v_insert O t' k w = Ret (t2, Some (k, v))).
  Proof.
    intros Hr Hc Hl. assert (HP := contents_perm L t d Hr Hc). rewrite (Permutation_length HP) in Hl |- *.
    destruct (L_insert L t k v Hr Hl) as [t' [r [E [Hw' [Hp _]]]]]. exists t', r. split; auto.
    destruct (type_fi_ri T) as [HF HR]. assert (Ef : v_find O t' k = Ret (Some (k, v))) by exact (HF t k v t' r Hr Hl E). split; auto.
    split; [exact (type_fr T t' k (k, v) Hw' Ef)|]. intros Hl' w. apply (HR t k v t' r w Hr Hl E).
    assert (length (ents L t') <= Datatypes.S (length (ents L t))).
    { destruct r as [q|]; [|apply Permutation_length in Hp; rewrite Hp; cbn; lia]. destruct Hp as [rest [H1 H2]].
      apply Permutation_length in H1, H2. cbn in H1, H2. rewrite H1, H2. lia. }
    lia.
  Qed.
  Lemma read_your_writes t d k v : reachable O t -> contents O t d -> (N.of_nat (length d) < usize_max)%N ->
    exists t' r, v_insert O t k v = Ret (t', r) /\ v_find O t' k = Ret (Some (k, v)) /\
      (exists ot, v_remove O t' k = Ret (Ok (ot, (k, v)))) /\
      ((N.of_nat (length d) + 1 < usize_max)%N -> forall w, exists t2, v_insert O t' k w = Ret (t2, Some (k, v))).
  Proof. intros Hr. apply read_w. apply (reachable_weak L). exact Hr. Qed.
End Answers.
