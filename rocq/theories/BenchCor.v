(** The benchmark's two structures against the specification of their calls. *)
From Verif Require Import Base Ints Spec Ops Boxed SizedT BTree Lists Laws BTreeProofs Hist HistProofs HistCor WrapProofs KeyProofs Types
  TypesProofs Fits FitsCor Concrete Bench.

Section AllBuilds.
Context {Bd : Build}.

Section BTreeSide.
  Context {K V : Type} {cmp : K -> K -> comparison} (OL : OrdLaws cmp) (data : V).
  Notation asc := (@ascending K V cmp).
  Notation M := (list (K * V)).
  Implicit Types m b a : M.

  Lemma below_all b k : (forall q : K * V, In q b -> cmp (fst q) k = Lt) -> below cmp k b = b /\ above cmp k b = [].
  Proof.
    induction b as [|p b IH]; intros H; [split; reflexivity|]. destruct IH as [I1 I2]; [intros; apply H; right; auto|].
    assert (Hp := H p (or_introl eq_refl)). unfold below, above in *. cbn [filter].
    rewrite (proj2 (ltb_lt (fst p) k) Hp), (proj2 (ltb_ge k (fst p)) (lt_asym OL _ _ Hp)). split; [f_equal|]; auto.
  Qed.
  Lemma above_all a k : (forall q : K * V, In q a -> cmp k (fst q) = Lt) -> below cmp k a = [] /\ above cmp k a = a.
  Proof.
    induction a as [|p a IH]; intros H; [split; reflexivity|]. destruct IH as [I1 I2]; [intros; apply H; right; auto|].
    assert (Hp := H p (or_introl eq_refl)). unfold below, above in *. cbn [filter].
    rewrite (proj2 (ltb_lt k (fst p)) Hp), (proj2 (ltb_ge (fst p) k) (lt_asym OL _ _ Hp)). split; [|f_equal]; auto.
  Qed.
  Lemma below_split b a k : (forall q : K * V, In q b -> cmp (fst q) k = Lt) -> (forall q : K * V, In q a -> cmp k (fst q) = Lt) ->
    below cmp k (b ++ a) = b /\ above cmp k (b ++ a) = a.
  Proof.
    intros H1 H2. destruct (below_all b k H1) as [I1 I2]. destruct (above_all a k H2) as [I3 I4].
    unfold below, above in *. rewrite !filter_app, I1, I2, I3, I4. rewrite app_nil_r. auto.
  Qed.
  Lemma below_mid b k v a : (forall q : K * V, In q b -> cmp (fst q) k = Lt) -> (forall q : K * V, In q a -> cmp k (fst q) = Lt) ->
    below cmp k (b ++ (k, v) :: a) = b /\ above cmp k (b ++ (k, v) :: a) = a.
  Proof.
    intros H1 H2. destruct (below_all b k H1) as [I1 I2]. destruct (above_all a k H2) as [I3 I4].
    unfold below, above in *. rewrite !filter_app. cbn [filter fst].
    rewrite (proj2 (ltb_ge k k) (lt_irrefl OL k)), I1, I2, I3, I4.
    rewrite app_nil_r. auto.
  Qed.
  Lemma insert_mid b k v w a : (forall q : K * V, In q b -> cmp (fst q) k = Lt) ->
    map_insert cmp (b ++ (k, v) :: a) k w = b ++ (k, w) :: a.
  Proof.
    induction b as [|[j x] b IH]; cbn; intros H.
    - rewrite (cmp_refl OL). auto.
    - rewrite (gt_of_lt OL j k) by (apply (H (j, x)); auto). f_equal. auto.
  Qed.
  Lemma del_gap b k a : (forall q : K * V, In q b -> cmp (fst q) k = Lt) -> (forall q : K * V, In q a -> cmp k (fst q) = Lt) ->
    map_del cmp (b ++ a) k = b ++ a.
  Proof.
    induction b as [|[j w] b IH]; cbn; intros H1 H2.
    - destruct a as [|[j w] a]; cbn; auto. assert (E := H2 _ (or_introl eq_refl)). cbn in E. rewrite E. auto.
    - rewrite (gt_of_lt OL j k) by (apply (H1 (j, w)); auto). f_equal. auto.
  Qed.

  Lemma insert_sp m k v : asc m -> map_insert cmp m k v = sp_insert cmp k v m.
  Proof.
    intros H. unfold sp_insert. destruct (bt_case OL m k H) as [[b [w [a [-> [H1 H2]]]]]|[b [a [-> [H1 H2]]]]].
    - destruct (below_mid b k w a H1 H2) as [-> ->]. apply insert_mid. auto.
    - destruct (below_split b a k H1 H2) as [-> ->]. apply (insert_gap OL); auto.
  Qed.
  Lemma del_sp m k : asc m -> map_del cmp m k = sp_remove cmp k m.
  Proof.
    intros H. unfold sp_remove. destruct (bt_case OL m k H) as [[b [w [a [-> [H1 H2]]]]]|[b [a [-> [H1 H2]]]]].
    - destruct (below_mid b k w a H1 H2) as [-> ->]. apply (del_midk OL). auto.
    - destruct (below_split b a k H1 H2) as [-> ->]. apply del_gap; auto.
  Qed.
  Lemma get_sp m k : asc m -> map_get cmp m k = sp_find cmp k m.
  Proof.
    intros H. symmetry. destruct (bt_case OL m k H) as [[b [w [a [E [H1 H2]]]]]|[b [a [E [H1 H2]]]]]; subst m.
    - rewrite (get_mid OL) by auto. apply (sp_find_some OL); [apply (asc_nodup OL); auto|]. apply in_app_iff. right. left. auto.
    - rewrite (get_gap OL) by auto. apply (sp_find_none OL). intros Hk. apply keys_in in Hk. destruct Hk as [v Hv].
      apply in_app_iff in Hv. destruct Hv as [Hv|Hv]; [apply H1 in Hv|apply H2 in Hv]; cbn in Hv; elim (lt_irrefl OL k); auto.
  Qed.
  Lemma put_sp m p w : asc m -> In p m -> map_put cmp m (fst p) w = sp_write cmp (fst p) w m.
  Proof.
    induction m as [|[j x] m IH]; intros H Hin; [destruct Hin|]. apply asc_cons in H. destruct H as [H1 H2].
    cbn [map_put sp_write map fst]. destruct Hin as [<-|Hin]; cbn [fst].
    - rewrite (cmp_refl OL), (eqb_refl OL). f_equal. symmetry. etransitivity; [|apply map_id]. apply map_ext_in.
      intros q Hq. apply H2 in Hq. cbn in Hq. unfold eqb. rewrite (cmp_opp OL j (fst q)), Hq. auto.
    - assert (Hj := H2 p Hin). cbn in Hj. rewrite (gt_of_lt OL j (fst p)) by auto. unfold eqb at 1. rewrite Hj.
      f_equal. apply IH; auto.
  Qed.
  Lemma ge_sp m k : map_range_ge cmp m k = sp_ge cmp k m.
  Proof.
    induction m as [|[j x] m IH]; auto. cbn [map_range_ge]. unfold sp_ge in *. cbn [filter fst]. unfold ltb at 1.
    destruct (cmp j k); cbn; auto.
  Qed.
  Lemma le_sp m k : asc m -> map_range_le_back cmp m k = sp_le cmp k m.
  Proof.
    induction m as [|[j x] m IH]; auto. intros H. apply asc_cons in H. destruct H as [H1 H2]. specialize (IH H1).
    cbn [map_range_le_back]. unfold sp_le in *. cbn [filter fst]. unfold ltb at 1. rewrite (cmp_opp OL j k).
    assert (Hc : forall q l, match last_error l with Some p => Some p | None => Some q end = last_error (q :: l : list (K * V))).
    { intros q [|p l]; auto. destruct (last_error (p :: l)) eqn:E; [cbn [last_error] in *; rewrite E; auto|].
      apply last_error_none in E. discriminate. }
    destruct (cmp j k) eqn:E; cbn [CompOpp negb].
    - rewrite IH. apply Hc.
    - rewrite IH. apply Hc.
    - symmetry. replace (filter _ m) with (@nil (K * V)); auto. symmetry. apply filter_none.
      intros q Hq. apply H2 in Hq. cbn in Hq. apply negb_false_iff, ltb_lt. apply (cmp_trans OL) with j; auto.
      apply (cmp_gt_lt OL). auto.
  Qed.

  Lemma sp_find_in k m p : sp_find cmp k m = Some p -> In p m.
  Proof. intros H. apply find_some in H. apply H. Qed.
  Lemma sp_next_in incl k m p : sp_next cmp incl k m = Some p -> In p m.
  Proof.
    destruct incl; cbn; unfold sp_ge, sp_succ, above; intros H; apply hd_error_in in H; destruct H as [l' H];
      eapply proj1, (proj1 (filter_In _ p m)); rewrite H; left; auto.
  Qed.
  Lemma sp_prev_in incl k m p : sp_prev cmp incl k m = Some p -> In p m.
  Proof.
    destruct incl; cbn; unfold sp_le, sp_pred, below; intros H; apply last_error_in in H; destruct H as [l' H];
      eapply proj1, (proj1 (filter_In _ p m)); rewrite H; apply in_app_iff; right; left; auto.
  Qed.
  Lemma sp_put_asc o w m : asc m -> asc (sp_put cmp o w m).
  Proof. intros H. destruct o; cbn; auto. apply sp_write_asc. auto. Qed.
  Lemma sp_bstep_asc incl c m : asc m -> asc (fst (sp_bstep cmp data incl c m)).
  Proof.
    intros H. destruct c; cbn; auto using sp_put_asc. apply (sp_insert_asc OL); auto. apply (sp_remove_asc OL); auto.
  Qed.

  Lemma write_kv m o w : asc m -> (forall p, o = Some p -> In p m) ->
    b_write (B := btree_bench cmp data) BP m (opt_put cmp m o) w = (sp_put cmp o w m, BP o).
  Proof.
    intros H Hi. destruct o as [p|]; auto. cbn [opt_put with_put b_write sp_put]. rewrite put_sp; auto.
  Qed.
  Lemma btree_step c m : asc m -> b_step (btree_bench cmp data) c m = Ret (sp_bstep cmp data true c m).
  Proof.
    intros H. destruct c; cbn [b_step btree_bench b_len b_insert b_remove b_find b_next b_prev b_find_mut b_next_mut b_prev_mut bind sp_bstep sp_next sp_prev].
    - reflexivity.
    - rewrite insert_sp, get_sp by auto. auto.
    - rewrite del_sp, get_sp by auto. auto.
    - rewrite get_sp by auto. auto.
    - rewrite ge_sp. auto.
    - rewrite le_sp by auto. auto.
    - rewrite get_sp by auto. assert (Hi := sp_find_in k m). destruct (sp_find cmp k m) as [[k' v]|]; auto.
      cbn [opt_put with_put drop_key b_write omap option_map snd sp_put fst]. rewrite <- (put_sp m (k', v)); auto.
    - rewrite ge_sp. f_equal. apply write_kv; auto. exact (sp_next_in true k m).
    - rewrite le_sp by auto. f_equal. apply write_kv; auto. exact (sp_prev_in true k m).
  Qed.
  Lemma btree_run cs : forall m, asc m -> b_run (btree_bench cmp data) cs m = Ret (sp_brun cmp data true cs m).
  Proof.
    induction cs as [|c cs IH]; intros m H; cbn [b_run sp_brun]; auto. rewrite btree_step by auto. cbn [bind].
    assert (H1 := sp_bstep_asc true c m H). destruct (sp_bstep cmp data true c m) as [m1 o]. cbn [fst] in H1. rewrite IH by auto.
    cbn [bind]. destruct (sp_brun cmp data true cs m1). auto.
  Qed.

  (** at a key that is not stored, both readings of next and prev agree *)
  Lemma gap_next k m : ~ In k (keys m) -> sp_ge cmp k m = sp_succ cmp k m.
  Proof.
    intros H. unfold sp_ge, sp_succ, above. f_equal. apply filter_ext_in. intros p Hp. unfold ltb.
    rewrite (cmp_opp OL (fst p) k). destruct (cmp (fst p) k) eqn:E; auto. apply (cmp_eq_eq OL) in E. subst k. elim H.
    apply in_keys'. auto.
  Qed.
  Lemma gap_prev k m : ~ In k (keys m) -> sp_le cmp k m = sp_pred cmp k m.
  Proof.
    intros H. unfold sp_le, sp_pred, below. f_equal. apply filter_ext_in. intros p Hp. unfold ltb.
    rewrite (cmp_opp OL (fst p) k). destruct (cmp (fst p) k) eqn:E; auto. apply (cmp_eq_eq OL) in E. subst k. elim H.
    apply in_keys'. auto.
  Qed.
  Lemma gaps_agree cs : forall m, at_gaps cmp data false cs m -> sp_brun cmp data true cs m = sp_brun cmp data false cs m.
  Proof.
    induction cs as [|c cs IH]; intros m H; cbn [sp_brun]; auto. destruct H as [H1 H2].
    assert (E : sp_bstep cmp data true c m = sp_bstep cmp data false c m).
    { destruct c; cbn; auto; rewrite ?gap_next, ?gap_prev; auto. }
    rewrite E. destruct (sp_bstep cmp data false c m) as [m1 o]. cbn [fst] in H2. rewrite IH; auto.
  Qed.
  (** at a stored key they never do *)
  Lemma stored_next k v m : asc m -> In (k, v) m -> sp_ge cmp k m = Some (k, v).
  Proof.
    intros H Hin. destruct (in_split _ _ Hin) as [b [a ->]]. unfold sp_ge. rewrite filter_app.
    replace (filter _ b) with (@nil (K * V)).
    - cbn [app filter fst]. unfold ltb at 1. rewrite (cmp_refl OL). reflexivity.
    - symmetry. apply filter_none. intros q Hq. apply negb_false_iff, ltb_lt. apply asc_app in H.
      apply (proj2 (proj2 H) q (k, v)); auto. left. auto.
  Qed.
  Lemma stored_prev k v m : asc m -> In (k, v) m -> sp_le cmp k m = Some (k, v).
  Proof.
    intros H Hin. destruct (in_split _ _ Hin) as [b [a ->]]. unfold sp_le. rewrite filter_app. cbn [filter fst].
    rewrite (proj2 (ltb_ge k k) (lt_irrefl OL k)). cbn [negb].
    replace (filter _ a) with (@nil (K * V)); [apply last_error_app|].
    symmetry. apply filter_none. intros q Hq. apply negb_false_iff, ltb_lt. apply asc_app in H.
    destruct H as [_ [H _]]. apply asc_cons in H. apply (proj2 H q). auto.
  Qed.
  Lemma strict_next k m p : sp_succ cmp k m = Some p -> fst p <> k.
  Proof.
    unfold sp_succ. intros H E. apply hd_error_in in H. destruct H as [l' H]. assert (Hp : In p (above cmp k m)) by (rewrite H; left; auto).
    apply in_above in Hp. destruct Hp as [_ Hp]. rewrite E in Hp. elim (lt_irrefl OL k). auto.
  Qed.
  Lemma strict_prev k m p : sp_pred cmp k m = Some p -> fst p <> k.
  Proof.
    unfold sp_pred. intros H E. apply last_error_in in H. destruct H as [l' H].
    assert (Hp : In p (below cmp k m)) by (rewrite H; apply in_app_iff; right; left; auto).
    apply in_below in Hp. destruct Hp as [_ Hp]. rewrite E in Hp. elim (lt_irrefl OL k). auto.
  Qed.
End BTreeSide.

Section VebSide.
  Context {K V : Type} {cmp : K -> K -> comparison} (OL : OrdLaws cmp) {O : VebOps K V} (L : VebLaws cmp (Sized_ops O))
          (Hsz : forall t l, repr L t l -> sz_len t = N.of_nat (length l)) (data : V)
          {adm : list (K * V) -> K -> Prop} (Hcov : covered L adm).
  Notation B := (veb_bench O data).

  (** the call of the tree behind a call of the benchmark *)
  Definition bcall (c : bop K V) : op K V :=
    match c with
    | BLen => Min
    | BInsert k => Insert k data
    | BRemove k => Remove k
    | BFind k => Find k
    | BNext k => Succ k
    | BPrev k => Pred k
    | BFindMut k w => FindMut k w
    | BNextMut k w => SuccMut k w
    | BPrevMut k w => PredMut k w
    end.
  Definition bview (c : bop K V) (o : out K V) : bout K V :=
    match c, o with
    | (BNext _ | BPrev _ | BNextMut _ _ | BPrevMut _ _), OP p => BP p
    | _, OP p => BV (omap snd p)
    | _, OB _ => BP None
    end.
  Lemma veb_step_call c ot : c <> BLen ->
    b_step B c ot = (' (ot', o) <- step (Sized_ops O) (bcall c) ot ;; Ret (ot', bview c o)).
  Proof.
    intros Hc. destruct c; try (elim Hc; reflexivity); destruct ot as [t|]; try reflexivity;
      unfold bcall, b_step, step, query, write; cbn [b_insert b_remove b_find b_next b_prev b_find_mut b_next_mut b_prev_mut veb_bench on_tree veb_insert veb_remove]; unfold rmap.
    - destruct (v_insert (Sized_ops O) t k data) as [[t' r]|]; reflexivity.
    - destruct (v_remove (Sized_ops O) t k) as [[[ot' p]|t']|]; reflexivity.
    - destruct (v_find (Sized_ops O) t k) as [o|]; reflexivity.
    - destruct (v_successor (Sized_ops O) t k) as [o|]; reflexivity.
    - destruct (v_predecessor (Sized_ops O) t k) as [o|]; reflexivity.
    - destruct (v_find_mut (Sized_ops O) t k) as [[[[k' v'] put]|]|]; reflexivity.
    - destruct (v_successor_mut (Sized_ops O) t k) as [[[[k' v'] put]|]|]; reflexivity.
    - destruct (v_predecessor_mut (Sized_ops O) t k) as [[[[k' v'] put]|]|]; reflexivity.
  Qed.
  Lemma sp_step_call c l : c <> BLen ->
    sp_bstep cmp data false c l = (fst (sp_step cmp (bcall c) l), bview c (snd (sp_step cmp (bcall c) l))).
  Proof. intros Hc. destruct c; try (elim Hc; reflexivity); reflexivity. Qed.

  Lemma veb_step c ot l : reprO L ot l ->
    match c with BInsert k => adm l k /\ (N.of_nat (length l) < usize_max)%N | _ => True end ->
    exists ot', b_step B c ot = Ret (ot', snd (sp_bstep cmp data false c l)) /\ reprO L ot' (fst (sp_bstep cmp data false c l)).
  Proof.
    intros H Ha. assert (Hc : c = BLen \/ c <> BLen) by (destruct c; auto; right; discriminate). destruct Hc as [->|Hc].
    - exists ot. split; auto. cbn. f_equal. f_equal. f_equal. destruct ot as [t|]; cbn in H; [apply Hsz; auto|subst; auto].
    - destruct (step_refines OL L adm (bcall c) ot l Hcov H) as [ot' [E H']].
      { destruct c; auto. }
      exists ot'. rewrite veb_step_call, sp_step_call by auto. rewrite E. cbn [bind fst snd]. auto.
  Qed.
  Lemma veb_run cs : forall ot l, reprO L ot l -> b_admissible cmp data false adm cs l ->
    exists ot', b_run B cs ot = Ret (ot', snd (sp_brun cmp data false cs l)) /\ reprO L ot' (fst (sp_brun cmp data false cs l)).
  Proof.
    induction cs as [|c cs IH]; intros ot l H Ha; cbn [b_run sp_brun].
    - exists ot. auto.
    - destruct Ha as [Ha1 Ha2]. destruct (veb_step c ot l H Ha1) as [ot1 [E1 H1]]. rewrite E1. cbn [bind].
      destruct (sp_bstep cmp data false c l) as [l1 o]. cbn [fst snd] in *. destruct (IH ot1 l1 H1 Ha2) as [ot2 [E2 H2]].
      rewrite E2. cbn [bind]. destruct (sp_brun cmp data false cs l1) as [l2 os]. exists ot2. auto.
  Qed.
End VebSide.

(** *** Filling *)
Lemma filter_len {A} (f : A -> bool) l : length (filter f l) <= length l.
Proof. induction l as [|a l IH]; cbn; auto. destruct (f a); cbn; lia. Qed.
Section Fill.
  Context {K V : Type} {cmp : K -> K -> comparison} (OL : OrdLaws cmp) (data : V).
  Notation asc := (@ascending K V cmp).
  Definition filled (xs : list K) : list (K * V) := map (fun x => (x, data)) xs.

  Lemma keys_filled xs : keys (filled xs) = xs.
  Proof. unfold keys, filled. rewrite map_map. apply map_id. Qed.
  Lemma sp_insert_end l k : (forall q : K * V, In q l -> cmp (fst q) k = Lt) -> sp_insert cmp k data l = l ++ [(k, data)].
  Proof. intros H. unfold sp_insert. destruct (below_all OL l k H) as [-> ->]. auto. Qed.
  Lemma sp_find_fresh l k : (forall q : K * V, In q l -> cmp (fst q) k = Lt) -> sp_find cmp k l = None.
  Proof.
    intros H. apply (sp_find_none OL). intros Hk. apply keys_in in Hk. destruct Hk as [v Hv]. apply H in Hv.
    elim (lt_irrefl OL k). auto.
  Qed.
  Lemma fill_run incl xs : forall ys, StronglySorted (fun a b => cmp a b = Lt) (ys ++ xs) ->
    sp_brun cmp data incl (map BInsert xs) (filled ys) = (filled (ys ++ xs), map (fun _ => BV None) xs).
  Proof.
    induction xs as [|x xs IH]; intros ys H; cbn [sp_brun map].
    - rewrite app_nil_r. auto.
    - assert (Hx : forall q : K * V, In q (filled ys) -> cmp (fst q) x = Lt).
      { intros q Hq. apply in_map_iff in Hq. destruct Hq as [y [<- Hy]]. cbn. clear -H Hy. induction ys as [|z ys IH]; [destruct Hy|].
        cbn in H. apply StronglySorted_inv in H. destruct H as [H1 H2]. destruct Hy as [->|Hy]; [|auto].
        rewrite Forall_forall in H2. apply H2. apply in_app_iff. right. left. auto. }
      cbn [sp_bstep]. rewrite sp_insert_end, sp_find_fresh by auto.
      replace (filled ys ++ [(x, data)]) with (filled (ys ++ [x])) by (unfold filled; rewrite map_app; auto).
      assert (E : ys ++ x :: xs = (ys ++ [x]) ++ xs) by (rewrite <- app_assoc; auto).
      rewrite IH by (rewrite <- E; auto). rewrite <- E. auto.
  Qed.
  Lemma sorted_filter (f : K -> bool) xs : StronglySorted (fun a b => cmp a b = Lt) xs ->
    StronglySorted (fun a b => cmp a b = Lt) (filter f xs).
  Proof.
    induction xs as [|x xs IH]; intros H; cbn; [constructor|]. apply StronglySorted_inv in H. destruct H as [H1 H2].
    destruct (f x); auto. constructor; auto. rewrite Forall_forall in *. intros y Hy. apply filter_In in Hy. apply H2, Hy.
  Qed.
  Lemma fill_admissible (adm : list (K * V) -> K -> Prop) xs : (forall l k, adm_ascending cmp l k -> adm l k) ->
    forall ys, StronglySorted (fun a b => cmp a b = Lt) (ys ++ xs) -> (N.of_nat (length (ys ++ xs)) <= usize_max)%N ->
    b_admissible cmp data false adm (map BInsert xs) (filled ys).
  Proof.
    intros Hadm. induction xs as [|x xs IH]; intros ys H Hl; cbn [b_admissible map]; auto.
    assert (Hx : forall q : K * V, In q (filled ys) -> cmp (fst q) x = Lt).
    { intros q Hq. apply in_map_iff in Hq. destruct Hq as [y [<- Hy]]. cbn. clear -H Hy. induction ys as [|z ys IH]; [destruct Hy|].
      cbn in H. apply StronglySorted_inv in H. destruct H as [H1 H2]. destruct Hy as [->|Hy]; [|auto].
      rewrite Forall_forall in H2. apply H2. apply in_app_iff. right. left. auto. }
    assert (E : ys ++ x :: xs = (ys ++ [x]) ++ xs) by (rewrite <- app_assoc; auto). split; [split|].
    - apply Hadm. right. intros k' Hk. apply keys_in in Hk. destruct Hk as [v Hv]. apply (Hx (k', v)). auto.
    - unfold filled. rewrite map_length. rewrite app_length in Hl. cbn [length] in Hl. lia.
    - cbn [sp_bstep fst]. rewrite sp_insert_end by auto.
      replace (filled ys ++ [(x, data)]) with (filled (ys ++ [x])) by (unfold filled; rewrite map_app; auto).
      apply IH; rewrite <- E; auto.
  Qed.
  Lemma b_admissible_app adm cs1 : forall cs2 l, b_admissible cmp data false adm (cs1 ++ cs2) l <->
    b_admissible cmp data false adm cs1 l /\ b_admissible cmp data false adm cs2 (fst (sp_brun cmp data false cs1 l)).
  Proof.
    induction cs1 as [|c cs1 IH]; intros cs2 l; cbn [b_admissible app sp_brun].
    - cbn. tauto.
    - rewrite IH. destruct (sp_bstep cmp data false c l) as [l1 o]. cbn [fst]. destruct (sp_brun cmp data false cs1 l1). cbn. tauto.
  Qed.
  Lemma at_gaps_app incl cs1 : forall cs2 l, at_gaps cmp data incl (cs1 ++ cs2) l <->
    at_gaps cmp data incl cs1 l /\ at_gaps cmp data incl cs2 (fst (sp_brun cmp data incl cs1 l)).
  Proof.
    induction cs1 as [|c cs1 IH]; intros cs2 l; cbn [at_gaps app sp_brun].
    - cbn. tauto.
    - rewrite IH. destruct (sp_bstep cmp data incl c l) as [l1 o]. cbn [fst]. destruct (sp_brun cmp data incl cs1 l1). cbn. tauto.
  Qed.
  Lemma fill_gaps incl xs : forall l, at_gaps cmp data incl (map BInsert xs) l.
  Proof. induction xs as [|x xs IH]; intros l; cbn [at_gaps map]; auto. Qed.
  Lemma no_insert_admissible adm cs : Forall no_insert cs -> forall l, b_admissible cmp data false adm cs l.
  Proof.
    induction 1 as [|c cs Hc Hcs IH]; intros l; cbn [b_admissible]; auto. split; auto. destruct c; auto. destruct Hc.
  Qed.
  Lemma sp_brun_app incl cs1 : forall cs2 l, sp_brun cmp data incl (cs1 ++ cs2) l =
    let (l1, os1) := sp_brun cmp data incl cs1 l in let (l2, os2) := sp_brun cmp data incl cs2 l1 in (l2, os1 ++ os2).
  Proof.
    induction cs1 as [|c cs1 IH]; intros cs2 l; cbn [app sp_brun].
    - destruct (sp_brun cmp data incl cs2 l). auto.
    - destruct (sp_bstep cmp data incl c l) as [l1 o]. rewrite IH. destruct (sp_brun cmp data incl cs1 l1) as [l2 os1].
      destruct (sp_brun cmp data incl cs2 l2). auto.
  Qed.
  Lemma sp_brun_asc incl cs : forall l, asc l -> asc (fst (sp_brun cmp data incl cs l)).
  Proof.
    induction cs as [|c cs IH]; intros l H; cbn [sp_brun]; auto. assert (H1 := sp_bstep_asc OL data incl c l H).
    destruct (sp_bstep cmp data incl c l) as [l1 o]. cbn [fst] in H1. assert (H2 := IH l1 H1).
    destruct (sp_brun cmp data incl cs l1). auto.
  Qed.
End Fill.

(** *** For the tree types *)
Section Types.
  Context {fixed : bool} {K V : Type} {cmp : K -> K -> comparison} {O : VebOps K V} (T : VebType fixed K V cmp O) (data : V).
  Notation ST := (VT_Sized fixed _ _ _ _ T).
  Lemma covered_ok : covered (type_laws ST) (adm_ok T).
  Proof. intros t l k H [Ha|Ha]; [exact (covered_asc ST t l k H Ha)|exact (covered_fits ST t l k H Ha)]. Qed.
  Lemma repr_size t l : repr (type_laws ST) t l -> sz_len t = N.of_nat (length l).
  Proof. intros H. rewrite <- (repr_len (type_laws ST) t l H). apply H. Qed.

  Lemma bench_veb cs : b_admissible cmp data false (adm_ok T) cs [] ->
    exists ot, b_run (veb_bench O data) cs None = Ret (ot, snd (sp_brun cmp data false cs [])).
  Proof.
    intros H. destruct (veb_run (type_ord T) (type_laws ST) repr_size data covered_ok cs None [] eq_refl H) as [ot [E _]]. eauto.
  Qed.
  Lemma bench_agree cs : b_admissible cmp data false (adm_ok T) cs [] -> at_gaps cmp data false cs [] ->
    exists ot m os, b_run (veb_bench O data) cs None = Ret (ot, os) /\ b_run (btree_bench cmp data) cs [] = Ret (m, os).
  Proof.
    intros H Hg. destruct (bench_veb cs H) as [ot E]. exists ot, (fst (sp_brun cmp data false cs [])), (snd (sp_brun cmp data false cs [])).
    split; auto. rewrite (btree_run (type_ord T)) by apply asc_nil. rewrite (gaps_agree (type_ord T)) by auto.
    rewrite <- surjective_pairing. auto.
  Qed.
  Lemma bench_differ cs k : b_admissible cmp data false (adm_ok T) cs [] -> at_gaps cmp data false cs [] ->
    In k (keys (fst (sp_brun cmp data false cs []))) ->
    exists os ot m o o', b_run (veb_bench O data) (cs ++ [BNext k]) None = Ret (ot, os ++ [BP o]) /\
      b_run (btree_bench cmp data) (cs ++ [BNext k]) [] = Ret (m, os ++ [BP o']) /\ omap fst o' = Some k /\ omap fst o <> Some k.
  Proof.
    intros H Hg Hk. destruct (bench_veb (cs ++ [BNext k])) as [ot E].
    { apply b_admissible_app. split; auto. cbn. auto. }
    assert (Hasc := sp_brun_asc (type_ord T) data false cs [] (asc_nil)).
    rewrite sp_brun_app in E. rewrite (btree_run (type_ord T)) by apply asc_nil. rewrite sp_brun_app.
    rewrite (gaps_agree (type_ord T)) by auto. destruct (sp_brun cmp data false cs []) as [l os]. cbn in *.
    apply keys_in in Hk. destruct Hk as [v Hv].
    exists os, ot, l, (sp_succ cmp k l), (sp_ge cmp k l). split; auto. split; auto. split.
    - rewrite (stored_next (type_ord T) k v l); auto.
    - destruct (sp_succ cmp k l) as [p|] eqn:Es; [|discriminate]. cbn. intros Ep. injection Ep as Ep.
      apply (strict_next (type_ord T) k l p); auto.
  Qed.

  (** with the corrected insertion: on every history *)
  Lemma bench_fixed cs : fixed = true -> b_admissible cmp data false adm_any cs [] -> at_gaps cmp data false cs [] ->
    exists ot m os, b_run (veb_bench O data) cs None = Ret (ot, os) /\ b_run (btree_bench cmp data) cs [] = Ret (m, os).
  Proof.
    intros Hf H Hg. assert (Hc : covered (type_laws ST) adm_any) by (clear -Hf; subst fixed; apply covered_fixed).
    destruct (veb_run (type_ord T) (type_laws ST) repr_size data Hc cs None [] eq_refl H) as [ot [E _]].
    exists ot, (fst (sp_brun cmp data false cs [])), (snd (sp_brun cmp data false cs [])).
    split; auto. rewrite (btree_run (type_ord T)) by apply asc_nil. rewrite (gaps_agree (type_ord T)) by auto.
    rewrite <- surjective_pairing. auto.
  Qed.
  (** never a panic *)
  Lemma run_panic cs : forall ot, run (Sized_ops O) (map (bcall data) cs) ot <> Panic -> b_run (veb_bench O data) cs ot <> Panic.
  Proof.
    induction cs as [|c cs IH]; intros ot H; cbn [b_run run map] in *; [discriminate|].
    assert (Hc : c = BLen \/ c <> BLen) by (destruct c; auto; right; discriminate). destruct Hc as [->|Hc].
    - cbn [b_step bind b_len veb_bench]. cbn [bcall] in H.
      assert (H' : run (Sized_ops O) (map (bcall data) cs) ot <> Panic).
      { destruct ot as [t|]; cbn [step] in H; unfold query1 in H.
        - destruct (v_min_val (Sized_ops O) t); [|elim H; reflexivity]. cbn [bind] in H. intros E. rewrite E in H. apply H. reflexivity.
        - cbn [bind] in H. intros E. rewrite E in H. apply H. reflexivity. }
      apply IH in H'. destruct (b_run (veb_bench O data) cs ot) as [[? ?]|]; [discriminate|auto].
    - rewrite veb_step_call by auto. destruct (step (Sized_ops O) (bcall data c) ot) as [[ot1 o]|]; [|elim H; reflexivity].
      cbn [bind] in *. assert (H' : run (Sized_ops O) (map (bcall data) cs) ot1 <> Panic).
      { intros E. rewrite E in H. apply H. reflexivity. }
      apply IH in H'. destruct (b_run (veb_bench O data) cs ot1) as [[? ?]|]; [discriminate|auto].
  Qed.
  Lemma bench_no_panic cs : (N.of_nat (length cs) <= usize_max)%N -> b_run (veb_bench O data) cs None <> Panic.
  Proof. intros H. apply run_panic. apply (no_panic_run (type_laws ST)). rewrite map_length. auto. Qed.

  (** filled, then used without insertions *)
  Lemma bench_filled xs coin cs : StronglySorted (fun a b => cmp a b = Lt) xs -> (N.of_nat (length xs) <= usize_max)%N ->
    Forall no_insert cs -> at_gaps cmp data false cs (filled data (filter coin xs)) ->
    exists ot m os, b_run (veb_bench O data) (fill xs coin ++ cs) None = Ret (ot, os) /\
      b_run (btree_bench cmp data) (fill xs coin ++ cs) [] = Ret (m, os).
  Proof.
    intros Hs Hl Hn Hg. assert (Hs' := sorted_filter coin xs Hs).
    assert (E := fill_run (type_ord T) data false (filter coin xs) [] Hs'). cbn [filled map app] in E.
    apply bench_agree.
    - apply b_admissible_app. split; [|apply no_insert_admissible; auto].
      apply (fill_admissible (type_ord T) data (adm_ok T) (filter coin xs)) with (ys := []); auto.
      + intros l k H. left. auto.
      + cbn [app]. assert (Hf := filter_len coin xs). lia.
    - apply at_gaps_app. split; [apply fill_gaps|]. unfold fill. rewrite E. auto.
  Qed.
End Types.

(** *** The benchmark's own types *)
Lemma keys32_length (B : Build) bits : (N.of_nat bits < usize_bits)%N -> (N.of_nat (length (keys32 bits)) <= usize_max)%N.
Proof.
  intros H. unfold keys32. rewrite map_length, seq_length, Nat2N.inj_pow. change (N.of_nat 2) with 2%N.
  assert (Hp : (2 ^ N.of_nat bits < 2 ^ usize_bits)%N) by (apply N.pow_lt_mono_r; [reflexivity|exact H]). unfold usize_max. lia.
Qed.
Lemma keys32_sorted bits : bits <= 32 -> StronglySorted (fun a b => u_cmp a b = Lt) (keys32 bits).
Proof.
  intros H. unfold keys32. assert (Hb : (N.of_nat (2 ^ bits) <= 2 ^ 32)%N).
  { rewrite Nat2N.inj_pow. change (N.of_nat 2) with 2%N. apply N.pow_le_mono_r; lia. }
  assert (Hs : forall n i, (N.of_nat (i + n) <= 2 ^ 32)%N ->
    StronglySorted (fun a b => u_cmp a b = Lt) (map (fun n => wrap 32 (N.of_nat n)) (seq i n))).
  { induction n as [|n IH]; intros i Hi; cbn [seq map]; constructor.
    - apply IH. replace (S i + n) with (i + S n) by lia. auto.
    - rewrite Forall_forall. intros x Hx. apply in_map_iff in Hx. destruct Hx as [j [<- Hj]]. apply in_seq in Hj.
      unfold u_cmp. rewrite !wrap_small by lia. apply N.compare_lt_iff. lia. }
  apply (Hs (2 ^ bits) 0). auto.
Qed.

(** deciding the conditions on concrete histories *)
Section Decide.
  Context {K V : Type} {cmp : K -> K -> comparison} (OL : OrdLaws cmp) (data : V).
  Definition in_b (k : K) (l : list K) : bool := existsb (fun k' => eqb cmp k' k) l.
  Lemma in_b_ok k l : in_b k l = true <-> In k l.
  Proof.
    unfold in_b. rewrite existsb_exists. split.
    - intros [k' [H E]]. apply (eqb_eq OL) in E. subst. auto.
    - intros H. exists k. split; auto. apply (eqb_refl OL).
  Qed.
  Fixpoint at_gaps_b (incl : bool) (cs : list (bop K V)) (l : list (K * V)) : bool :=
    match cs with
    | [] => true
    | c :: cs' =>
        match c with BNext k | BPrev k | BNextMut k _ | BPrevMut k _ => negb (in_b k (keys l)) | _ => true end &&
        at_gaps_b incl cs' (fst (sp_bstep cmp data incl c l))
    end.
  Lemma at_gaps_b_ok incl cs : forall l, at_gaps_b incl cs l = true -> at_gaps cmp data incl cs l.
  Proof.
    induction cs as [|c cs IH]; intros l H; [exact I|]. cbn [at_gaps_b] in H. apply andb_prop in H. destruct H as [H1 H2].
    split; [|auto]. destruct c; auto; rewrite negb_true_iff in H1; rewrite <- in_b_ok, H1; discriminate.
  Qed.
  Context {fixed : bool} {O : VebOps K V} (T : VebType fixed K V cmp O).
  Fixpoint b_admissible_b (cs : list (bop K V)) (l : list (K * V)) : bool :=
    match cs with
    | [] => true
    | c :: cs' =>
        match c with
        | BInsert k => (ascending_b cmp l k || fits T (keys l) k) && (N.of_nat (length l) <? usize_max)%N
        | _ => true
        end && b_admissible_b cs' (fst (sp_bstep cmp data false c l))
    end.
  Lemma b_admissible_b_ok cs : forall l, b_admissible_b cs l = true -> b_admissible cmp data false (adm_ok T) cs l.
  Proof.
    induction cs as [|c cs IH]; intros l H; [exact I|]. cbn [b_admissible_b] in H. apply andb_prop in H. destruct H as [H1 H2].
    split; [|auto]. destruct c; auto. apply andb_prop in H1. destruct H1 as [H1 H3]. apply N.ltb_lt in H3. split; auto.
    apply orb_prop in H1. destruct H1 as [H1|H1]; [left; apply (ascending_b_ok cmp OL); auto|right; auto].
  Qed.
End Decide.

End AllBuilds.

Definition b_answers {B : Type} {K V} (r : res (B * list (bout K V))) : list (bout K V) :=
  match r with Ret (_, os) => os | Panic => [] end.
Definition is_ret {A} (r : res A) : bool := match r with Ret _ => true | Panic => false end.
Definition last_len {K V} (os : list (bout K V)) : N := match last_error os with Some (BN n) => n | _ => 0%N end.
Definition spoil : list (bop (u 32) unit) := [BInsert (b32 5); BInsert (b32 15); BLen].
Definition coin2' (x : u 32) : bool := ((uval x =? 10) || (uval x =? 15))%N.
Lemma agree_refuted : exists bits coin cs, bits <= 32 /\
  (forall k, ~ In (BNext k) cs) /\ (forall k, ~ In (BPrev k) cs) /\
  exists ot m os os', b_run (veb_bench U32Set tt) (fill (keys32 bits) coin ++ cs) None = Ret (ot, os) /\
    b_run (btree_bench u_cmp tt) (fill (keys32 bits) coin ++ cs) [] = Ret (m, os') /\ os <> os'.
Proof.
  exists 4, coin2', spoil. split; [lia|].
  split; [intros k [H|[H|[H|[]]]]; discriminate H|]. split; [intros k [H|[H|[H|[]]]]; discriminate H|].
  assert (H1 : (is_ret (b_run (veb_bench U32Set tt) (fill (keys32 4) coin2' ++ spoil) None),
                last_len (b_answers (b_run (veb_bench U32Set tt) (fill (keys32 4) coin2' ++ spoil) None))) = (true, 4%N)).
  { vm_compute. reflexivity. }
  assert (H2 : (is_ret (b_run (btree_bench u_cmp tt) (fill (keys32 4) coin2' ++ spoil) []),
                last_len (b_answers (b_run (btree_bench u_cmp tt) (fill (keys32 4) coin2' ++ spoil) []))) = (true, 3%N)).
  { vm_compute. reflexivity. }
  destruct (b_run (veb_bench U32Set tt) (fill (keys32 4) coin2' ++ spoil) None) as [[ot os]|]; [|discriminate H1].
  destruct (b_run (btree_bench u_cmp tt) (fill (keys32 4) coin2' ++ spoil) []) as [[m os']|]; [|discriminate H2].
  exists ot, m, os, os'. split; auto. split; auto. cbn in H1, H2. intros ->. congruence.
Qed.
