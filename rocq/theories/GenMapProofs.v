(** [ByteMap] over a list that keeps its contract behaves as [ByteMap] over [VecDeque]. *)
From Verif Require Import Base Ints Ops Spec Lists Laws ByteSet ByteMap ByteMapProofs Coll CollProofs CollSpec CollCor HistProofs
  KeyProofs TypesProofs Types Open OpenCor GenMap.

(** *** A dictionary that simulates a lawful one is lawful *)
Section Sim.
  Context {K V : Type} {cmp : K -> K -> comparison} {O' O : VebOps K V} (al : vt O' -> vt O) (I : vt O' -> Prop).
  Definition sim_opt (ot' : option (vt O')) (ot : option (vt O)) : Prop :=
    match ot', ot with
    | Some t', Some t => I t' /\ al t' = t
    | None, None => True
    | _, _ => False
    end.
  Definition sim_put (put' : V -> vt O') (put : V -> vt O) : Prop := forall w, I (put' w) /\ al (put' w) = put w.
  Definition sim_mut1 (m' : res (K * V * (V -> vt O'))) (m : res (K * V * (V -> vt O))) : Prop :=
    forall p put, m = Ret (p, put) -> exists put', m' = Ret (p, put') /\ sim_put put' put.
  Definition sim_mut (m' : res (option (K * V * (V -> vt O')))) (m : res (option (K * V * (V -> vt O)))) : Prop :=
    (m = Ret None -> m' = Ret None) /\
    forall p put, m = Ret (Some (p, put)) -> exists put', m' = Ret (Some (p, put')) /\ sim_put put' put.
  Definition sim_val {A} (m' m : res A) : Prop := forall a, m = Ret a -> m' = Ret a.
  Definition sim_taken (m' : res (option (vt O') * (K * V))) (m : res (option (vt O) * (K * V))) : Prop :=
    forall ot p, m = Ret (ot, p) -> exists ot', m' = Ret (ot', p) /\ sim_opt ot' ot.
  Record Sim : Prop := mkSim {
    S_from : forall k v, I (v_from_monad O' k v) /\ al (v_from_monad O' k v) = v_from_monad O k v;
    S_is : forall t, I t -> sim_val (v_is_monad O' t) (v_is_monad O (al t));
    S_hint : forall t, I t -> sim_val (v_len_hint O' t) (v_len_hint O (al t));
    S_into_ok : forall t p, I t -> v_into_monad O (al t) = Ret (Ok p) -> v_into_monad O' t = Ret (Ok p);
    S_into_err : forall t, I t -> v_into_monad O (al t) = Ret (Err (al t)) -> v_into_monad O' t = Ret (Err t);
    S_min : forall t, I t -> sim_val (v_min_val O' t) (v_min_val O (al t));
    S_max : forall t, I t -> sim_val (v_max_val O' t) (v_max_val O (al t));
    S_find : forall t k, I t -> sim_val (v_find O' t k) (v_find O (al t) k);
    S_pred : forall t k, I t -> sim_val (v_predecessor O' t k) (v_predecessor O (al t) k);
    S_succ : forall t k, I t -> sim_val (v_successor O' t k) (v_successor O (al t) k);
    S_min_mut : forall t, I t -> sim_mut1 (v_min_val_mut O' t) (v_min_val_mut O (al t));
    S_max_mut : forall t, I t -> sim_mut1 (v_max_val_mut O' t) (v_max_val_mut O (al t));
    S_find_mut : forall t k, I t -> sim_mut (v_find_mut O' t k) (v_find_mut O (al t) k);
    S_pred_mut : forall t k, I t -> sim_mut (v_predecessor_mut O' t k) (v_predecessor_mut O (al t) k);
    S_succ_mut : forall t k, I t -> sim_mut (v_successor_mut O' t k) (v_successor_mut O (al t) k);
    S_insert : forall t k v t1 r, I t -> v_insert O (al t) k v = Ret (t1, r) ->
      exists t', v_insert O' t k v = Ret (t', r) /\ I t' /\ al t' = t1;
    S_remove_ok : forall t k ot p, I t -> v_remove O (al t) k = Ret (Ok (ot, p)) ->
      exists ot', v_remove O' t k = Ret (Ok (ot', p)) /\ sim_opt ot' ot;
    S_remove_err : forall t k, I t -> v_remove O (al t) k = Ret (Err (al t)) -> v_remove O' t k = Ret (Err t);
    S_remove_min : forall t, I t -> sim_taken (v_remove_min O' t) (v_remove_min O (al t));
    S_remove_max : forall t, I t -> sim_taken (v_remove_max O' t) (v_remove_max O (al t))
  }.
  Context {B : Build} (S : Sim) (L : VebLaws cmp O).
  Notation winv' := (fun t => I t /\ winv L (al t)).
  Notation ents' := (fun t => ents L (al t)).
  Notation ord' := (fun t => ord L (al t)).

  Lemma sim_lens t p put' put : sim_put put' put -> lens_ok (winv L) (ord L) (ents L) (al t) p put -> lens_ok winv' ord' ents' t p put'.
  Proof.
    intros Hp [rest [H1 H2]]. exists rest. split; auto. intros w. destruct (Hp w) as [H3 H4]. rewrite H4.
    destruct (H2 w) as [H5 [H6 H7]]. repeat split; auto.
  Qed.
  Lemma sim_mut1_ok t m' m i' i : sim_mut1 m' m -> sim_val i' i -> mut1_ok (winv L) (ord L) (ents L) (al t) m i ->
    mut1_ok winv' ord' ents' t m' i'.
  Proof.
    intros Hm Hi [p [put [E1 [E2 H]]]]. destruct (Hm p put E1) as [put' [E H']]. exists p, put'. split; auto. split; auto.
    apply (sim_lens t p put' put); auto.
  Qed.
  Lemma sim_mut_ok t m' m i' i : sim_mut m' m -> sim_val i' i -> mut_ok (winv L) (ord L) (ents L) (al t) m i ->
    mut_ok winv' ord' ents' t m' i'.
  Proof.
    intros [Hn Hs] Hi [o [E1 [E2 H]]]. destruct o as [[p put]|].
    - destruct (Hs p put E1) as [put' [E H']]. exists (Some (p, put')). split; auto. split; [exact (Hi _ E2)|].
      intros p0 put0 E0. injection E0 as <- <-. apply (sim_lens t p put' put); auto.
    - exists None. split; auto. split; [exact (Hi _ E2)|]. discriminate.
  Qed.
  Lemma sim_taken_ok t p ot' ot : sim_opt ot' ot -> taken (winv L) (ord L) (ents L) (al t) p ot -> taken winv' ord' ents' t p ot'.
  Proof.
    unfold sim_opt, taken. destruct ot' as [t'|], ot as [t1|]; try tauto. intros [H1 <-] [H2 [H3 H4]]. auto.
  Qed.

  Definition sim_laws : VebLaws cmp O'.
  Proof.
    refine {| winv := winv'; ents := ents'; ord := ord'; safe := fun t k => safe L (al t) k |}.
    - intros t [_ H]. apply L_nonempty. exact H.
    - intros t [_ H]. apply L_nodup. exact H.
    - intros t k [_ H]. apply L_safe_in. exact H.
    - intros t k [_ H]. apply L_safe_gt. exact H.
    - intros k v. destruct (S_from S k v) as [H1 H2]. rewrite H2. destruct (L_from_monad L k v) as [H3 [H4 H5]]. auto.
    - intros t [H1 H]. apply (S_is S t H1). apply L_is_monad. exact H.
    - intros t [H1 H]. destruct (L_len_hint L _ H) as [lo [hi [E H']]]. exists lo, hi. split; auto. apply (S_hint S t H1). exact E.
    - intros t [H1 H]. destruct (L_into_monad L _ H) as [[p [E H']]|[E H']].
      + left. exists p. split; auto. apply S_into_ok; auto.
      + right. split; auto. apply S_into_err; auto.
    - intros t [H1 H]. destruct (L_min L _ H) as [p [E H']]. exists p. split; auto. apply (S_min S t H1). exact E.
    - intros t [H1 H]. destruct (L_max L _ H) as [p [E H']]. exists p. split; auto. apply (S_max S t H1). exact E.
    - intros t k [H1 H]. destruct (L_find L _ k H) as [p [E H']]. exists p. split; auto. apply (S_find S t k H1). exact E.
    - intros t k [H1 H]. destruct (L_pred L _ k H) as [p [E H']]. exists p. split; auto. apply (S_pred S t k H1). exact E.
    - intros t k [H1 H]. destruct (L_succ L _ k H) as [p [E H']]. exists p. split; auto. apply (S_succ S t k H1). exact E.
    - intros t [H1 H]. apply (sim_mut1_ok t _ _ _ _ (S_min_mut S t H1) (S_min S t H1)). apply L_min_mut. exact H.
    - intros t [H1 H]. apply (sim_mut1_ok t _ _ _ _ (S_max_mut S t H1) (S_max S t H1)). apply L_max_mut. exact H.
    - intros t k [H1 H]. apply (sim_mut_ok t _ _ _ _ (S_find_mut S t k H1) (S_find S t k H1)). apply L_find_mut. exact H.
    - intros t k [H1 H]. apply (sim_mut_ok t _ _ _ _ (S_pred_mut S t k H1) (S_pred S t k H1)). apply L_pred_mut. exact H.
    - intros t k [H1 H]. apply (sim_mut_ok t _ _ _ _ (S_succ_mut S t k H1) (S_succ S t k H1)). apply L_succ_mut. exact H.
    - intros t k v [H1 H] Hl. destruct (L_insert L _ k v H Hl) as [t1 [r [E [H2 [H3 [H4 H5]]]]]].
      destruct (S_insert S t k v t1 r H1 E) as [t' [E' [H6 H7]]]. exists t', r. subst t1. repeat split; auto.
    - intros t k [H1 H]. destruct (L_remove L _ k H) as [[ot [p [E [H2 H3]]]]|[E H2]].
      + left. destruct (S_remove_ok S t k ot p H1 E) as [ot' [E' H4]]. exists ot', p. split; auto. split; auto.
        apply (sim_taken_ok t p ot' ot); auto.
      + right. split; auto. apply S_remove_err; auto.
    - intros t [H1 H]. destruct (L_remove_min L _ H) as [ot [p [E [H2 H3]]]].
      destruct (S_remove_min S t H1 ot p E) as [ot' [E' H4]]. exists ot', p. split; auto. split; [apply (S_min S t H1); exact H2|].
      apply (sim_taken_ok t p ot' ot); auto.
    - intros t [H1 H]. destruct (L_remove_max L _ H) as [ot [p [E [H2 H3]]]].
      destruct (S_remove_max S t H1 ot p E) as [ot' [E' H4]]. exists ot', p. split; auto. split; [apply (S_max S t H1); exact H2|].
      apply (sim_taken_ok t p ot' ot); auto.
  Defined.
End Sim.

(** *** Positions in a sequence *)
Lemma vd_get_split {A} (l : list A) n x : vd_get l n = Ret x -> exists a b, l = a ++ x :: b /\ n = N.of_nat (length a).
Proof.
  unfold vd_get. destruct (nth_error l (N.to_nat n)) as [y|] eqn:E; [|discriminate]. cbn. intros E'. injection E' as ->.
  destruct (nth_error_split _ _ E) as [a [b [H1 H2]]]. exists a, b. split; auto. lia.
Qed.
Lemma list_set_mid {A} (a : list A) x b w : list_set (a ++ x :: b) (length a) w = a ++ w :: b.
Proof. induction a as [|y a IH]; cbn; [auto|]. rewrite IH. auto. Qed.
Lemma list_del_mid {A} (a : list A) x b : list_del (a ++ x :: b) (length a) = a ++ b.
Proof.
  unfold list_del. rewrite firstn_app, Nat.sub_diag, firstn_all. cbn [firstn]. rewrite app_nil_r. f_equal.
  change (a ++ x :: b) with (a ++ [x] ++ b). rewrite app_assoc.
  replace (Datatypes.S (length a)) with (length (a ++ [x])) by (rewrite app_length; cbn; lia).
  rewrite skipn_app, Nat.sub_diag, skipn_all. auto.
Qed.

Lemma bind_ret_inv {A B} (m : res A) (f : A -> res B) b : bind m f = Ret b -> exists a, m = Ret a /\ f a = Ret b.
Proof. destruct m as [a|]; [|discriminate]. cbn. eauto. Qed.
Ltac bind_inv E :=
  match type of E with
  | bind ?m _ = Ret _ => let x := fresh "x" in let E0 := fresh "E" in apply bind_ret_inv in E; destruct E as [x [E0 E]]
  end.

Section GenMap.
  Context {B : Build} {V : Type} {L : ListOps V} (LC : ListContract L).
  Notation inv := (lc_inv LC).
  Notation abs := (lc_abs LC).
  Implicit Types (l : lty L) (m : ByteMap (lty L)).

  Lemma g_get l n : inv l -> sim_val (l_get L l n) (vd_get (abs l) n).
  Proof. intros H v E. apply vd_get_split in E. destruct E as [a [b [E ->]]]. apply (lc_get LC l a v b H E). Qed.
  Lemma g_get_mut l n v put : inv l -> vd_get_mut (abs l) n = Ret (v, put) ->
    exists put', l_get_mut L l n = Ret (v, put') /\ forall w, inv (put' w) /\ abs (put' w) = put w.
  Proof.
    intros H E. unfold vd_get_mut in E. bind_inv E. injection E as <- <-. apply vd_get_split in E0. destruct E0 as [a [b [E ->]]].
    destruct (lc_get_mut LC l a x b H E) as [put' [E1 H']]. exists put'. split; auto. intros w. destruct (H' w) as [H1 H2].
    split; auto. rewrite H2, E, Nnat.Nat2N.id, list_set_mid. auto.
  Qed.
  Lemma g_insert l n v (l1 : list V) : inv l -> vd_insert (abs l) n v = Ret l1 ->
    exists l', l_insert_value L l n v = Ret l' /\ inv l' /\ abs l' = l1.
  Proof.
    intros H E. unfold vd_insert in E. destruct (n <=? N.of_nat (length (abs l)))%N eqn:Hn; [|discriminate]. injection E as <-.
    apply N.leb_le in Hn.
    destruct (lc_insert LC l (firstn (N.to_nat n) (abs l)) (skipn (N.to_nat n) (abs l)) v H) as [l' [E [H1 H2]]].
    { symmetry. apply firstn_skipn. }
    exists l'. split; auto. rewrite firstn_length in E. replace (N.of_nat _) with n in E by lia. exact E.
  Qed.
  Definition sim_list (ol' : option (lty L)) (ol : option (list V)) : Prop :=
    match ol', ol with
    | Some l', Some l1 => inv l' /\ abs l' = l1
    | None, None => True
    | _, _ => False
    end.
  Lemma g_remove l n ol v : inv l -> li_remove_value (abs l) n = Ret (ol, v) ->
    exists ol', l_remove_value L l n = Ret (ol', v) /\ sim_list ol' ol.
  Proof.
    intros H E. unfold li_remove_value, vd_remove in E.
    destruct (nth_error (abs l) (N.to_nat n)) as [x|] eqn:En; [|discriminate]. cbn in E. injection E as <- <-.
    destruct (nth_error_split _ _ En) as [a [b [H1 H2]]]. rewrite <- H2, H1, list_del_mid.
    destruct (lc_remove LC l a x b H H1) as [ol' [E H3]]. exists ol'. replace n with (N.of_nat (length a)) by lia. split; auto.
    destruct ol' as [l'|]; cbn.
    - destruct H3 as [H3 H4]. assert (Hn := lc_nonempty LC l' H3). rewrite H4 in Hn. destruct (a ++ b); [tauto|cbn; auto].
    - rewrite H3. cbn. auto.
  Qed.

  Definition gm_al m : ByteMap (list V) := BM (bm_set m) (abs (bm_list m)).
  Definition gm_inv m : Prop := inv (bm_list m).
  Notation SV := (sim_val (A := _)).

  Lemma g_at m o : gm_inv m -> sim_val (gm_at L m o) (bm_at (gm_al m) o).
  Proof.
    intros H r E. destruct o as [[k []]|]; cbn in E |- *; auto. bind_inv E. rewrite (g_get _ _ H _ E0). cbn. auto.
  Qed.
  Lemma g_at_mut m o : gm_inv m -> sim_mut (O' := ByteMapOf_ops L) (O := ByteMap_ops V) gm_al gm_inv (gm_at_mut L m o) (bm_at_mut (gm_al m) o).
  Proof.
    intros H. destruct o as [[k []]|]; cbn; (split; [|intros p put]); try discriminate; auto.
    - intros E. bind_inv E. destruct x. discriminate.
    - intros E. bind_inv E. destruct x as [v put0]. injection E as <- <-. destruct (g_get_mut _ _ _ _ H E0) as [put' [E H']].
      rewrite E. cbn. eexists. split; [reflexivity|]. intros w. destruct (H' w) as [H1 H2]. cbn. split; auto.
      unfold gm_al, gm_put, bm_put. cbn. rewrite H2. auto.
  Qed.
  Lemma sim_val_bind {A C} (x : res A) (f g : A -> res C) : (forall a, sim_val (f a) (g a)) -> sim_val (bind x f) (bind x g).
  Proof. intros H c E. destruct x as [a|]; [|discriminate]. cbn in *. apply H. exact E. Qed.
  Lemma sim_mut_bind {A K} {O' O : VebOps K V} al I (x : res A) f g : (forall a, sim_mut (O' := O') (O := O) al I (f a) (g a)) ->
    sim_mut (O' := O') (O := O) al I (bind x f) (bind x g).
  Proof. intros H. destruct x as [a|]; [apply H|]. split; discriminate. Qed.
  Lemma g_at1_mut m k n : gm_inv m -> sim_mut1 (O' := ByteMapOf_ops L) (O := ByteMap_ops V) gm_al gm_inv
    (' (v, put) <- l_get_mut L (bm_list m) n ;; Ret (k, v, gm_put L m put))
    (' (v, put) <- vd_get_mut (abs (bm_list m)) n ;; Ret (k, v, bm_put (gm_al m) put)).
  Proof.
    intros H p put E. bind_inv E. destruct x as [v put0]. injection E as <- <-. destruct (g_get_mut _ _ _ _ H E0) as [put' [E H']].
    rewrite E. cbn. eexists. split; [reflexivity|]. intros w. destruct (H' w) as [H1 H2]. cbn. split; auto.
    unfold gm_al, gm_put, bm_put. cbn. rewrite H2. auto.
  Qed.
  Lemma g_len m : gm_inv m -> l_len L (bm_list m) = Ret (li_len (abs (bm_list m))).
  Proof. apply lc_len. Qed.
  Lemma g_rebuild oset ol' ol k v : sim_list ol' ol ->
    sim_taken (O' := ByteMapOf_ops L) (O := ByteMap_ops V) gm_al gm_inv (gm_rebuild L oset ol' k v) (bm_rebuild oset ol k v).
  Proof.
    intros H ot p E. unfold sim_list in H. destruct oset as [s|], ol' as [l'|], ol as [l1|]; try tauto; try discriminate; cbn in E; injection E as <- <-; cbn.
    - destruct H as [H1 <-]. eexists. split; [reflexivity|]. cbn. auto.
    - eexists. split; [reflexivity|]. cbn. auto.
  Qed.
  Lemma g_remove_ends m n x y : gm_inv m ->
    sim_taken (O' := ByteMapOf_ops L) (O := ByteMap_ops V) gm_al gm_inv
      (' (ol, v) <- l_remove_value L (bm_list m) n ;; gm_rebuild L x ol y v)
      (' (ol, v) <- li_remove_value (abs (bm_list m)) n ;; bm_rebuild x ol y v).
  Proof.
    intros H ot p E. bind_inv E. destruct x0 as [ol v]. destruct (g_remove _ _ _ _ H E0) as [ol' [E1 H1]]. rewrite E1. cbn.
    apply (g_rebuild x ol' ol); auto.
  Qed.

  Ltac ops := cbn [ByteMapOf_ops ByteMap_ops v_into_monad v_insert v_remove v_remove_min v_remove_max v_min_val v_max_val v_min_val_mut
    v_max_val_mut v_is_monad v_len_hint gm_al bm_set bm_list] in *.
  Lemma gm_sim : Sim (O' := ByteMapOf_ops L) (O := ByteMap_ops V) gm_al gm_inv.
  Proof.
    assert (His : forall m, gm_inv m -> gm_is_monad L m = bm_is_monad (gm_al m)).
    { intros m H. unfold gm_is_monad. rewrite (g_len m H). reflexivity. }
    constructor.
    - intros k v. destruct (lc_from_monad LC v) as [H1 H2]. split; [exact H1|]. cbn. unfold gm_al, gm_from_monad. cbn. rewrite H2. auto.
    - intros m H r E. cbn in *. rewrite (His m H). exact E.
    - intros m H r E. ops. unfold default_len_hint in *. rewrite (His m H). exact E.
    - intros m p H E. ops. unfold gm_into_monad, bm_into_monad in *. ops. bind_inv E. rewrite E0. cbn.
      destruct x as [[k []]|]; [|discriminate]. bind_inv E. destruct x as [ol v]. destruct (g_remove _ _ _ _ H E1) as [ol' [E2 H2]].
      rewrite E2. cbn. bind_inv E. injection E as <-. unfold sim_list in H2. destruct ol' as [l'|], ol as [l1|]; try tauto;
        cbn [is_none] in *; rewrite E3; auto.
    - intros m H E. ops. unfold gm_into_monad, bm_into_monad in *. ops. bind_inv E. rewrite E0. cbn.
      destruct x as [[k []]|s].
      + bind_inv E. destruct x as [ol v]. bind_inv E. discriminate.
      + injection E as ->. destruct m. auto.
    - intros m H. ops. unfold gm_min_val, bm_min_val. ops. apply sim_val_bind. intros [k []] r E. bind_inv E.
      rewrite (g_get _ _ H _ E0). cbn. auto.
    - intros m H. ops. unfold gm_max_val, bm_max_val. ops. apply sim_val_bind. intros [k []] r E. rewrite (g_len m H). cbn.
      bind_inv E. rewrite E0. cbn. bind_inv E. rewrite (g_get _ _ H _ E1). cbn. auto.
    - intros m k H. exact (sim_val_bind (bs_find (bm_set m) k) _ _ (fun o => g_at m o H)).
    - intros m k H. exact (sim_val_bind (bs_predecessor (bm_set m) k) _ _ (fun o => g_at m o H)).
    - intros m k H. exact (sim_val_bind (bs_successor (bm_set m) k) _ _ (fun o => g_at m o H)).
    - intros m H. ops. unfold gm_min_val_mut, bm_min_val_mut. ops. intros p put E. bind_inv E. rewrite E0. cbn. destruct x as [k []].
      apply (g_at1_mut m k 0 H p put E).
    - intros m H. ops. unfold gm_max_val_mut, bm_max_val_mut. ops. intros p put E. bind_inv E. rewrite E0. cbn. destruct x as [k []].
      rewrite (g_len m H). cbn. bind_inv E. rewrite E1. cbn. apply (g_at1_mut m k x H p put E).
    - intros m k H. exact (sim_mut_bind (O' := ByteMapOf_ops L) (O := ByteMap_ops V) gm_al gm_inv (bs_find (bm_set m) k) _ _ (fun o => g_at_mut m o H)).
    - intros m k H. exact (sim_mut_bind (O' := ByteMapOf_ops L) (O := ByteMap_ops V) gm_al gm_inv (bs_predecessor (bm_set m) k) _ _ (fun o => g_at_mut m o H)).
    - intros m k H. exact (sim_mut_bind (O' := ByteMapOf_ops L) (O := ByteMap_ops V) gm_al gm_inv (bs_successor (bm_set m) k) _ _ (fun o => g_at_mut m o H)).
    - intros m k v m1 r H E. ops. unfold gm_insert, bm_insert in *. ops. bind_inv E. rewrite E0. cbn. destruct x as [s [[k' []]|]].
      + bind_inv E. destruct x as [old put]. injection E as <- <-. destruct (g_get_mut _ _ _ _ H E1) as [put' [E H']].
        rewrite E. cbn. eexists. split; [reflexivity|]. destruct (H' v) as [H1 H2]. unfold gm_inv, gm_al. cbn. rewrite H2. auto.
      + bind_inv E. injection E as <- <-. destruct (g_insert _ _ _ _ H E1) as [l' [E [H1 H2]]]. rewrite E. cbn.
        eexists. split; [reflexivity|]. unfold gm_inv, gm_al. cbn. rewrite H2. auto.
    - intros m k ot p H E. ops. unfold gm_remove, bm_remove in *. ops. bind_inv E. rewrite E0. cbn.
      destruct x as [[[s|] [k' []]]|s]; [| |discriminate].
      + bind_inv E. destruct x as [ol v]. destruct (g_remove _ _ _ _ H E1) as [ol' [E2 H2]]. rewrite E2. cbn.
        unfold sim_list in H2. destruct ol' as [l'|], ol as [l1|]; try tauto; [|discriminate]. cbn in E |- *. injection E as <- <-.
        destruct H2 as [H2 <-]. eexists. split; [reflexivity|]. cbn. auto.
      + bind_inv E. destruct x as [ol v]. destruct (g_remove _ _ _ _ H E1) as [ol' [E2 H2]]. rewrite E2. cbn.
        bind_inv E. injection E as <- <-. unfold sim_list in H2. exists None. cbn.
        destruct ol' as [l'|], ol as [l1|]; try tauto; cbn [is_none] in *; rewrite E3; auto.
    - intros m k H E. ops. unfold gm_remove, bm_remove in *. ops. bind_inv E. rewrite E0. cbn.
      destruct x as [[[s|] [k' []]]|s].
      + bind_inv E. destruct x as [ol v]. bind_inv E. discriminate.
      + bind_inv E. destruct x as [ol v]. bind_inv E. discriminate.
      + injection E as ->. destruct m. auto.
    - intros m H ot p E. ops. unfold gm_remove_min, bm_remove_min in *. ops. bind_inv E. rewrite E0. cbn. destruct x as [k0 []].
      bind_inv E. rewrite E1. cbn. destruct x as [s [k []]]. apply (g_remove_ends m _ s k H ot p E).
    - intros m H ot p E. ops. unfold gm_remove_max, bm_remove_max in *. ops. bind_inv E. rewrite E0. cbn. destruct x as [k0 []].
      bind_inv E. rewrite E1. cbn. destruct x as [s [k []]]. apply (g_remove_ends m _ s k H ot p E).
  Qed.
End GenMap.

(** *** The same for collections *)
Section CSim.
  Context {Hi Lo V : Type} {Tr : VebOps Lo V} {C' C : CollOps Hi Lo V Tr} (al : ct C' -> ct C) (I : ct C' -> Prop).
  Definition sim_left (oc' : option (ct C' * bool)) (oc : option (ct C * bool)) : Prop :=
    match oc', oc with
    | Some (c', b'), Some (c, b) => I c' /\ al c' = c /\ b' = b
    | None, None => True
    | _, _ => False
    end.
  Record CSim : Prop := mkCSim {
    CS_create : forall h t, exists c', c_create C' h t = Ret c' /\ I c' /\ c_create C h t = Ret (al c');
    CS_get : forall c h, I c -> sim_val (c_get C' c h) (c_get C (al c) h);
    CS_get_mut_none : forall c h, I c -> c_get_mut C (al c) h = Ret None -> c_get_mut C' c h = Ret None;
    CS_get_mut_some : forall c h t put, I c -> c_get_mut C (al c) h = Ret (Some (t, put)) ->
      exists put', c_get_mut C' c h = Ret (Some (t, put')) /\ forall w, I (put' w) /\ al (put' w) = put w;
    CS_insert : forall c h lv c1 r, I c -> c_insert_key C (al c) h lv = Ret (c1, r) ->
      exists c', c_insert_key C' c h lv = Ret (c', r) /\ I c' /\ al c' = c1;
    CS_remove : forall c h f oc p, I c -> c_remove_key C (al c) h f = Ret (oc, p) ->
      exists oc', c_remove_key C' c h f = Ret (oc', p) /\ sim_left oc' oc;
    CS_maybe_ok : forall c h f oc p, I c -> c_maybe_remove_key C (al c) h f = Ret (Ok (oc, p)) ->
      exists oc', c_maybe_remove_key C' c h f = Ret (Ok (oc', p)) /\ sim_left oc' oc;
    CS_maybe_err : forall c h f c1, I c -> c_maybe_remove_key C (al c) h f = Ret (Err c1) ->
      exists c', c_maybe_remove_key C' c h f = Ret (Err c') /\ I c' /\ al c' = c1 /\ (c1 = al c -> c' = c);
    CS_insert_panic : forall c h t lv, I c -> c_get C (al c) h = Ret (Some t) -> v_insert Tr t (fst lv) (snd lv) = Panic ->
      c_insert_key C' c h lv = Panic;
    CS_remove_panic : forall c h t f, I c -> c_get C (al c) h = Ret (Some t) -> f t = Panic -> c_remove_key C' c h f = Panic;
    CS_maybe_panic : forall c h t f, I c -> c_get C (al c) h = Ret (Some t) -> f t = Panic -> c_maybe_remove_key C' c h f = Panic
  }.
  Context (S : CSim) (L : CollLaws C).
  Notation cinv' := (fun c => I c /\ cinv L (al c)).
  Notation cents' := (fun c => cents L (al c)).
  Lemma sim_stored c h t ot oc' oc : sim_left oc' oc -> stored (cinv L) (cents L) (al c) h t ot oc -> stored cinv' cents' c h t ot oc'.
  Proof.
    unfold sim_left, stored. destruct oc' as [[c' b']|], oc as [[c1 b]|]; try tauto. intros [H1 [<- ->]].
    destruct ot, b; try tauto.
  Qed.
  Lemma sim_in_get c h t : cinv L c -> In (h, t) (cents L c) -> c_get C c h = Ret (Some t).
  Proof.
    intros H Hin. destruct (C_get L c h H) as [o [E Ho]]. rewrite E. assert (Hn := C_nodup L c H). destruct o as [t'|].
    - f_equal. f_equal. clear E. induction (cents L c) as [|[h0 t0] m IH]; [elim Hin|]. cbn in *. inversion Hn as [|? ? Hn1 Hn2]; subst.
      destruct Hin as [E|Hin], Ho as [E'|Ho].
      + congruence.
      + injection E as -> ->. elim Hn1. apply in_map_iff. exists (h, t'). auto.
      + injection E' as -> ->. elim Hn1. apply in_map_iff. exists (h, t). auto.
      + auto.
    - elim Ho. apply in_map_iff. exists (h, t). auto.
  Qed.
  Definition sim_coll_laws : CollLaws C'.
  Proof.
    refine {| cinv := cinv'; cents := cents' |}.
    - intros c [_ H]. apply C_nodup. exact H.
    - intros c [_ H]. apply C_nonempty. exact H.
    - intros h t. destruct (CS_create S h t) as [c' [E [H1 E']]]. exists c'. split; auto.
      destruct (C_create L h t) as [c1 [E1 [H2 H3]]]. rewrite E' in E1. injection E1 as <-. auto.
    - intros c h [H1 H]. destruct (C_get L _ h H) as [o [E H']]. exists o. split; auto. apply (CS_get S c h H1). exact E.
    - intros c h [H1 H]. destruct (C_get_mut L _ h H) as [o [E [E' H']]]. destruct o as [[t put]|].
      + destruct (CS_get_mut_some S c h t put H1 E) as [put' [E2 H2]]. exists (Some (t, put')). split; auto.
        split; [apply (CS_get S c h H1); exact E'|]. intros t0 put0 E0. injection E0 as <- <-.
        destruct (H' t put eq_refl) as [rest [H3 H4]]. exists rest. split; auto. intros t'. destruct (H2 t') as [H5 ->].
        destruct (H4 t'). auto.
      + exists None. split; [apply CS_get_mut_none; auto|]. split; [apply (CS_get S c h H1); exact E'|]. discriminate.
    - intros c h lv [H1 H] Hn. destruct (C_insert_new L _ h lv H Hn) as [c1 [E [H2 H3]]].
      destruct (CS_insert S c h lv _ _ H1 E) as [c' [E' [H4 <-]]]. exists c'. auto.
    - intros c h lv t t' r [H1 H] Hin Hv. destruct (C_insert_old L _ h lv t t' r H Hin Hv) as [c1 [rest [E [H2 [H3 H4]]]]].
      destruct (CS_insert S c h lv _ _ H1 E) as [c' [E' [H5 <-]]]. exists c', rest. auto.
    - intros c h f t ot p [H1 H] Hin Hf. destruct (C_remove L _ h f t ot p H Hin Hf) as [oc [E H2]].
      destruct (CS_remove S c h f oc p H1 E) as [oc' [E' H3]]. exists oc'. split; auto. apply (sim_stored c h t ot oc' oc); auto.
    - intros c h f [H1 H] Hn. destruct (CS_maybe_err S c h f _ H1 (C_maybe_absent L _ h f H Hn)) as [c' [E [_ [_ H2]]]].
      rewrite E, (H2 eq_refl). auto.
    - intros c h f t t' [H1 H] Hin Hf. destruct (C_maybe_err L _ h f t t' H Hin Hf) as [c1 [rest [E [H2 [H3 [H4 H5]]]]]].
      destruct (CS_maybe_err S c h f c1 H1 E) as [c' [E' [H6 [<- H7]]]]. exists c', rest. repeat split; auto.
    - intros c h f t ot p [H1 H] Hin Hf. destruct (C_maybe_ok L _ h f t ot p H Hin Hf) as [oc [E H2]].
      destruct (CS_maybe_ok S c h f oc p H1 E) as [oc' [E' H3]]. exists oc'. split; auto. apply (sim_stored c h t ot oc' oc); auto.
    - intros c h lv t [H1 H] Hin Hv. apply (CS_insert_panic S c h t lv H1); auto. apply sim_in_get; auto.
    - intros c h f t [H1 H] Hin Hf. apply (CS_remove_panic S c h t f H1); auto. apply sim_in_get; auto.
    - intros c h f t [H1 H] Hin Hf. apply (CS_maybe_panic S c h t f H1); auto. apply sim_in_get; auto.
  Defined.
End CSim.

Section GenColl.
  Context {B : Build} {Lo V : Type} {Tr : VebOps Lo V} {L : TreeListOps Tr} (LC : TreeListContract L).
  Notation T := (vt Tr).
  Notation inv := (tlc_inv LC).
  Notation abs := (tlc_abs LC).
  Implicit Types (l : tlty L) (m : ByteMap (tlty L)).

  Lemma t_get l n : inv l -> sim_val (tl_get L l n) (vd_get (abs l) n).
  Proof. intros H v E. apply vd_get_split in E. destruct E as [a [b [E ->]]]. apply (tlc_get LC l a v b H E). Qed.
  Lemma t_get_mut l n v put : inv l -> vd_get_mut (abs l) n = Ret (v, put) ->
    exists put', tl_get_mut L l n = Ret (v, put') /\ forall w, inv (put' w) /\ abs (put' w) = put w.
  Proof.
    intros H E. unfold vd_get_mut in E. bind_inv E. injection E as <- <-. apply vd_get_split in E0. destruct E0 as [a [b [E ->]]].
    destruct (tlc_get_mut LC l a x b H E) as [put' [E1 H']]. exists put'. split; auto. intros w. destruct (H' w) as [H1 H2].
    split; auto. rewrite H2, E, Nnat.Nat2N.id, list_set_mid. auto.
  Qed.
  Lemma t_insert l n t (l1 : list T) : inv l -> vd_insert (abs l) n t = Ret l1 ->
    exists l', tl_insert_tree L l n t = Ret l' /\ inv l' /\ abs l' = l1.
  Proof.
    intros H E. unfold vd_insert in E. destruct (n <=? N.of_nat (length (abs l)))%N eqn:Hn; [|discriminate]. injection E as <-.
    apply N.leb_le in Hn.
    destruct (tlc_insert LC l (firstn (N.to_nat n) (abs l)) (skipn (N.to_nat n) (abs l)) t H) as [l' [E [H1 H2]]].
    { symmetry. apply firstn_skipn. }
    exists l'. split; auto. rewrite firstn_length in E. replace (N.of_nat _) with n in E by lia. exact E.
  Qed.
  Definition sim_trees (r' : option (tlty L * bool)) (r : option (list T * bool)) : Prop :=
    match r', r with
    | Some (l', b'), Some (l1, b) => inv l' /\ abs l' = l1 /\ b' = b
    | None, None => True
    | _, _ => False
    end.
  Lemma replace_at_mid {A} (a : list A) x b o : replace_at (a ++ x :: b) (length a) o = a ++ spot o ++ b.
  Proof. destruct o; cbn [replace_at spot]; [apply list_set_mid|apply list_del_mid]. Qed.
  (** the part of the removal after the closure *)
  Lemma sim_trees_after a b (ot : option T) r' :
    match r' with
    | Some (l', gone) => inv l' /\ abs l' = a ++ spot ot ++ b /\ gone = is_none ot
    | None => a ++ spot ot ++ b = []
    end -> sim_trees r' (if is_nil (a ++ spot ot ++ b) then None else Some (a ++ spot ot ++ b, is_none ot)).
  Proof.
    destruct r' as [[l' g]|].
    - intros [H1 [H2 ->]]. assert (Hn := tlc_nonempty LC l' H1). rewrite H2 in Hn. destruct (a ++ spot ot ++ b) eqn:E; [tauto|]. cbn. auto.
    - intros ->. cbn. auto.
  Qed.
  Lemma t_remove l n f r p : inv l -> tl_remove_key (abs l) n f = Ret (r, p) ->
    exists r', tl_remove L l n f = Ret (r', p) /\ sim_trees r' r.
  Proof.
    intros H E. unfold tl_remove_key in E. bind_inv E. bind_inv E. destruct x0 as [ot val]. apply vd_get_split in E0.
    destruct E0 as [a [b [E0 ->]]]. rewrite Nnat.Nat2N.id, E0, replace_at_mid in E.
    destruct (tlc_remove LC l a x b f ot val H E0 E1) as [r' [E2 H2]]. exists r'. apply sim_trees_after in H2.
    destruct (is_nil (a ++ spot ot ++ b)).
    - bind_inv E. injection E as <- <-. auto.
    - injection E as <- <-. auto.
  Qed.
  Lemma t_maybe_ok l n f r p : inv l -> tl_maybe_remove_key (abs l) n f = Ret (Ok (r, p)) ->
    exists r', tl_maybe_remove L l n f = Ret (Ok (r', p)) /\ sim_trees r' r.
  Proof.
    intros H E. unfold tl_maybe_remove_key in E. bind_inv E. bind_inv E. destruct x0 as [[ot val]|t']; [|discriminate]. apply vd_get_split in E0.
    destruct E0 as [a [b [E0 ->]]]. rewrite Nnat.Nat2N.id, E0, replace_at_mid in E.
    destruct (tlc_maybe_ok LC l a x b f ot val H E0 E1) as [r' [E2 H2]]. exists r'. apply sim_trees_after in H2.
    destruct (is_nil (a ++ spot ot ++ b)).
    - bind_inv E. injection E as <- <-. auto.
    - injection E as <- <-. auto.
  Qed.
  Lemma t_maybe_err l n f (l1 : list T) : inv l -> tl_maybe_remove_key (abs l) n f = Ret (Err l1) ->
    exists l', tl_maybe_remove L l n f = Ret (Err l') /\ inv l' /\ abs l' = l1 /\ (l1 = abs l -> l' = l).
  Proof.
    intros H E. unfold tl_maybe_remove_key in E. bind_inv E. bind_inv E. apply vd_get_split in E0. destruct E0 as [a [b [E0 ->]]].
    destruct x0 as [[ot val]|t'].
    - cbn in E. destruct (is_nil _); [bind_inv E|]; discriminate.
    - rewrite Nnat.Nat2N.id, E0, list_set_mid in E. injection E as <-.
      destruct (tlc_maybe_err LC l a x b f t' H E0 E1) as [l' [E2 [H2 [H3 H4]]]]. exists l'. split; auto. split; auto. split; auto.
      rewrite E0. intros E. apply H4. apply app_inv_head in E. congruence.
  Qed.

  Definition gc_al m : ByteMap (list T) := BM (bm_set m) (abs (bm_list m)).
  Definition gc_inv m : Prop := inv (bm_list m).
  Notation SL := (sim_left (C' := ByteMapOf_coll L) (C := ByteMap_coll Tr) gc_al gc_inv).

  Lemma g_after m k (l1 : list T) l' removed mb : abs l' = l1 -> inv l' -> bc_after Tr (gc_al m) k l1 removed = Ret mb ->
    exists mb', gc_after L m k l' removed = Ret mb' /\ SL (Some mb') (Some mb).
  Proof.
    intros <- H E. unfold bc_after in E. unfold gc_after. destruct removed; cbn in E.
    - bind_inv E. rewrite E0. cbn. injection E as <-. eexists. split; [reflexivity|]. cbn. auto.
    - injection E as <-. eexists. split; [reflexivity|]. cbn. auto.
  Qed.
  (** what [get] finds is what the position holds *)
  Lemma g_found m h t : bc_get Tr (gc_al m) h = Ret (Some t) ->
    is_present (bm_set m) h = true /\ exists a b, abs (bm_list m) = a ++ t :: b /\ count_below (bm_set m) h = N.of_nat (length a).
  Proof.
    unfold bc_get. cbn. destruct (is_present (bm_set m) h); [|discriminate]. cbn. intros E. bind_inv E. injection E as ->.
    split; auto. apply vd_get_split. exact E0.
  Qed.
  Ltac ops := cbn [ByteMapOf_coll ByteMap_coll c_create c_get c_get_mut c_insert_key c_remove_key c_maybe_remove_key gc_al bm_set bm_list] in *.
  Lemma gc_sim : CSim (C' := ByteMapOf_coll L) (C := ByteMap_coll Tr) gc_al gc_inv.
  Proof.
    constructor.
    - intros h t. destruct (tlc_from LC t) as [H1 H2]. eexists. split; [reflexivity|]. cbn. split; [exact H1|].
      unfold bc_create, gc_al, tl_from_monad. cbn. rewrite H2. auto.
    - intros m h H r E. ops. unfold gc_get, bc_get in *. ops. destruct (negb (is_present (bm_set m) h)); auto.
      bind_inv E. rewrite (t_get _ _ H _ E0). cbn. auto.
    - intros m h H E. ops. unfold gc_get_mut, bc_get_mut in *. ops. destruct (negb (is_present (bm_set m) h)); auto.
      bind_inv E. destruct x. discriminate.
    - intros m h t put H E. ops. unfold gc_get_mut, bc_get_mut in *. ops. destruct (negb (is_present (bm_set m) h)); [discriminate|].
      bind_inv E. destruct x as [t0 put0]. injection E as <- <-. destruct (t_get_mut _ _ _ _ H E0) as [put' [E H']]. rewrite E. cbn.
      eexists. split; [reflexivity|]. intros w. destruct (H' w) as [H1 H2]. split; auto. unfold gc_al, gc_put, bm_put. cbn. rewrite H2. auto.
    - intros m h lv m1 r H E. ops. unfold gc_insert_key, bc_insert_key in *. ops. bind_inv E. rewrite E0. cbn. destruct x as [s [[k' []]|]].
      + bind_inv E. destruct x as [t put]. bind_inv E. destruct x as [t' o]. injection E as <- <-.
        destruct (t_get_mut _ _ _ _ H E1) as [put' [E H']]. rewrite E. cbn. rewrite E2. cbn. eexists. split; [reflexivity|].
        destruct (H' t') as [H1 H2]. unfold gc_inv, gc_al. cbn. rewrite H2. auto.
      + bind_inv E. injection E as <- <-. destruct (t_insert _ _ _ _ H E1) as [l' [E [H1 H2]]]. rewrite E. cbn.
        eexists. split; [reflexivity|]. unfold gc_inv, gc_al. cbn. rewrite H2. auto.
    - intros m h f oc p H E. ops. unfold gc_remove_key, bc_remove_key in *. ops. bind_inv E. rewrite E0. cbn. bind_inv E. rewrite E1. cbn.
      bind_inv E. destruct x1 as [r v]. destruct (t_remove _ _ _ _ _ H E2) as [r' [E3 H3]]. rewrite E3. cbn. unfold sim_trees in H3.
      destruct r' as [[l' b']|], r as [[l1 b]|]; try tauto.
      + destruct H3 as [H3 [H4 ->]]. bind_inv E. injection E as <- <-. destruct (g_after m h l1 l' b x1 H4 H3 E4) as [mb' [E5 H5]].
        rewrite E5. cbn. exists (Some mb'). auto.
      + injection E as <- <-. exists None. cbn. auto.
    - intros m h f oc p H E. ops. unfold gc_maybe_remove_key, bc_maybe_remove_key in *. ops. bind_inv E. rewrite E0. cbn.
      destruct (is_none x); [discriminate|].
      bind_inv E. destruct x0 as [[r v]|l1]; [|discriminate]. destruct (t_maybe_ok _ _ _ _ _ H E1) as [r' [E3 H3]]. rewrite E3. cbn. unfold sim_trees in H3.
      destruct r' as [[l' b']|], r as [[l1 b]|]; try tauto.
      + destruct H3 as [H3 [H4 ->]]. bind_inv E. injection E as <- <-. destruct (g_after m h l1 l' b x0 H4 H3 E2) as [mb' [E5 H5]].
        rewrite E5. cbn. exists (Some mb'). auto.
      + injection E as <- <-. exists None. cbn. auto.
    - intros m h f m1 H E. ops. unfold gc_maybe_remove_key, bc_maybe_remove_key in *. ops. bind_inv E. rewrite E0. cbn.
      destruct (is_none x).
      + injection E as <-. exists m. auto.
      + bind_inv E. destruct x0 as [[[[l1 b]|] v]|l1]; [| |].
        * bind_inv E. discriminate.
        * discriminate.
        * injection E as <-. destruct (t_maybe_err _ _ _ _ H E1) as [l' [E2 [H2 [H3 H4]]]]. rewrite E2. cbn. eexists. split; [reflexivity|].
          unfold gc_inv, gc_al. cbn. rewrite H3. repeat split; auto. intros E. injection E as E. rewrite (H4 E). destruct m. auto.
    - intros m h t lv H E Hv. ops. destruct (g_found m h t E) as [Hp [a [b [H1 H2]]]]. unfold gc_insert_key.
      destruct (bs_insert (bm_set m) h tt) as [[s [[k' []]|]]|] eqn:Ei; cbn; auto.
      + rewrite H2. destruct (tlc_get_mut LC _ a t b H H1) as [put [E1 _]]. rewrite E1. cbn. rewrite Hv. auto.
      + unfold bs_insert in Ei. rewrite Hp in Ei. discriminate.
    - intros m h t f H E Hf. ops. destruct (g_found m h t E) as [Hp [a [b [H1 H2]]]]. unfold gc_remove_key.
      destruct (bs_find (bm_set m) h) as [o|]; cbn; auto. destruct (debug_assert (negb (is_none o))); cbn; auto.
      rewrite H2, (tlc_remove_panic LC _ a t b f H H1 Hf). auto.
    - intros m h t f H E Hf. ops. destruct (g_found m h t E) as [Hp [a [b [H1 H2]]]]. unfold gc_maybe_remove_key.
      destruct (bs_find (bm_set m) h) as [o|] eqn:Ef; cbn; auto. destruct (is_none o) eqn:En.
      + unfold bs_find in Ef. rewrite Hp in Ef. injection Ef as <-. discriminate.
      + rewrite H2, (tlc_maybe_panic LC _ a t b f H H1 Hf). auto.
  Qed.
End GenColl.
