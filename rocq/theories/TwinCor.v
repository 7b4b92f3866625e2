(** Trees with the same contents are built alike. *)
From Verif Require Import Base Spec Ops Ints Boxed Lists Laws ByteSet ByteSetProofs ByteMap ByteMapProofs Coll CollProofs
  BTree BTreeProofs SizedT WrapProofs Tree TreeChildren TreeUpd TreeProofs Types TypesProofs Hist HistProofs HistCor Twin Fits FitsCor.

(** *** Pairs with the same keys *)
Section Pairs.
  Context {H A : Type} (R : A -> A -> Prop).
  Implicit Types e : list (H * A).
  Definition alike e e' : Prop := forall h a a', In (h, a) e -> In (h, a') e' -> R a a'.

  Lemma pairs_eq_keys e : forall e', map fst e = map fst e' -> alike e e' -> Forall2 R (map snd e) (map snd e').
  Proof.
    induction e as [|[h a] e IH]; intros [|[h' a'] e'] E Hr; try discriminate E; cbn; constructor.
    - injection E as -> _. apply (Hr h'); left; auto.
    - injection E as _ E. apply IH; auto. intros h0 x x' H1 H2. apply (Hr h0); right; auto.
  Qed.
  Lemma pairs_any_order e : forall e', NoDup (map fst e) -> NoDup (map fst e') ->
    (forall h, In h (map fst e) <-> In h (map fst e')) -> alike e e' ->
    exists e1, Permutation e' e1 /\ Forall2 (fun x y => fst x = fst y /\ R (snd x) (snd y)) e e1.
  Proof.
    induction e as [|[h a] e IH]; intros e' Hn Hn' Hk Hr.
    - exists []. split; [|constructor]. destruct e' as [|[h a] e']; auto. exfalso. apply (Hk h). left. auto.
    - assert (Hin : In h (map fst e')) by (apply Hk; left; auto). apply in_map_iff in Hin.
      destruct Hin as [[h0 a'] [E Hin]]. cbn in E. subst h0. apply in_split in Hin. destruct Hin as [b [c ->]].
      assert (HP : Permutation (b ++ (h, a') :: c) ((h, a') :: b ++ c)) by apply Permutation_sym, Permutation_middle.
      assert (Hn1 : NoDup (map fst ((h, a') :: b ++ c))) by (eapply Permutation_NoDup; [apply Permutation_map, HP|auto]).
      cbn in Hn1, Hn. apply NoDup_cons_iff in Hn1. apply NoDup_cons_iff in Hn. destruct Hn1 as [N1 N2]. destruct Hn as [N3 N4].
      destruct (IH (b ++ c)) as [e1 [P1 F1]]; auto.
      + intros h0. split; intros H0.
        * assert (H1 : In h0 (map fst ((h, a') :: b ++ c))).
          { eapply Permutation_in; [apply Permutation_map, HP|]. apply Hk. right. auto. }
          cbn in H1. destruct H1 as [<-|H1]; auto. contradiction.
        * assert (H1 : In h0 (map fst (b ++ (h, a') :: c))).
          { eapply Permutation_in; [apply Permutation_sym, Permutation_map, HP|]. right. auto. }
          apply Hk in H1. cbn in H1. destruct H1 as [<-|H1]; auto. contradiction.
      + intros h0 x x' H1 H2. apply (Hr h0); [right; auto|]. eapply Permutation_in; [apply Permutation_sym, HP|]. right. auto.
      + exists ((h, a') :: e1). split; [rewrite HP; auto|]. constructor; auto. split; auto. cbn.
        apply (Hr h); [left; auto|apply in_elt].
  Qed.
End Pairs.

(** *** Collections *)
Lemma slots_alike {B : Build} {Hi Lo V} {ix : IdxOps Hi} (IL : IdxLaws ix) (Tr : VebOps Lo V) (R : vt Tr -> vt Tr -> Prop)
  (a : list (option (vt Tr))) : forall n a', length a = length a' -> slots_ok IL Tr n a -> slots_ok IL Tr n a' ->
  (forall h, In h (map fst (slots IL Tr n a)) <-> In h (map fst (slots IL Tr n a'))) ->
  alike R (slots IL Tr n a) (slots IL Tr n a') -> Forall2 (twin_opt R) a a'.
Proof.
  assert (Hlater : forall n (b : list (option (vt Tr))) h, slots_ok IL Tr (S n) b -> In h (map fst (slots IL Tr (S n) b)) ->
    N.to_nat (i_index ix h) <> n).
  { intros n b h Hok Hin. apply in_map_iff in Hin. destruct Hin as [[h' t] [E Hin]]. cbn in E. subst h'.
    apply slots_in in Hin; auto. lia. }
  induction a as [|o a IH]; intros n [|o' a'] El Ho Ho' Hk Hr; try discriminate El; constructor.
  - cbn in Ho, Ho', Hk, Hr. destruct o as [t|], o' as [t'|]; cbn.
    + apply (Hr (idx_inv IL (N.of_nat n))); left; auto.
    + cbn in Hk. assert (Hin := proj1 (Hk (idx_inv IL (N.of_nat n))) (or_introl eq_refl)).
      apply (Hlater n a' _ (proj2 Ho') Hin). apply Ho. discriminate.
    + cbn in Hk. assert (Hin := proj2 (Hk (idx_inv IL (N.of_nat n))) (or_introl eq_refl)).
      apply (Hlater n a _ (proj2 Ho) Hin). apply Ho'. discriminate.
    + exact I.
  - cbn in Ho, Ho', Hk, Hr. destruct Ho as [H1 H2]. destruct Ho' as [H1' H2']. apply (IH (S n)); auto.
    + intros h. specialize (Hk h). rewrite !map_app, !in_app_iff in Hk. split; intros Hin.
      * destruct (proj1 Hk (or_intror Hin)) as [H|H]; auto. exfalso. apply (Hlater n a h H2 Hin).
        destruct o'; [|destruct H]. destruct H as [<-|[]]. cbn. apply H1'. discriminate.
      * destruct (proj2 Hk (or_intror Hin)) as [H|H]; auto. exfalso. apply (Hlater n a' h H2' Hin).
        destruct o; [|destruct H]. destruct H as [<-|[]]. cbn. apply H1. discriminate.
    + intros h t t' I1 I2. apply (Hr h); apply in_app_iff; right; auto.
Qed.

Lemma words_alike s s' : (forall k, mem s k = mem s' k) -> s = s'.
Proof.
  intros H. assert (Hb : forall n, (n < 256)%N -> bits (words s) n = bits (words s') n).
  { intros n Hn. assert (E := H (pack 8 n)). unfold mem in E. rewrite pack8 in E by auto. exact E. }
  assert (Hw : forall a b : N, (a < 2 ^ 128)%N -> (b < 2 ^ 128)%N ->
    (forall n, (n < 128)%N -> N.testbit a n = N.testbit b n) -> a = b).
  { intros a b Ha Hb' Hab. apply N.bits_inj. intros n. destruct (N.lt_ge_cases n 128) as [Hn|Hn]; auto.
    assert (Hz : forall x, (x < 2 ^ 128)%N -> N.testbit x n = false).
    { intros x Hx. destruct (N.eq_dec x 0) as [->|Hx0]; [apply N.bits_0|]. apply N.bits_above_log2.
      apply N.lt_le_trans with 128%N; auto. apply N.log2_lt_pow2; auto. apply N.neq_0_lt_0. auto. }
    rewrite !Hz; auto. }
  destruct s as [a b], s' as [a' b']. cbn [words w0 w1] in Hb. unfold bits in Hb. cbn [fst snd] in Hb. f_equal; apply u_eq; apply Hw; try apply uval_lt.
  - intros n Hn. assert (Hn' : (n < 256)%N) by lia. specialize (Hb n Hn'). assert (E : (n <? 128)%N = true) by (apply N.ltb_lt; auto).
    rewrite E in Hb. exact Hb.
  - intros n Hn. assert (Hn' : (n + 128 < 256)%N) by lia. specialize (Hb (n + 128)%N Hn').
    assert (E : (n + 128 <? 128)%N = false) by (apply N.ltb_ge; lia). rewrite E, N.add_sub in Hb. exact Hb.
Qed.
Lemma members_alike s s' : (forall k, In k (members s) <-> In k (members s')) -> s = s'.
Proof.
  intros H. apply words_alike. intros k. specialize (H k). rewrite !in_members in H.
  destruct (mem s k), (mem s' k); auto; [symmetry|]; apply H; auto.
Qed.

Lemma coll_alike {B : Build} {Lo V} {Tr : VebOps Lo V} {Hi C} (CT : CollType Tr Hi C) (R : vt Tr -> vt Tr -> Prop) : forall c c',
  cinv (coll_laws CT) c -> cinv (coll_laws CT) c' ->
  (forall h, In h (map fst (cents (coll_laws CT) c)) <-> In h (map fst (cents (coll_laws CT) c'))) ->
  alike R (cents (coll_laws CT) c) (cents (coll_laws CT) c') -> twin_coll CT R c c'.
Proof.
  induction CT; intros c c' Hc Hc' Hk Hr.
  - cbn [twin_coll]. destruct Hc as [H1 [H2 [H3 _]]]. destruct Hc' as [H1' [H2' [H3' _]]]. split.
    + rewrite H3, H3'. f_equal. cbn [coll_laws cents Array_coll_laws] in Hk.
      rewrite <- (map_length fst), <- (map_length fst (ac_ents IL Tr c')). apply Permutation_length.
      apply NoDup_Permutation; auto; apply slots_nodup; auto.
    + apply (slots_alike IL Tr R _ 0); auto. rewrite H1. auto.
  - cbn [twin_coll]. apply pairs_any_order; auto; [apply Hc|apply Hc'].
  - cbn [twin_coll]. cbn [coll_laws cents cinv ByteMap_coll_laws] in *.
    assert (Es : bm_set c = bm_set c').
    { apply members_alike. intros k. rewrite <- (bm_keys c), <- (bm_keys c') by auto. apply Hk. }
    split; auto. rewrite (bm_vals c), (bm_vals c') by auto. apply pairs_eq_keys; auto.
    change (keys (bm_ents c) = keys (bm_ents c')). rewrite !bm_keys by auto. rewrite Es. auto.
  - apply (IHCT (unbox c) (unbox c')); auto.
Qed.

(** *** Trees *)
Lemma unit_ents {K} (l l' : list (K * unit)) : Permutation (keys l) (keys l') -> Permutation l l'.
Proof.
  assert (E : forall m : list (K * unit), m = map (fun k => (k, tt)) (keys m)).
  { induction m as [|[k []] m IH]; cbn; f_equal; auto. }
  intros H. rewrite (E l), (E l'). apply Permutation_map. auto.
Qed.
Lemma nodup_of_keys {K V} (l : list (K * V)) : NoDup (keys l) -> NoDup l.
Proof. apply NoDup_map_inv. Qed.

Lemma children_alike {B : Build} {K Hi Lo V} {ko : KeyOps K Hi Lo} {S : VebOps Hi unit} {Tr : VebOps Lo V} {C : CollOps Hi Lo V Tr}
  (LS : VebLaws (hi_cmp ko) S) (LT : VebLaws (lo_cmp ko) Tr) (LC : CollLaws C) x x' :
  wch LS LT LC x -> wch LS LT LC x' -> och LS LT LC x -> och LS LT LC x' ->
  Permutation (ch_ents (ko := ko) LT LC x) (ch_ents (ko := ko) LT LC x') ->
  Permutation (ents LS (fst x)) (ents LS (fst x')) /\
  (forall h, In h (map fst (cents LC (snd x))) <-> In h (map fst (cents LC (snd x')))) /\
  alike (fun t t' => Permutation (ents LT t) (ents LT t')) (cents LC (snd x)) (cents LC (snd x')).
Proof.
  assert (Hsub : forall x x', wch LS LT LC x -> wch LS LT LC x' ->
    Permutation (ch_ents (ko := ko) LT LC x) (ch_ents (ko := ko) LT LC x') ->
    forall h, In h (map fst (cents LC (snd x))) -> In h (map fst (cents LC (snd x')))).
  { intros y y' Hy Hy' HP h Hin. apply in_map_iff in Hin. destruct Hin as [[h0 t] [E Hin]]. cbn in E. subst h0.
    assert (Hwt : winv LT t) by (apply Hy in Hin; exact Hin).
    destruct (ents LT t) as [|[l v] e] eqn:Ee; [elim (L_nonempty LT t Hwt Ee)|].
    assert (Hr : real (ko := ko) h l) by (apply (wch_real LS LT LC y h t l v Hy Hin); rewrite Ee; left; auto).
    assert (H1 : In (k_join ko h l, v) (ch_ents (ko := ko) LT LC y)).
    { apply (in_ch_J LS LT LC y h l v Hy Hr). exists t. split; auto. rewrite Ee. left. auto. }
    apply (Permutation_in _ HP) in H1. apply (in_ch_J LS LT LC y' h l v Hy' Hr) in H1. destruct H1 as [t' [H1 _]].
    apply (in_map fst) in H1. exact H1. }
  intros Hw Hw' Ho Ho' HP.
  assert (Hk : forall h, In h (map fst (cents LC (snd x))) <-> In h (map fst (cents LC (snd x')))).
  { intros h. split; apply Hsub; auto using Permutation_sym. }
  split; [|split; auto].
  - apply unit_ents. destruct Hw as [_ [Hc [P _]]]. destruct Hw' as [_ [Hc' [P' _]]]. rewrite P, P'.
    apply NoDup_Permutation; auto; apply C_nodup; auto.
  - intros h t t' I1 I2. apply NoDup_Permutation.
    + apply nodup_of_keys. apply (L_nodup LT); [apply Hw in I1; exact I1|]. apply Ho in I1. exact I1.
    + apply nodup_of_keys. apply (L_nodup LT); [apply Hw' in I2; exact I2|]. apply Ho' in I2. exact I2.
    + intros [l v]. split; intros Hin.
      * assert (Hr := wch_real LS LT LC x h t l v Hw I1 Hin).
        assert (H1 : In (k_join ko h l, v) (ch_ents (ko := ko) LT LC x)) by (apply (in_ch_J LS LT LC x h l v Hw Hr); eauto).
        apply (Permutation_in _ HP) in H1. apply (in_ch_J LS LT LC x' h l v Hw' Hr) in H1. destruct H1 as [t1 [J1 J2]].
        rewrite (coll_inj LC (snd x') h t' t1); auto. apply Hw'.
      * assert (Hr := wch_real LS LT LC x' h t' l v Hw' I2 Hin).
        assert (H1 : In (k_join ko h l, v) (ch_ents (ko := ko) LT LC x')) by (apply (in_ch_J LS LT LC x' h l v Hw' Hr); eauto).
        apply (Permutation_in _ (Permutation_sym HP)) in H1. apply (in_ch_J LS LT LC x h l v Hw Hr) in H1. destruct H1 as [t1 [J1 J2]].
        rewrite (coll_inj LC (snd x) h t t1); auto. apply Hw.
Qed.

(** the ends of an ascending chain *)
Lemma first_unique {K V} {cmp : K -> K -> comparison} (OL : OrdLaws cmp) (p q : K * V) e e' :
  Permutation (p :: e) (q :: e') -> (forall r, In r e -> cmp (fst p) (fst r) = Lt) ->
  (forall r, In r e' -> cmp (fst q) (fst r) = Lt) -> p = q /\ Permutation e e'.
Proof.
  intros HP H1 H2. assert (E : p = q).
  { assert (Hp : In p (q :: e')) by (apply (Permutation_in _ HP); left; auto).
    assert (Hq : In q (p :: e)) by (apply (Permutation_in _ (Permutation_sym HP)); left; auto).
    destruct Hp as [Hp|Hp]; auto. destruct Hq as [Hq|Hq]; auto.
    apply H2 in Hp. apply H1 in Hq. elim (lt_irrefl OL (fst p)). apply (cmp_trans OL) with (fst q); auto. }
  split; auto. subst q. apply Permutation_cons_inv in HP. exact HP.
Qed.
Lemma last_unique {K V} {cmp : K -> K -> comparison} (OL : OrdLaws cmp) (p q : K * V) e e' :
  Permutation (p :: e) (q :: e') -> (forall r, In r e -> cmp (fst r) (fst p) = Lt) ->
  (forall r, In r e' -> cmp (fst r) (fst q) = Lt) -> p = q /\ Permutation e e'.
Proof.
  intros HP H1 H2. assert (E : p = q).
  { assert (Hp : In p (q :: e')) by (apply (Permutation_in _ HP); left; auto).
    assert (Hq : In q (p :: e)) by (apply (Permutation_in _ (Permutation_sym HP)); left; auto).
    destruct Hp as [Hp|Hp]; auto. destruct Hq as [Hq|Hq]; auto.
    apply H2 in Hp. apply H1 in Hq. elim (lt_irrefl OL (fst p)). apply (cmp_trans OL) with (fst q); auto. }
  split; auto. subst q. apply Permutation_cons_inv in HP. exact HP.
Qed.

Lemma tree_alike {B : Build} {fixed K V cmp O} (T : VebType fixed K V cmp O) : forall t t',
  winv (type_laws T) t -> winv (type_laws T) t' -> ord (type_laws T) t -> ord (type_laws T) t' ->
  Permutation (ents (type_laws T) t) (ents (type_laws T) t') -> twin T t t'.
Proof.
  induction T; intros t t' Hw Hw' Ho Ho' HP; cbn [twin].
  - cbn [type_laws ents ByteSet_laws] in HP. apply members_alike. intros k. rewrite <- !bs_keys.
    apply keys_perm in HP. split; apply Permutation_in; auto using Permutation_sym.
  - cbn [type_laws ents winv ByteMap_laws] in HP, Hw, Hw'.
    assert (E : bm_ents t = bm_ents t') by (apply (asc_perm_eq (u_cmp_laws 8)); auto; apply bm_asc; auto).
    assert (Es : bm_set t = bm_set t').
    { apply members_alike. intros k. rewrite <- (bm_keys t), <- (bm_keys t'), E by auto. reflexivity. }
    assert (El := bm_vals t Hw). rewrite E, <- (bm_vals t' Hw') in El. destruct t, t'. cbn in *. congruence.
  - apply (asc_perm_eq OL); auto; [apply Hw|apply Hw'].
  - destruct t as [mn od], t' as [mn' od']. cbn [t_min t_data].
    cbn [type_laws ents winv ord Tree_laws] in Hw, Hw', Ho, Ho', HP. unfold tr_winv, tr_ord, tr_ents in *. cbn [t_min t_data] in *.
    assert (OL := KL_k KL).
    assert (HF := first_unique OL _ _ _ _ HP). destruct HF as [-> HP1].
    { destruct od as [d|]; [|intros r []]. destruct Ho as [H1 [H2 _]]. intros r [<-|Hr]; auto. apply H2. auto. }
    { destruct od' as [d|]; [|intros r []]. destruct Ho' as [H1 [H2 _]]. intros r [<-|Hr]; auto. apply H2. auto. }
    split; auto. destruct od as [[mx ch]|], od' as [[mx' ch']|]; cbn [twin_opt d_max d_children] in *; auto.
    2: { apply Permutation_sym, Permutation_nil in HP1. discriminate HP1. }
    2: { apply Permutation_nil in HP1. discriminate HP1. }
    destruct Ho as [_ [H2 Hoc]]. destruct Ho' as [_ [H2' Hoc']].
    destruct (last_unique OL _ _ _ _ HP1) as [-> HP2].
    { intros r Hr. apply H2. auto. }
    { intros r Hr. apply H2'. auto. }
    split; auto. destruct ch as [x|], ch' as [x'|]; cbn [twin_opt] in *; auto.
    + destruct (children_alike _ _ _ x x' Hw Hw' Hoc Hoc' HP2) as [A1 [A2 A3]]. split.
      * apply IHT1; auto; [apply Hw|apply Hw'|apply Hoc|apply Hoc'].
      * apply coll_alike; auto; [apply Hw|apply Hw'|]. intros h y y' I1 I2. apply IHT2.
        -- apply Hw in I1. exact I1.
        -- apply Hw' in I2. exact I2.
        -- apply Hoc in I1. exact I1.
        -- apply Hoc' in I2. exact I2.
        -- exact (A3 h y y' I1 I2).
    + apply Permutation_sym, Permutation_nil in HP2. elim (ch_nonempty (type_laws T1) (type_laws T2) (coll_laws CT) x Hw HP2).
    + apply Permutation_nil in HP2. elim (ch_nonempty (type_laws T1) (type_laws T2) (coll_laws CT) x' Hw' HP2).
  - apply (IHT (unbox t) (unbox t')); auto.
  - destruct Hw as [Hw Hs]. destruct Hw' as [Hw' Hs']. split.
    + apply (IHT (sz_tree t) (sz_tree t')); auto.
    + rewrite Hs, Hs'. f_equal. apply Permutation_length. exact HP.
Qed.

(** *** Without hash maps, alike is equal *)
Lemma Forall2_eq {A} (R : A -> A -> Prop) l l' : (forall a a', R a a' -> a = a') -> Forall2 R l l' -> l = l'.
Proof. intros H. induction 1; f_equal; auto. Qed.
Lemma twin_opt_eq {A} (R : A -> A -> Prop) o o' : (forall a a', R a a' -> a = a') -> twin_opt R o o' -> o = o'.
Proof. intros H. destruct o, o'; cbn; try tauto. intros Hr. f_equal. auto. Qed.
Lemma twin_coll_eq {B : Build} {Lo V} {Tr : VebOps Lo V} {Hi C} (CT : CollType Tr Hi C) (R : vt Tr -> vt Tr -> Prop) :
  coll_no_hash CT = true -> (forall t t', R t t' -> t = t') -> forall c c', twin_coll CT R c c' -> c = c'.
Proof.
  induction CT; cbn [coll_no_hash twin_coll]; intros Hn HR c c' Hs.
  - destruct Hs as [H1 H2]. destruct c as [a n], c' as [a' n']. cbn in *. f_equal; auto.
    apply (Forall2_eq (twin_opt R)); auto. intros o o'. apply twin_opt_eq. auto.
  - discriminate Hn.
  - destruct Hs as [H1 H2]. destruct c as [s l], c' as [s' l']. cbn in *. f_equal; auto. apply (Forall2_eq R); auto.
  - destruct c as [c], c' as [c']. cbn in Hs. f_equal. auto.
Qed.
Lemma twin_eq {B : Build} {fixed K V cmp O} (T : VebType fixed K V cmp O) : no_hash T = true -> forall t t', twin T t t' -> t = t'.
Proof.
  induction T; cbn [no_hash twin]; intros Hn t t' Hs; auto.
  - apply andb_prop in Hn. destruct Hn as [Hn Hn3]. apply andb_prop in Hn. destruct Hn as [Hn1 Hn2].
    destruct t as [mn od], t' as [mn' od']. cbn [t_min t_data] in Hs. destruct Hs as [-> Hs]. f_equal.
    revert Hs. apply twin_opt_eq. intros [mx ch] [mx' ch']. cbn [d_max d_children]. intros [-> Hs]. f_equal.
    revert Hs. apply twin_opt_eq. intros [s c] [s' c']. cbn [fst snd]. intros [H1 H2]. f_equal; auto.
    apply (twin_coll_eq CT (twin T2)); auto.
  - destruct t as [t], t' as [t']. cbn in Hs. f_equal. auto.
  - destruct t as [t n], t' as [t' n']. cbn in Hs. destruct Hs as [Hs ->]. f_equal. auto.
Qed.

(** *** Histories *)
Lemma repr_twin {B : Build} {fixed K V cmp O} (T : VebType fixed K V cmp O) t t' l :
  repr (type_laws T) t l -> repr (type_laws T) t' l -> twin T t t'.
Proof.
  intros [H1 [H2 [_ H3]]] [H1' [H2' [_ H3']]]. apply tree_alike; auto. rewrite <- H3. auto.
Qed.
Lemma reached_twin {B : Build} {fixed K V cmp O} (T : VebType fixed K V cmp O) adm adm' t t' l : allowed T adm -> allowed T adm' ->
  reached cmp O adm t l -> reached cmp O adm' t' l -> twin T t t'.
Proof.
  intros Ha Ha' H H'. apply (repr_twin T t t' l).
  - apply (reached_repr (type_ord T) (type_laws T) adm); auto. apply allowed_covered; auto.
  - apply (reached_repr (type_ord T) (type_laws T) adm'); auto. apply allowed_covered; auto.
Qed.
Lemma reached_equal {B : Build} {fixed K V cmp O} (T : VebType fixed K V cmp O) adm adm' t t' l : no_hash T = true ->
  allowed T adm -> allowed T adm' -> reached cmp O adm t l -> reached cmp O adm' t' l -> t = t'.
Proof. intros Hn Ha Ha' H H'. apply (twin_eq T Hn). apply (reached_twin T adm adm' t t' l); auto. Qed.
Lemma detour {B : Build} {fixed K V cmp O} (T : VebType fixed K V cmp O) adm t l cs : allowed T adm -> reached cmp O adm t l ->
  admissible cmp adm cs l -> fst (sp_run cmp cs l) = l ->
  exists t', run O cs (Some t) = Ret (Some t', snd (sp_run cmp cs l)) /\ twin T t t'.
Proof.
  intros Ha H Hcs El. assert (Hc := allowed_covered T adm Ha). assert (Hr := reached_repr (type_ord T) (type_laws T) adm t l Hc H).
  destruct (run_refines (type_ord T) (type_laws T) adm cs Hc (Some t) l Hr Hcs) as [[t'|] [E Hr']]; rewrite El in Hr'.
  - exists t'. split; auto. apply (repr_twin T t t' l); auto.
  - elim (repr_ne (type_laws T) t l Hr Hr').
Qed.
Lemma undo {B : Build} {fixed K V cmp O} (T : VebType fixed K V cmp O) adm t l k v : allowed T adm -> reached cmp O adm t l ->
  adm l k -> (N.of_nat (length l) < usize_max)%N -> v_find O t k = Ret None ->
  exists t1 t2, v_insert O t k v = Ret (t1, None) /\ v_remove O t1 k = Ret (Ok (Some t2, (k, v))) /\ twin T t t2.
Proof.
  intros Ha H Hk Hl Hf. assert (OL := type_ord T). assert (Hc := allowed_covered T adm Ha).
  assert (Hr := reached_repr OL (type_laws T) adm t l Hc H).
  rewrite (repr_find OL (type_laws T) t l k Hr) in Hf. injection Hf as Hf.
  assert (Hasc : ascending cmp l) by apply Hr.
  assert (Hn : ~ In k (keys l)) by (assert (D := sp_find_dec OL k l Hasc); rewrite Hf in D; exact D).
  destruct (repr_insert OL (type_laws T) t l k v Hr Hl (Hc t l k Hr Hk)) as [t1 [E1 R1]]. rewrite Hf in E1.
  assert (HP := sp_insert_perm_new OL k v l Hn).
  assert (Hasc1 : ascending cmp (sp_insert cmp k v l)) by apply R1.
  assert (Hf1 : sp_find cmp k (sp_insert cmp k v l) = Some (k, v)).
  { apply (sp_find_iff OL); auto. apply (Permutation_in _ (Permutation_sym HP)). left. auto. }
  assert (R2 := repr_remove OL (type_laws T) t1 _ k R1). rewrite Hf1 in R2. destruct R2 as [ot [E2 R2]].
  assert (El : sp_remove cmp k (sp_insert cmp k v l) = l).
  { apply (asc_perm_eq OL); auto; [apply (sp_remove_asc OL); auto|].
    apply (sp_remove_perm OL (k, v)); auto. apply (asc_nodup OL). auto. }
  rewrite El in R2. destruct ot as [t2|]; [|elim (repr_ne (type_laws T) t l Hr R2)].
  exists t1, t2. split; auto. split; auto. apply (repr_twin T t t2 l); auto.
Qed.

(** inserting pairs with distinct keys, in any order *)
Definition insertions_of {K V} (l : list (K * V)) : list (op K V) := map (fun p => Insert (fst p) (snd p)) l.
Lemma insertions_spec {B : Build} {K V} {cmp : K -> K -> comparison} (OL : OrdLaws cmp) (l : list (K * V)) : forall acc, ascending cmp acc ->
  NoDup (keys (l ++ acc)) -> (N.of_nat (length (l ++ acc)) <= usize_max)%N ->
  admissible cmp adm_any (insertions_of l) acc /\ ascending cmp (fst (sp_run cmp (insertions_of l) acc)) /\
  Permutation (fst (sp_run cmp (insertions_of l) acc)) (l ++ acc).
Proof.
  induction l as [|[k v] l IH]; intros acc Ha Hn Hl; [cbn; auto|].
  change (insertions_of ((k, v) :: l)) with (Insert k v :: insertions_of l). rewrite sp_run_cons. cbn [sp_step fst admissible].
  cbn [app keys map fst length] in Hn, Hl. apply NoDup_cons_iff in Hn. destruct Hn as [Hk Hn].
  assert (Hka : ~ In k (keys acc)) by (intros I; apply Hk; rewrite map_app; apply in_app_iff; right; exact I).
  assert (HP := sp_insert_perm_new OL k v acc Hka).
  assert (HP2 : Permutation (l ++ sp_insert cmp k v acc) ((k, v) :: l ++ acc)).
  { rewrite HP. apply Permutation_sym, Permutation_middle. }
  destruct (IH (sp_insert cmp k v acc)) as [A1 [A2 A3]].
  - apply (sp_insert_asc OL). auto.
  - apply (Permutation_NoDup (l := keys ((k, v) :: l ++ acc))); [apply Permutation_map, Permutation_sym, HP2|].
    cbn. constructor; auto.
  - rewrite (Permutation_length HP2). cbn. exact Hl.
  - split; [split; auto|split; auto].
    + split; [exact I|]. rewrite app_length in Hl. lia.
    + rewrite A3. exact HP2.
Qed.
Lemma any_order {B : Build} {fixed K V cmp O} (T : VebType fixed K V cmp O) l l' : allowed T adm_any -> l <> [] -> NoDup (keys l) ->
  (N.of_nat (length l) <= usize_max)%N -> Permutation l l' ->
  exists t os t' os', run O (insertions_of l) None = Ret (Some t, os) /\ run O (insertions_of l') None = Ret (Some t', os') /\ twin T t t'.
Proof.
  intros Ha Hne Hn Hl HP. assert (OL := type_ord T). assert (Hc := allowed_covered T adm_any Ha).
  assert (Hone : forall m, Permutation l m -> exists t os, run O (insertions_of m) None = Ret (Some t, os) /\
    repr (type_laws T) t (fst (sp_run cmp (insertions_of m) [])) /\ Permutation (fst (sp_run cmp (insertions_of m) [])) m).
  { intros m Hm. destruct (insertions_spec OL m []) as [A1 [A2 A3]].
    - constructor.
    - rewrite app_nil_r. apply (Permutation_NoDup (l := keys l)); auto. apply Permutation_map. auto.
    - rewrite app_nil_r, <- (Permutation_length Hm). auto.
    - rewrite app_nil_r in A3.
      destruct (run_refines OL (type_laws T) adm_any _ Hc None [] eq_refl A1) as [[t|] [E Hr]]; eauto 6.
      cbn in Hr. rewrite Hr in A3. apply Permutation_nil in A3. subst m. apply Permutation_sym, Permutation_nil in Hm. contradiction. }
  destruct (Hone l (Permutation_refl l)) as [t [os [E [R P]]]]. destruct (Hone l' HP) as [t' [os' [E' [R' P']]]].
  exists t, os, t', os'. split; auto. split; auto. apply (repr_twin T t t' _ R).
  replace (fst (sp_run cmp (insertions_of l) [])) with (fst (sp_run cmp (insertions_of l') [])); auto.
  apply (asc_perm_eq OL); [apply R'|apply R|]. rewrite P, P'. apply Permutation_sym. auto.
Qed.

(** *** Derived equality of byte sets (set.rs 5) *)
Lemma byteset_eq s s' : (forall k, bs_find s k = bs_find s' k) <-> words s = words s'.
Proof.
  split.
  - intros H. f_equal. apply words_alike. intros k. specialize (H k). unfold bs_find in H. injection H as H.
    rewrite !present_bits in H. unfold mem. destruct (bits (words s) (uval k)), (bits (words s') (uval k)); congruence.
  - intros H k. unfold bs_find. rewrite !present_bits, H. reflexivity.
Qed.

(** *** Twins hold the same *)
Lemma twin_cents {B : Build} {Lo V} {Tr : VebOps Lo V} {Hi C} (CT : CollType Tr Hi C) (R : vt Tr -> vt Tr -> Prop) : forall c c',
  twin_coll CT R c c' -> exists e, Permutation (cents (coll_laws CT) c') e /\
  Forall2 (fun x y => fst x = fst y /\ R (snd x) (snd y)) (cents (coll_laws CT) c) e.
Proof.
  induction CT; intros c c' Hc; cbn [twin_coll] in Hc.
  - destruct Hc as [_ Hc]. eexists. split; [apply Permutation_refl|]. cbn [coll_laws cents Array_coll_laws]. unfold ac_ents.
    generalize 0. induction Hc as [|o o' a a' Ho _ IH]; intros n; cbn [slots]; [constructor|].
    apply Forall2_app; [|apply IH]. destruct o, o'; cbn in *; try contradiction; repeat constructor; auto.
  - exact Hc.
  - destruct Hc as [Es Hl]. eexists. split; [apply Permutation_refl|]. cbn [coll_laws cents ByteMap_coll_laws]. unfold bm_ents.
    rewrite Es. generalize (members (bm_set c')). induction Hl as [|t t' a a' Ht _ IH]; intros [|k ks]; cbn; constructor; auto.
  - exact (IHCT (unbox c) (unbox c') Hc).
Qed.
Lemma twin_ents {B : Build} {fixed K V cmp O} (T : VebType fixed K V cmp O) : forall t t', twin T t t' ->
  Permutation (ents (type_laws T) t) (ents (type_laws T) t').
Proof.
  induction T; intros t t' Ht; cbn [twin] in Ht; try (rewrite Ht; reflexivity).
  - destruct t as [mn od], t' as [mn' od']. cbn [t_min t_data] in Ht. destruct Ht as [-> Ht].
    cbn [type_laws ents Tree_laws]. unfold tr_ents. cbn [t_min t_data]. constructor.
    destruct od as [[mx ch]|], od' as [[mx' ch']|]; cbn [twin_opt d_max d_children] in Ht; try contradiction; auto.
    destruct Ht as [-> Ht]. cbn [d_max d_children]. constructor.
    destruct ch as [[s c]|], ch' as [[s' c']|]; cbn [twin_opt fst snd] in Ht; try contradiction; auto.
    destruct Ht as [_ Ht]. destruct (twin_cents CT (twin T2) c c' Ht) as [e [P F]].
    cbn [och_ents]. unfold ch_ents. cbn [snd]. rewrite (flat_perm _ _ _ P). clear P Ht.
    induction F as [|[h x] [h' x'] l l' [E1 E2] _ IH]; [constructor|]. cbn in E1, E2. subst h'. rewrite !flat_cons.
    apply Permutation_app; auto. apply Permutation_map. auto.
  - exact (IHT (unbox t) (unbox t') Ht).
  - exact (IHT (sz_tree t) (sz_tree t') (proj1 Ht)).
Qed.
Lemma reached_twin_iff {B : Build} {fixed K V cmp O} (T : VebType fixed K V cmp O) adm adm' t t' l l' : allowed T adm -> allowed T adm' ->
  reached cmp O adm t l -> reached cmp O adm' t' l' -> twin T t t' <-> l = l'.
Proof.
  intros Ha Ha' H H'. split.
  - intros Ht. assert (OL := type_ord T).
    apply (reached_repr OL (type_laws T) adm) in H; [|apply allowed_covered; auto].
    apply (reached_repr OL (type_laws T) adm') in H'; [|apply allowed_covered; auto].
    apply (asc_perm_eq OL); [apply H|apply H'|]. transitivity (ents (type_laws T) t); [apply H|].
    transitivity (ents (type_laws T) t'); [apply twin_ents; auto|]. apply Permutation_sym, H'.
  - intros <-. apply (reached_twin T adm adm' t t' l); auto.
Qed.
