(** How much a tree of [n] entries holds. *)
From Verif Require Import Base Ints Ops Spec ByteSet ByteMap Coll Boxed BTree SizedT Tree Laws Lists CollProofs ByteSetProofs ByteMapProofs
  BTreeProofs WrapProofs TreeChildren TreeProofs Hist Types HistProofs TypesProofs HistCor Cost Space.
Local Open Scope N_scope.

Section AllBuilds.
Context {Bd : Build}.

Lemma sum_of_perm {A} (f : A -> N) l l' : Permutation l l' -> sum_of f l = sum_of f l'.
Proof. unfold sum_of. induction 1; cbn [fold_right]; lia. Qed.
Lemma sum_of_le {A} (f g : A -> N) l : (forall a, In a l -> f a <= g a) -> sum_of f l <= sum_of g l.
Proof.
  unfold sum_of. induction l as [|a l IH]; intros H; cbn [fold_right]; [lia|]. assert (f a <= g a) by (apply H; left; auto).
  assert (fold_right (fun a n => f a + n) 0 l <= fold_right (fun a n => g a + n) 0 l) by (apply IH; intros; apply H; right; auto). lia.
Qed.
Lemma sum_of_mul {A} (f : A -> N) q l : sum_of (fun a => q * f a) l = q * sum_of f l.
Proof. unfold sum_of. induction l as [|a l IH]; cbn [fold_right]; [lia|]. rewrite IH. lia. Qed.

(** the trees of a collection are those of its laws *)
Lemma slots_somes {Hi Lo V} {ix : IdxOps Hi} (IL : IdxLaws ix) (Tr : VebOps Lo V) (a : list (option (vt Tr))) : forall n,
  map snd (CollProofs.slots IL Tr n a) = flat_map some_of a.
Proof.
  induction a as [|[t|] a IH]; intros n; [reflexivity| |]; cbn.
  - rewrite <- (IH (S n)). reflexivity.
  - apply (IH (S n)).
Qed.
Lemma map_snd_combine {A B} (a : list A) (b : list B) : length a = length b -> map snd (combine a b) = b.
Proof.
  revert b. induction a as [|x a IH]; intros [|y b] H; try discriminate H; [reflexivity|]. cbn. f_equal. apply IH. injection H. auto.
Qed.
Lemma trees_cents {Lo V} {Tr : VebOps Lo V} {Hi C} (CT : CollType Tr Hi C) c : cinv (coll_laws CT) c ->
  trees CT c = map snd (cents (coll_laws CT) c).
Proof.
  induction CT; intros H.
  - cbn [trees coll_laws cents Array_coll_laws]. unfold ac_ents. symmetry. apply slots_somes.
  - reflexivity.
  - cbn [trees coll_laws cents ByteMap_coll_laws]. symmetry. apply map_snd_combine. apply H.
  - apply (IHCT (unbox c)). exact H.
Qed.
Lemma slots_in_le {Lo V} {Tr : VebOps Lo V} {Hi C} (CT : CollType Tr Hi C) c : cinv (coll_laws CT) c ->
  slots_in CT c = coll_array CT.
Proof.
  induction CT; intros H.
  - cbn [slots_in coll_array]. destruct H as [-> _]. apply N2Nat.id.
  - reflexivity.
  - reflexivity.
  - apply (IHCT (unbox c)). exact H.
Qed.

Lemma ents_pos {B : Build} {K V cmp} {O : VebOps K V} (L : VebLaws cmp O) t : winv L t -> 1 <= N.of_nat (length (ents L t)).
Proof. intros H. assert (Hn := L_nonempty L t H). destruct (ents L t); [congruence|]. cbn [length]. lia. Qed.

Lemma measure_arith q e b d k y M X nd ar : q * M <= (d + e) * k + b -> q * X + (d + e) * (k + 1) <= (d + e) * y + b * (k + 1) -> k + 1 <= y ->
  q * (nd + ar) + b * y <= 2 * e + 1 + y -> q * (nd + (ar + M + X)) <= (1 + d + e) * (y + 1) + b.
Proof.
  intros H1 H2 H3 H4. assert (H5 : b * (k + 1) <= b * y) by (apply N.mul_le_mono_l; exact H3).
  rewrite !N.mul_add_distr_l, ?N.mul_add_distr_r, ?N.mul_1_r, ?N.mul_1_l in *. lia.
Qed.

Section Measure.
  Context (leaf node arr : N -> N) (q e b : N).
  Hypothesis (Hleaf : forall n, 1 <= n -> q * leaf n <= e * (n - 1) + b) (Hone : q * node 1 <= b) (Htwo : q * node 2 <= 1 + e + b)
    (Hmore : forall s n, 1 <= n -> q * (node 2 + arr s) + b * n <= 2 * e + 1 + n).
  Lemma measure_le {fixed K V cmp O} (T : VebType fixed K V cmp O) : forall t, winv (type_laws T) t ->
    q * measure leaf node arr T t <= (depth T + e) * (N.of_nat (length (ents (type_laws T) t)) - 1) + b.
  Proof.
    induction T as [| |K V cmp OL|K Hi Lo V ko KL Su Tr C TS IHS TT IHT CT|K V cmp O T IH|K V cmp O T IH]; intros t H; cbn [measure type_laws depth].
    - rewrite len_spec, <- bs_ents_length. rewrite N.add_0_l. apply Hleaf.
      exact (ents_pos ByteSet_laws t H).
    - assert (El : length (bm_list t) = length (ents (type_laws (VT_ByteMap fixed V)) t)).
      { destruct H as [_ H]. change (length (bm_list t) = length (combine (members (bm_set t)) (bm_list t))). rewrite combine_length, H. symmetry. apply Nat.min_id. }
      rewrite El, N.add_0_l. apply Hleaf. exact (ents_pos (type_laws (VT_ByteMap fixed V)) t H).
    - rewrite N.add_0_l. apply Hleaf. exact (ents_pos (BTree_laws OL) t H).
    - destruct t as [mn [[mx [[s c]|]]|]]; cbn [t_data d_children].
      + destruct H as [H1 [H2 [H3 [H4 _]]]]. cbn in H1, H2, H3, H4.
        set (d := N.max (depth TS) (depth TT)). set (l := cents (coll_laws CT) c) in *.
        assert (El : N.of_nat (length (ents (type_laws TS) s)) = N.of_nat (length l)).
        { f_equal. apply Permutation_length in H3. unfold keys in H3. rewrite !map_length in H3. exact H3. }
        assert (Hs := IHS s H1). rewrite El in Hs.
        assert (Hl : 1 <= N.of_nat (length l)).
        { assert (Hn := C_nonempty (coll_laws CT) c H2). fold l in Hn. destruct l; [congruence|]. cbn [length]. lia. }
        assert (Hsum : q * sum_of (measure leaf node arr TT) (trees CT c) + (d + e) * N.of_nat (length l) <=
          (d + e) * N.of_nat (length (ch_ents (type_laws TT) (coll_laws CT) (ko := ko) (s, c))) + b * N.of_nat (length l) /\
          N.of_nat (length l) <= N.of_nat (length (ch_ents (type_laws TT) (coll_laws CT) (ko := ko) (s, c)))).
        { rewrite (trees_cents CT c H2). unfold ch_ents. cbn [snd]. fold l. fold l in H4. clear - IHT H4.
          assert (Hd : depth TT <= d) by (unfold d; lia). clearbody d.
          induction l as [|[h x] l IH]; [cbn; lia|]. cbn [map snd]. unfold sum_of in *. cbn [fold_right].
          rewrite flat_cons, app_length, map_length. cbn [length].
          assert (Hx := IHT x (H4 h x (or_introl eq_refl))).
          assert (Hn := L_nonempty (type_laws TT) x (H4 h x (or_introl eq_refl))).
          destruct IH as [IH1 IH2]; [intros h' t' Hin; apply (H4 h'); right; exact Hin|].
          destruct (ents (type_laws TT) x) as [|p r]; [congruence|]. cbn [length] in *.
          rewrite !Nat2N.inj_succ, Nat2N.inj_add, Nat2N.inj_succ in *. split; [|lia].
          replace (N.succ (N.of_nat (length r)) - 1) with (N.of_nat (length r)) in Hx by lia.
          assert ((depth TT + e) * N.of_nat (length r) <= (d + e) * N.of_nat (length r)) by (apply N.mul_le_mono_r; lia). lia. }
        destruct Hsum as [Hsum Hle].
        set (X := sum_of _ _) in *. set (M := measure leaf node arr TS s) in *.
        cbn [ents Tree_laws]. unfold tr_ents. cbn [t_data t_min d_max d_children TreeUpd.och_ents length]. 
        set (n := N.of_nat (length l)) in *. set (m := length (ch_ents _ _ _)) in *. rewrite !Nat2N.inj_succ.
        assert (Hm := Hmore (slots_in CT c) (N.of_nat m)).
        replace (N.succ (N.succ (N.of_nat m)) - 1) with (N.of_nat m + 1) by lia.
        assert (Hb : (depth TS + e) * (n - 1) <= (d + e) * (n - 1)) by (apply N.mul_le_mono_r; unfold d; lia).
        apply (measure_arith q e b d (n - 1)); [lia| |lia|apply Hm; lia].
        replace (n - 1 + 1) with n by lia. lia.
      + change (q * (node 2 + 0) <= (1 + N.max (depth TS) (depth TT) + e) * 1 + b). lia.
      + change (q * node 1 <= (1 + N.max (depth TS) (depth TT) + e) * 0 + b). lia.
    - apply (IH (unbox t)). exact H.
    - apply (IH (sz_tree t)). apply H.
  Qed.
End Measure.

(** the arrays: every one has at most [largest_array] slots *)
Lemma slots_held_le {fixed K V cmp O} (T : VebType fixed K V cmp O) : forall t, winv (type_laws T) t ->
  slots_held T t <= collections T t * largest_array T.
Proof.
  unfold slots_held, collections.
  induction T as [| |K V cmp OL|K Hi Lo V ko KL Su Tr C TS IHS TT IHT CT|K V cmp O T IH|K V cmp O T IH]; intros t H; cbn [measure largest_array]; try lia.
  - destruct t as [mn [[mx [[s c]|]]|]]; cbn [t_data d_children]; try lia.
    destruct H as [H1 [H2 [_ [H4 _]]]]. cbn [fst snd] in *. assert (Hs := IHS s H1). rewrite (slots_in_le CT c H2).
    set (n := N.max _ _).
    assert (Hx : sum_of (measure (fun _ => 0) (fun _ => 0) (fun s => s) TT) (trees CT c) <=
      sum_of (measure (fun _ => 0) (fun _ => 0) (fun _ => 1) TT) (trees CT c) * n).
    { rewrite N.mul_comm, <- sum_of_mul. apply sum_of_le. intros x Hx. rewrite (trees_cents CT c H2) in Hx. apply in_map_iff in Hx.
      destruct Hx as [[h x'] [E Hx]]. cbn in E. subst x'. rewrite N.mul_comm. eapply N.le_trans; [apply (IHT x (H4 h x Hx))|].
      apply N.mul_le_mono_l. unfold n. lia. }
    assert (Hy : measure (fun _ => 0) (fun _ => 0) (fun _ => 1) TS s * largest_array TS <= measure (fun _ => 0) (fun _ => 0) (fun _ => 1) TS s * n)
      by (apply N.mul_le_mono_l; unfold n; lia).
    assert (Hz : coll_array CT <= n) by (unfold n; lia). rewrite !N.mul_add_distr_r, N.mul_1_l. lia.
  - apply (IH (unbox t)). exact H.
  - apply (IH (sz_tree t)). apply H.
Qed.
(** as many pairs as are stored are stored in it: what is not in summaries *)
Lemma space {fixed K V cmp O} (T : VebType fixed K V cmp O) t : reachable O t -> exists d, contents O t d /\
  let n := N.of_nat (length d) in
  1 <= n /\ nodes T t <= depth T * (n - 1) + 1 /\ keys_held T t <= n + depth T * (n - 1) /\
  2 * collections T t <= depth T * (n - 1) /\ slots_held T t <= collections T t * largest_array T.
Proof.
  intros H. apply (reachable_weak (type_laws T)) in H. destruct (contents_ents (type_laws T) t H) as [d [Hd HP]]. exists d. split; [exact Hd|].
  cbn zeta. rewrite (Permutation_length HP). assert (Hn := ents_pos (type_laws T) t H). split; [exact Hn|].
  split; [|split; [|split]].
  - assert (Hm := measure_le (fun _ => 1) (fun _ => 1) (fun _ => 0) 1 0 1 ltac:(intros; cbn beta; lia) ltac:(cbn beta; lia) ltac:(cbn beta; lia) ltac:(intros; cbn beta; lia) T t H).
    unfold nodes. rewrite N.add_0_r in Hm. lia.
  - assert (Hm := measure_le (fun n => n) (fun n => n) (fun _ => 0) 1 1 1 ltac:(intros; cbn beta; lia) ltac:(cbn beta; lia) ltac:(cbn beta; lia) ltac:(intros; cbn beta; lia) T t H).
    unfold keys_held. rewrite N.mul_add_distr_r in Hm. lia.
  - assert (Hm := measure_le (fun _ => 0) (fun _ => 0) (fun _ => 1) 2 0 0 ltac:(intros; cbn beta; lia) ltac:(cbn beta; lia) ltac:(cbn beta; lia) ltac:(intros; cbn beta; lia) T t H).
    unfold collections. rewrite !N.add_0_r in Hm. exact Hm.
  - apply slots_held_le. exact H.
Qed.
(** nothing is left out: the keys held are at least the pairs stored, and three of them cost the outermost array *)
Lemma keys_held_ge {fixed K V cmp O} (T : VebType fixed K V cmp O) : forall t, winv (type_laws T) t ->
  N.of_nat (length (ents (type_laws T) t)) <= keys_held T t.
Proof.
  unfold keys_held.
  induction T as [| |K V cmp OL|K Hi Lo V ko KL Su Tr C TS IHS TT IHT CT|K V cmp O T IH|K V cmp O T IH]; intros t H; cbn [measure type_laws].
  - rewrite len_spec, <- bs_ents_length. apply N.le_refl.
  - apply N.eq_le_incl. f_equal. destruct H as [_ H]. change (length (combine (members (bm_set t)) (bm_list t)) = length (bm_list t)).
    rewrite combine_length, H. apply Nat.min_id.
  - apply N.le_refl.
  - destruct t as [mn [[mx [[s c]|]]|]]; cbn [t_data d_children].
    + destruct H as [H1 [H2 [_ [H4 _]]]]. cbn [fst snd] in *.
      cbn [ents Tree_laws]. unfold tr_ents. cbn [t_data t_min d_max d_children TreeUpd.och_ents length]. rewrite !Nat2N.inj_succ.
      assert (Hx : N.of_nat (length (ch_ents (type_laws TT) (coll_laws CT) (ko := ko) (s, c))) <=
        sum_of (measure (fun n => n) (fun n => n) (fun _ => 0) TT) (trees CT c)); [|lia].
      rewrite (trees_cents CT c H2). unfold ch_ents. cbn [snd]. clear - IHT H4.
      induction (cents (coll_laws CT) c) as [|[h x] l IHl]; [cbn; lia|]. cbn [map snd]. unfold sum_of in *. cbn [fold_right].
      rewrite flat_cons, app_length, map_length, Nat2N.inj_add. assert (Hx := IHT x (H4 h x (or_introl eq_refl))).
      assert (Hy := IHl ltac:(intros h' t' Hin; apply (H4 h'); right; exact Hin)). lia.
    + change (2 <= 2 + 0). lia.
    + change (1 <= 1). lia.
  - apply (IH (unbox t)). exact H.
  - apply (IH (sz_tree t)). apply H.
Qed.
Lemma slots_held_ge {fixed K V cmp O} (T : VebType fixed K V cmp O) : forall t, winv (type_laws T) t ->
  3 <= N.of_nat (length (ents (type_laws T) t)) -> first_array T <= slots_held T t.
Proof.
  unfold slots_held.
  induction T as [| |K V cmp OL|K Hi Lo V ko KL Su Tr C TS IHS TT IHT CT|K V cmp O T IH|K V cmp O T IH]; intros t H Hn; cbn [measure first_array]; try lia.
  - destruct t as [mn [[mx [[s c]|]]|]]; cbn [t_data d_children].
    + destruct H as [_ [H2 _]]. cbn [snd] in H2. rewrite (slots_in_le CT c H2). lia.
    + exfalso. apply Hn. reflexivity.
    + exfalso. apply Hn. reflexivity.
  - apply (IH (unbox t)); auto.
  - apply (IH (sz_tree t)); auto. apply H.
Qed.
Lemma space_least {fixed K V cmp O} (T : VebType fixed K V cmp O) t : reachable O t -> exists d, contents O t d /\
  let n := N.of_nat (length d) in n <= keys_held T t /\ (3 <= n -> first_array T <= slots_held T t).
Proof.
  intros H. apply (reachable_weak (type_laws T)) in H. destruct (contents_ents (type_laws T) t H) as [d [Hd HP]]. exists d. split; [exact Hd|].
  cbn zeta. rewrite (Permutation_length HP). split; [apply keys_held_ge; auto|apply slots_held_ge; auto].
Qed.
Lemma no_array_zero {Lo V} {Tr : VebOps Lo V} {Hi C} (X : CollType Tr Hi C) : no_array X = true -> coll_array X = 0.
Proof. induction X; cbn [no_array coll_array]; auto. discriminate. Qed.
Lemma no_arrays_zero {fixed K V cmp O} (T : VebType fixed K V cmp O) : without_arrays T = true -> largest_array T = 0.
Proof.
  induction T as [| | |K Hi Lo V ko KL S Tr C TS IHS TT IHT X| |]; cbn [without_arrays largest_array]; auto.
  intros H. apply andb_prop in H. destruct H as [H1 H]. apply andb_prop in H. destruct H as [H2 H3].
  rewrite (no_array_zero X H1), (IHS H2), (IHT H3). reflexivity.
Qed.
End AllBuilds.
