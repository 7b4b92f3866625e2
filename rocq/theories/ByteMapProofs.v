(** ByteMap: the laws, as a tree and as a collection. *)
From Verif Require Import Base Spec Ops Ints Boxed Lists Laws ByteSet ByteSetProofs ByteMap.

(** *** Lists *)
Lemma nth_mid {A} (b a : list A) x : nth_error (b ++ x :: a) (length b) = Some x.
Proof. rewrite nth_error_app2, Nat.sub_diag by lia. reflexivity. Qed.
Lemma set_mid {A} (b a : list A) x y : list_set (b ++ x :: a) (length b) y = b ++ y :: a.
Proof. induction b as [|z b IH]; cbn; auto. f_equal. exact IH. Qed.
Lemma firstn_mid {A} (b a : list A) : firstn (length b) (b ++ a) = b.
Proof. rewrite firstn_app, Nat.sub_diag, firstn_all. cbn. apply app_nil_r. Qed.
Lemma skipn_mid {A} (b a : list A) : skipn (length b) (b ++ a) = a.
Proof. rewrite skipn_app, Nat.sub_diag, skipn_all. reflexivity. Qed.
Lemma del_mid {A} (b a : list A) x : list_del (b ++ x :: a) (length b) = b ++ a.
Proof.
  unfold list_del. rewrite firstn_mid. f_equal.
  change (b ++ x :: a) with (b ++ [x] ++ a). rewrite app_assoc.
  replace (S (length b)) with (length (b ++ [x])) by (rewrite app_length; cbn; lia). apply skipn_mid.
Qed.
Lemma vd_get_mid {A} (b a : list A) x : vd_get (b ++ x :: a) (N.of_nat (length b)) = Ret x.
Proof. unfold vd_get. rewrite Nat2N.id, nth_mid. reflexivity. Qed.
Lemma vd_insert_mid {A} (b a : list A) x : vd_insert (b ++ a) (N.of_nat (length b)) x = Ret (b ++ x :: a).
Proof.
  unfold vd_insert. rewrite app_length. replace (_ <=? _)%N with true by (symmetry; apply N.leb_le; lia).
  rewrite Nat2N.id, firstn_mid, skipn_mid. reflexivity.
Qed.
Lemma li_remove_mid {A} (b a : list A) x :
  li_remove_value (b ++ x :: a) (N.of_nat (length b)) =
  Ret (if is_nil (b ++ a) then None else Some (b ++ a), x).
Proof. unfold li_remove_value, vd_remove. rewrite Nat2N.id, nth_mid, del_mid. reflexivity. Qed.
Lemma combine_keys {A B} (e : list (A * B)) : combine (map fst e) (map snd e) = e.
Proof. induction e as [|[a b] e IH]; cbn; f_equal; auto. Qed.
Lemma combine_fst {A B} (l : list A) (l' : list B) : length l = length l' -> map fst (combine l l') = l.
Proof. revert l'. induction l as [|a l IH]; intros [|b l']; cbn; intros H; try discriminate; f_equal; auto. Qed.
Lemma combine_snd {A B} (l : list A) (l' : list B) : length l = length l' -> map snd (combine l l') = l'.
Proof. revert l'. induction l as [|a l IH]; intros [|b l']; cbn; intros H; try discriminate; f_equal; auto. Qed.

Lemma filter_perm_gen {A} (f : A -> bool) (l l' : list A) :
  Permutation l l' -> Permutation (filter f l) (filter f l').
Proof.
  induction 1 as [|x l l' H IH|x y l|l l' l'' H1 IH1 H2 IH2]; simpl; auto.
  - destruct (f x); auto.
  - destruct (f x), (f y); auto. apply perm_swap.
  - eapply Permutation_trans; eauto.
Qed.

Section Pairs.
  Context {A : Type}.
  Notation asc := (@ascending (u 8) A u_cmp).
  Let OL := u_cmp_laws 8.

  Lemma sorted_asc (e : list (u 8 * A)) : StronglySorted (fun a b => u_cmp a b = Lt) (keys e) -> asc e.
  Proof.
    induction e as [|p e IH]; cbn; intros H; [constructor|]. inversion H as [|? ? H1 H2]; subst.
    apply asc_cons. split; auto. rewrite Forall_forall in H2. intros q Hq. apply H2. apply in_keys'. auto.
  Qed.
  Lemma sorted_unique (l l' : list (u 8)) : StronglySorted (fun a b => u_cmp a b = Lt) l ->
    StronglySorted (fun a b => u_cmp a b = Lt) l' -> Permutation l l' -> l = l'.
  Proof.
    intros H1 H2 HP. revert l' H2 HP. induction H1 as [|a l H1 IH HF]; intros l' H2 HP.
    - apply Permutation_nil in HP. auto.
    - destruct H2 as [|a' l' H2 HF']; [apply Permutation_sym, Permutation_nil in HP; discriminate|].
      rewrite Forall_forall in HF, HF'.
      assert (a = a') as <-.
      { assert (Ha : In a (a' :: l')) by (apply (Permutation_in _ HP); left; auto).
        assert (Ha' : In a' (a :: l)) by (apply (Permutation_in _ (Permutation_sym HP)); left; auto).
        destruct Ha as [Ha|Ha]; auto. destruct Ha' as [Ha'|Ha']; auto.
        apply HF' in Ha. apply HF in Ha'. elim (lt_asym OL _ _ Ha Ha'). }
      f_equal. apply IH; auto. eapply Permutation_cons_inv; eauto.
  Qed.
  Lemma asc_sorted (e : list (u 8 * A)) : asc e -> StronglySorted (fun a b => u_cmp a b = Lt) (keys e).
  Proof.
    induction e as [|p e IH]; cbn; intros H; [constructor|]. apply asc_cons in H. destruct H as [H1 H2].
    constructor; auto. apply Forall_forall. intros k Hk. apply keys_in in Hk. destruct Hk as [v Hv].
    apply H2 in Hv. exact Hv.
  Qed.
  Lemma asc_at (e : list (u 8 * A)) k v : asc e -> In (k, v) e -> e = below u_cmp k e ++ (k, v) :: above u_cmp k e.
  Proof.
    intros Ha Hin. apply (asc_perm_eq OL); auto.
    - apply (sp_insert_asc OL); auto.
    - destruct (in_split _ _ Hin) as [l1 [l2 E]].
      assert (HP : Permutation e ((k, v) :: l1 ++ l2)) by (rewrite E; apply Permutation_sym, Permutation_middle).
      rewrite HP at 1. symmetry.
      apply (sp_insert_perm_old OL (k, v) v e (l1 ++ l2)); auto. apply (asc_nodup OL); auto.
  Qed.
  Lemma asc_gap (e : list (u 8 * A)) k : asc e -> ~ In k (keys e) -> e = below u_cmp k e ++ above u_cmp k e.
  Proof. intros Ha Hn. symmetry. apply (sp_remove_fresh OL); auto. Qed.
End Pairs.

Section ByteMapBasics.
  Context {B : Build} {A : Type}.
  Implicit Types m : ByteMap (list A).
  Notation asc := (@ascending (u 8) A u_cmp).

  Definition bm_ents m : list (u 8 * A) := combine (members (bm_set m)) (bm_list m).
  Definition bm_winv m : Prop := nonempty (bm_set m) /\ length (members (bm_set m)) = length (bm_list m).

  Lemma bm_keys m : bm_winv m -> keys (bm_ents m) = members (bm_set m).
  Proof. intros [_ H]. apply combine_fst. exact H. Qed.
  Lemma bm_vals m : bm_winv m -> bm_list m = map snd (bm_ents m).
  Proof. intros [_ H]. symmetry. apply combine_snd. exact H. Qed.
  Lemma bm_asc m : bm_winv m -> asc (bm_ents m).
  Proof. intros H. apply sorted_asc. rewrite bm_keys by auto. apply members_sorted. Qed.
  Lemma bm_ents_ne m : bm_winv m -> bm_ents m <> [].
  Proof.
    intros H E. assert (Hk := bm_keys m H). rewrite E in Hk. destruct H as [H _].
    apply members_nonempty in H. auto.
  Qed.
  Lemma bm_mem m k : bm_winv m -> mem (bm_set m) k = true <-> In k (keys (bm_ents m)).
  Proof. intros H. rewrite bm_keys, in_members by auto. reflexivity. Qed.
  Lemma bm_count m k : bm_winv m -> count_below (bm_set m) k = N.of_nat (length (below u_cmp k (bm_ents m))).
  Proof.
    intros H. rewrite count_below_spec, <- bm_keys by auto. f_equal. unfold below, keys.
    rewrite filter_map_comm, map_length. reflexivity.
  Qed.
  (** Rebuilding *)
  Lemma bm_make s e : members s = keys e -> e <> [] ->
    bm_winv (BM s (map snd e)) /\ bm_ents (BM s (map snd e)) = e.
  Proof.
    intros E Hne. unfold bm_winv, bm_ents. cbn [bm_set bm_list]. rewrite E. split; [split|].
    - apply members_nonempty. rewrite E. destruct e; [congruence|]. discriminate.
    - unfold keys. rewrite !map_length. auto.
    - apply combine_keys.
  Qed.
  Lemma members_unique s e : asc e -> Permutation (members s) (keys e) -> members s = keys e.
  Proof. intros Ha HP. apply sorted_unique; auto. apply members_sorted. apply asc_sorted; auto. Qed.

  (** A present key: where it is, and what reading, writing and removing there do *)
  Lemma bm_at_key m k : bm_winv m -> mem (bm_set m) k = true -> exists b v a,
    bm_ents m = b ++ (k, v) :: a /\
    count_below (bm_set m) k = N.of_nat (length (map snd b)) /\
    bm_list m = map snd b ++ v :: map snd a /\
    (forall w, bm_winv (BM (bm_set m) (map snd b ++ w :: map snd a)) /\
               bm_ents (BM (bm_set m) (map snd b ++ w :: map snd a)) = b ++ (k, w) :: a) /\
    (b ++ a <> [] -> bm_winv (BM (unset_bit (bm_set m) k) (map snd b ++ map snd a)) /\
               bm_ents (BM (unset_bit (bm_set m) k) (map snd b ++ map snd a)) = b ++ a).
  Proof.
    intros Hw Hm. assert (Hin := proj1 (bm_mem m k Hw) Hm). apply keys_in in Hin. destruct Hin as [v Hin].
    assert (Ha := bm_asc m Hw). assert (E := asc_at _ k v Ha Hin).
    exists (below u_cmp k (bm_ents m)), v, (above u_cmp k (bm_ents m)). split; [exact E|].
    split; [rewrite map_length; apply bm_count; auto|]. split; [rewrite bm_vals, E at 1 by auto; rewrite map_app; auto|].
    assert (Ek : members (bm_set m) = keys (below u_cmp k (bm_ents m)) ++ k :: keys (above u_cmp k (bm_ents m))).
    { rewrite <- bm_keys by auto. rewrite E at 1. unfold keys. rewrite map_app. reflexivity. }
    split.
    - intros w. assert (H := bm_make (bm_set m) (below u_cmp k (bm_ents m) ++ (k, w) :: above u_cmp k (bm_ents m))).
      rewrite map_app in H. apply H.
      + rewrite Ek. unfold keys. rewrite map_app. reflexivity.
      + intros E'. apply app_eq_nil in E'. destruct E'. discriminate.
    - intros Hne. rewrite <- map_app. apply bm_make; auto. apply members_unique.
      + apply (sp_remove_asc (u_cmp_laws 8)); auto.
      + apply (Permutation_cons_inv (a := k)). rewrite <- members_unset by auto. rewrite Ek. unfold keys.
        rewrite map_app. apply Permutation_sym, Permutation_middle.
  Qed.
  (** An absent key *)
  Lemma bm_at_gap m k : bm_winv m -> mem (bm_set m) k = false -> exists b a,
    bm_ents m = b ++ a /\
    count_below (bm_set m) k = N.of_nat (length (map snd b)) /\
    bm_list m = map snd b ++ map snd a /\
    (forall w, bm_winv (BM (set_bit (bm_set m) k) (map snd b ++ w :: map snd a)) /\
               bm_ents (BM (set_bit (bm_set m) k) (map snd b ++ w :: map snd a)) = b ++ (k, w) :: a).
  Proof.
    intros Hw Hm. assert (Hn : ~ In k (keys (bm_ents m))) by (rewrite <- bm_mem by auto; congruence).
    assert (Ha := bm_asc m Hw). assert (E := asc_gap _ k Ha Hn).
    exists (below u_cmp k (bm_ents m)), (above u_cmp k (bm_ents m)). split; [exact E|].
    split; [rewrite map_length; apply bm_count; auto|]. split; [rewrite bm_vals, E at 1 by auto; rewrite map_app; auto|].
    intros w. assert (H := bm_make (set_bit (bm_set m) k) (below u_cmp k (bm_ents m) ++ (k, w) :: above u_cmp k (bm_ents m))).
    rewrite map_app in H. apply H.
    - apply members_unique; [apply (sp_insert_asc (u_cmp_laws 8)); auto|].
      rewrite members_set by auto. rewrite <- bm_keys by auto. rewrite E at 1. unfold keys. rewrite !map_app.
      apply Permutation_middle.
    - intros E'. apply app_eq_nil in E'. destruct E'. discriminate.
  Qed.
  Lemma bm_count_above m k : bm_winv m -> mem (bm_set m) k = false ->
    count_below (set_bit (bm_set m) k) k = count_below (bm_set m) k.
  Proof.
    intros Hw Hm. rewrite !count_below_spec. f_equal. apply Permutation_length.
    rewrite (filter_perm_gen _ _ _ (members_set _ _ Hm)). cbn [filter]. unfold ltb at 1.
    rewrite (cmp_refl (u_cmp_laws 8)). reflexivity.
  Qed.

  Lemma app_perm {A'} (b a : list A') p : Permutation (b ++ p :: a) (p :: b ++ a).
  Proof. apply Permutation_sym, Permutation_middle. Qed.
End ByteMapBasics.

Lemma is_nil_spec {B} (l : list B) : is_nil l = true <-> l = [].
Proof. destruct l; cbn; split; congruence. Qed.

Section ByteMapTree.
  Context {B : Build} {V : Type}.
  Implicit Types m : ByteMap (list V).
  Notation tk := (taken (O := ByteMap_ops V) bm_winv (fun _ => True) bm_ents).
  Notation lens := (lens_ok (O := ByteMap_ops V) bm_winv (fun _ => True) bm_ents).
  Notation mok := (mut_ok (O := ByteMap_ops V) bm_winv (fun _ => True) bm_ents).
  Notation mok1 := (mut1_ok (O := ByteMap_ops V) bm_winv (fun _ => True) bm_ents).
  Let OL := u_cmp_laws 8.

  Lemma bm_lens_mid m b k v a :
    bm_ents m = b ++ (k, v) :: a -> bm_list m = map snd b ++ v :: map snd a ->
    (forall w, bm_winv (BM (bm_set m) (map snd b ++ w :: map snd a)) /\
               bm_ents (BM (bm_set m) (map snd b ++ w :: map snd a)) = b ++ (k, w) :: a) ->
    lens m (k, v) (bm_put m (list_set (bm_list m) (length (map snd b)))).
  Proof.
    intros E El Hw. exists (b ++ a). split; [rewrite E; apply app_perm|]. intros w. unfold bm_put.
    rewrite El, set_mid. destruct (Hw w) as [H1 H2]. split; auto. split; auto. rewrite H2. apply app_perm.
  Qed.
  Lemma bm_at_ok m k : bm_winv m -> mem (bm_set m) k = true -> exists v,
    bm_at m (Some (k, tt)) = Ret (Some (k, v)) /\ In (k, v) (bm_ents m) /\
    exists put, bm_at_mut m (Some (k, tt)) = Ret (Some (k, v, put)) /\ lens m (k, v) put.
  Proof.
    intros Hw Hm. destruct (bm_at_key m k Hw Hm) as [b [v [a [E [Ec [El [Hput _]]]]]]]. exists v.
    unfold bm_at, bm_at_mut, vd_get_mut. rewrite Ec, El, vd_get_mid. cbn [bind]. split; auto.
    split; [rewrite E; apply in_elt|]. eexists. split; [reflexivity|]. rewrite <- El, Nat2N.id.
    apply bm_lens_mid with a; auto.
  Qed.
  Lemma bm_query m (q : res (option (u 8 * unit))) o : bm_winv m -> q = Ret o ->
    (forall j, o = Some (j, tt) -> mem (bm_set m) j = true) ->
    exists o', (o <- q ;; bm_at m o) = Ret o' /\ omap fst o' = omap fst o /\
      (forall p, o' = Some p -> In p (bm_ents m)) /\
      mok m (o <- q ;; bm_at_mut m o) (o <- q ;; bm_at m o).
  Proof.
    intros Hw -> Hj. cbn [bind]. destruct o as [[j []]|].
    - destruct (bm_at_ok m j Hw (Hj j eq_refl)) as [v [E1 [Hin [put [E2 Hl]]]]]. exists (Some (j, v)).
      split; auto. split; auto. split; [intros p Hp; injection Hp as <-; auto|].
      exists (Some (j, v, put)). split; auto. split; auto. intros p' put' Hp. injection Hp as <- <-. auto.
    - exists None. split; auto. split; auto. split; [discriminate|]. exists None. split; auto. split; auto. discriminate.
  Qed.
  Lemma bm_len m : bm_winv m -> length (bm_list m) = length (bm_ents m).
  Proof. intros H. rewrite (bm_vals m H). apply map_length. Qed.
  Lemma bm_set_len m : bm_winv m -> length (bs_ents (bm_set m)) = length (bm_ents m).
  Proof. intros H. rewrite bs_ents_length, <- (bm_keys m H). apply map_length. Qed.
  Lemma bm_is_monad_ok m : bm_winv m -> bm_is_monad m = Ret (length (bm_ents m) =? 1).
  Proof. intros H. unfold bm_is_monad, li_len. rewrite N1_nat, bm_len by auto. auto. Qed.

  (** Removal of a present key *)
  Lemma bm_removal m k : bm_winv m -> mem (bm_set m) k = true ->
    exists v ol, li_remove_value (bm_list m) (count_below (bm_set m) k) = Ret (ol, v) /\
    match ol with
    | None => length (bm_ents m) = 1 /\ tk m (k, v) None
    | Some l => length (bm_ents m) <> 1 /\ tk m (k, v) (Some (BM (unset_bit (bm_set m) k) l))
    end.
  Proof.
    intros Hw Hm. destruct (bm_at_key m k Hw Hm) as [b [v [a [E [Ec [El [_ Hrm]]]]]]]. exists v.
    rewrite Ec, El, li_remove_mid, <- map_app. eexists. split; [reflexivity|].
    destruct (b ++ a) as [|p r] eqn:Eba; cbn [map is_nil].
    - apply app_eq_nil in Eba. destruct Eba as [-> ->]. rewrite E. split; auto.
    - assert (HP : Permutation (bm_ents m) ((k, v) :: p :: r)) by (rewrite E, <- Eba; apply app_perm).
      split; [rewrite (Permutation_length HP); cbn; lia|].
      destruct (Hrm ltac:(discriminate)) as [H1 H2]. rewrite <- map_app, Eba in H1, H2. cbn [map] in H1, H2.
      split; auto. split; auto. rewrite H2. exact HP.
  Qed.

  Lemma bm_first m : bm_winv m -> exists k v put, lowest (bm_set m) = Ret k /\ mem (bm_set m) k = true /\
    vd_get (bm_list m) 0 = Ret v /\ vd_get_mut (bm_list m) 0 = Ret (v, put) /\ In (k, v) (bm_ents m) /\
    lens m (k, v) (bm_put m put) /\ (forall q, In q (bm_ents m) -> u_cmp k (fst q) <> Gt).
  Proof.
    intros Hw. destruct (lowest_spec (bm_set m) (proj1 Hw)) as [k [Ek [Hm Hmin]]].
    assert (Hall : forall q, In q (bm_ents m) -> u_cmp k (fst q) <> Gt).
    { intros q Hq. apply le_u_cmp. apply Hmin. rewrite bm_mem by auto. apply in_keys'. auto. }
    destruct (bm_at_key m k Hw Hm) as [b [v [a [E [Ec [El [Hput _]]]]]]].
    assert (b = []) as ->.
    { destruct b as [|p b]; auto. exfalso. assert (Ha := bm_asc m Hw). rewrite E in Ha. cbn in Ha.
      apply asc_cons in Ha. destruct Ha as [_ Ha]. assert (Hlt := Ha (k, v) ltac:(apply in_elt)).
      apply (Hall p); [rewrite E; left; auto|]. apply (cmp_gt_lt OL). exact Hlt. }
    exists k, v, (list_set (bm_list m) 0). unfold vd_get_mut. rewrite El. cbn [map app]. split; auto.
    split; auto. split; auto. split; auto. split; [rewrite E; left; auto|]. split; auto.
    assert (Hl := bm_lens_mid m [] k v a E El Hput). rewrite El in Hl. exact Hl.
  Qed.
  Lemma bm_last m : bm_winv m -> exists k v put n, highest (bm_set m) = Ret k /\ mem (bm_set m) k = true /\
    checked_sub (li_len (bm_list m)) 1 = Ret n /\
    vd_get (bm_list m) n = Ret v /\ vd_get_mut (bm_list m) n = Ret (v, put) /\ In (k, v) (bm_ents m) /\
    lens m (k, v) (bm_put m put) /\ (forall q, In q (bm_ents m) -> u_cmp (fst q) k <> Gt).
  Proof.
    intros Hw. destruct (highest_spec (bm_set m) (proj1 Hw)) as [k [Ek [Hm Hmin]]].
    assert (Hall : forall q, In q (bm_ents m) -> u_cmp (fst q) k <> Gt).
    { intros q Hq. apply le_u_cmp. apply Hmin. rewrite bm_mem by auto. apply in_keys'. auto. }
    destruct (bm_at_key m k Hw Hm) as [b [v [a [E [Ec [El [Hput _]]]]]]].
    assert (a = []) as ->.
    { destruct a as [|p a]; auto. exfalso. assert (Ha := bm_asc m Hw). rewrite E in Ha.
      apply asc_app in Ha. destruct Ha as [_ [Ha _]]. apply asc_cons in Ha. destruct Ha as [_ Ha].
      assert (Hlt := Ha p ltac:(left; auto)). cbn in Hlt.
      apply (Hall p); [rewrite E; apply in_app_iff; right; right; left; auto|]. apply (cmp_gt_lt OL). exact Hlt. }
    exists k, v, (list_set (bm_list m) (length (map snd b))), (N.of_nat (length (map snd b))).
    split; auto. split; auto. split.
    { unfold checked_sub, li_len. rewrite El, app_length. cbn [length map].
      replace (_ <=? _)%N with true by (symmetry; apply N.leb_le; lia). f_equal. lia. }
    unfold vd_get_mut. rewrite El, vd_get_mid. split; auto. split; [rewrite Nat2N.id; auto|].
    split; [rewrite E; apply in_elt|]. split; auto.
    assert (Hl := bm_lens_mid m b k v [] E El Hput). rewrite El in Hl. exact Hl.
  Qed.

  Definition ByteMap_laws : VebLaws u_cmp (ByteMap_ops V).
  Proof.
    refine {| winv := bm_winv : vt (ByteMap_ops V) -> Prop; ents := bm_ents; ord := fun _ => True; safe := fun _ _ => True |}.
    - exact bm_ents_ne.
    - intros m Hw _. apply (asc_nodup OL). apply bm_asc. auto.
    - auto.
    - auto.
    - intros k v. cbn [v_from_monad ByteMap_ops]. unfold bm_from_monad.
      destruct (bm_make (bs_from_monad k tt) [(k, v)]) as [H1 H2]; auto.
      + rewrite members_from_monad. auto.
      + discriminate.
    - exact bm_is_monad_ok.
    - intros m Hw. cbn [v_len_hint ByteMap_ops]. unfold default_len_hint. rewrite bm_is_monad_ok by auto. cbn [bind].
      assert (Hne := bm_ents_ne m Hw). destruct (length (bm_ents m) =? 1) eqn:El.
      + apply Nat.eqb_eq in El. exists 1%N, None. rewrite El. split; auto. split; [lia|]. discriminate.
      + apply Nat.eqb_neq in El. exists 2%N, None. split; auto. split; [|discriminate].
        destruct (bm_ents m) as [|a [|b r]]; cbn in El |- *; [congruence|lia|lia].
    - intros m Hw. cbn [v_into_monad ByteMap_ops]. unfold bm_into_monad.
      destruct (L_into_monad ByteSet_laws (bm_set m) (proj1 Hw)) as [[[k []] [E1 E2]]|[E1 E2]];
        cbn [v_into_monad ByteSet_ops ents ByteSet_laws] in E1, E2; rewrite E1; cbn [bind].
      + left. assert (Hm : mem (bm_set m) k = true) by (apply (in_bs_ents (bm_set m) (k, tt)); rewrite E2; left; auto).
        assert (Hl : length (bm_ents m) = 1) by (rewrite <- bm_set_len, E2; auto).
        destruct (bm_at_key m k Hw Hm) as [b [v [a [E [Ec [El _]]]]]].
        rewrite E in Hl. rewrite app_length in Hl. cbn in Hl. destruct b; [|cbn in Hl; lia]. destruct a; [|cbn in Hl; lia].
        cbn in El. rewrite El. exists (k, v). split; auto.
      + right. split; [destruct m; auto|]. rewrite <- bm_set_len by auto. auto.
    - intros m Hw. destruct (bm_first m Hw) as [k [v [put [E1 [E2 [E3 [E4 [E5 [E6 E7]]]]]]]]].
      exists (k, v). cbn [v_min_val ByteMap_ops]. unfold bm_min_val, bs_min_val. rewrite E1. cbn [bind]. rewrite E3. cbn [bind].
      split; auto.
    - intros m Hw. destruct (bm_last m Hw) as [k [v [put [n [E1 [E2 [E0 [E3 [E4 [E5 [E6 E7]]]]]]]]]]].
      exists (k, v). cbn [v_max_val ByteMap_ops]. unfold bm_max_val, bs_max_val. rewrite E1. cbn [bind]. rewrite E0. cbn [bind].
      rewrite E3. cbn [bind]. split; auto.
    - intros m k Hw. cbn [v_find ByteMap_ops]. unfold bm_find.
      destruct (L_find ByteSet_laws (bm_set m) k (proj1 Hw)) as [o [E Ho]]. cbn [v_find ByteSet_ops ents ByteSet_laws ord] in E, Ho.
      destruct (bm_query m _ o Hw E) as [o' [E1 [E2 [Hin _]]]].
      { intros j ->. apply (in_bs_ents (bm_set m) (j, tt)). tauto. }
      exists o'. split; auto. destruct o' as [p|], o as [q|]; try discriminate.
      + injection E2 as ->. split; [auto|tauto].
      + intros _. rewrite bm_keys, <- bs_keys by auto. auto.
    - intros m k Hw. cbn [v_predecessor ByteMap_ops]. unfold bm_predecessor.
      destruct (pred_spec (bm_set m) k) as [o [E Ho]].
      destruct (bm_query m _ o Hw E) as [o' [E1 [E2 [Hin _]]]].
      { intros j ->. tauto. }
      exists o'. split; auto. destruct o' as [p|], o as [[j []]|]; try discriminate.
      + injection E2 as ->. split; [auto|]. intros _. destruct Ho as [H1 [H2 H3]]. split; [apply lt_u_cmp; auto|].
        intros q Hq Hlt. apply le_u_cmp. apply H3; [|apply lt_u_cmp; auto]. rewrite bm_mem by auto. apply in_keys'. auto.
      + intros _ q Hq Hlt. apply lt_u_cmp in Hlt. assert (H := Ho (fst q)). rewrite bm_mem in H by auto.
        specialize (H (in_keys' q _ Hq)). lia.
    - intros m k Hw. cbn [v_successor ByteMap_ops]. unfold bm_successor.
      destruct (succ_spec (bm_set m) k) as [o [E Ho]].
      destruct (bm_query m _ o Hw E) as [o' [E1 [E2 [Hin _]]]].
      { intros j ->. tauto. }
      exists o'. split; auto. destruct o' as [p|], o as [[j []]|]; try discriminate.
      + injection E2 as ->. split; [auto|]. intros _. destruct Ho as [H1 [H2 H3]]. split; [apply lt_u_cmp; auto|].
        intros q Hq Hlt. apply le_u_cmp. apply H3; [|apply lt_u_cmp; auto]. rewrite bm_mem by auto. apply in_keys'. auto.
      + intros _ q Hq Hlt. apply lt_u_cmp in Hlt. assert (H := Ho (fst q)). rewrite bm_mem in H by auto.
        specialize (H (in_keys' q _ Hq)). lia.
    - intros m Hw. destruct (bm_first m Hw) as [k [v [put [E1 [E2 [E3 [E4 [E5 [E6 E7]]]]]]]]].
      exists (k, v), (bm_put m put). cbn [v_min_val v_min_val_mut ByteMap_ops].
      unfold bm_min_val, bm_min_val_mut, bs_min_val. rewrite E1. cbn [bind]. rewrite E3, E4. cbn [bind]. auto.
    - intros m Hw. destruct (bm_last m Hw) as [k [v [put [n [E1 [E2 [E0 [E3 [E4 [E5 [E6 E7]]]]]]]]]]].
      exists (k, v), (bm_put m put). cbn [v_max_val v_max_val_mut ByteMap_ops].
      unfold bm_max_val, bm_max_val_mut, bs_max_val. rewrite E1. cbn [bind]. rewrite E0. cbn [bind].
      rewrite E3, E4. cbn [bind]. auto.
    - intros m k Hw. cbn [v_find v_find_mut ByteMap_ops]. unfold bm_find, bm_find_mut.
      destruct (L_find ByteSet_laws (bm_set m) k (proj1 Hw)) as [o [E Ho]]. cbn [v_find ByteSet_ops ents ByteSet_laws ord] in E, Ho.
      destruct (bm_query m _ o Hw E) as [o' [_ [_ [_ H]]]]; [|exact H].
      intros j ->. apply (in_bs_ents (bm_set m) (j, tt)). tauto.
    - intros m k Hw. cbn [v_predecessor v_predecessor_mut ByteMap_ops]. unfold bm_predecessor, bm_predecessor_mut.
      destruct (pred_spec (bm_set m) k) as [o [E Ho]].
      destruct (bm_query m _ o Hw E) as [o' [_ [_ [_ H]]]]; [|exact H]. intros j ->. tauto.
    - intros m k Hw. cbn [v_successor v_successor_mut ByteMap_ops]. unfold bm_successor, bm_successor_mut.
      destruct (succ_spec (bm_set m) k) as [o [E Ho]].
      destruct (bm_query m _ o Hw E) as [o' [_ [_ [_ H]]]]; [|exact H]. intros j ->. tauto.
    - intros m k v Hw _. cbn [v_insert ByteMap_ops]. unfold bm_insert, bs_insert. rewrite present_bits.
      fold (mem (bm_set m) k). cbn [bind]. destruct (mem (bm_set m) k) eqn:Em.
      + destruct (bm_at_key m k Hw Em) as [b [w [a [E [Ec [El [Hput _]]]]]]].
        unfold vd_get_mut. rewrite Ec, El, vd_get_mid. cbn [bind]. rewrite Nat2N.id, set_mid.
        eexists. eexists. split; [reflexivity|]. destruct (Hput v) as [H1 H2]. split; auto. split.
        * exists (b ++ a). rewrite E, H2. split; apply app_perm.
        * split; auto. intros _ Hn. elim Hn. rewrite <- bm_mem; auto.
      + destruct (bm_at_gap m k Hw Em) as [b [a [E [Ec [El Hput]]]]].
        rewrite bm_count_above, Ec, El, vd_insert_mid by auto. cbn [bind].
        eexists. eexists. split; [reflexivity|]. destruct (Hput v) as [H1 H2]. split; auto. split; auto.
        rewrite E, H2. apply app_perm.
    - intros m k Hw. cbn [v_remove ByteMap_ops]. unfold bm_remove, bs_remove. rewrite present_bits.
      fold (mem (bm_set m) k). destruct (mem (bm_set m) k) eqn:Em; cbn [negb].
      + left. destruct (bm_removal m k Hw Em) as [v [ol [E H]]]. rewrite bs_is_monad_ok, bm_set_len by (auto; apply Hw).
        cbn [bind]. destruct ol as [l|], H as [Hl Ht].
        * apply Nat.eqb_neq in Hl. rewrite Hl. cbn [bind]. rewrite E. cbn [bind expect]. eauto.
        * apply Nat.eqb_eq in Hl. rewrite Hl. cbn [bind]. rewrite E. cbn [bind is_none debug_assert].
          exists None, (k, v). auto.
      + right. cbn [bind]. split; [destruct m; auto|]. rewrite <- bm_mem by auto. congruence.
    - intros m Hw. destruct (bm_first m Hw) as [k [v [put [E1 [E2 [E3 [_ [Hin _]]]]]]]].
      cbn [v_remove_min v_min_val ByteMap_ops]. unfold bm_remove_min, bm_min_val, bs_remove_min, bs_min_val.
      rewrite E1. cbn [bind]. rewrite E3. cbn [bind].
      destruct (bm_removal m k Hw E2) as [v' [ol [E H]]].
      assert (v' = v) as ->.
      { apply (nodup_keys_inj k v' v (bm_ents m)); auto; [apply (asc_nodup OL); apply bm_asc; auto|].
        destruct ol; destruct H as [_ Ht]; cbn in Ht.
        - eapply Permutation_in; [apply Permutation_sym; apply Ht|left; auto].
        - rewrite Ht. left; auto. }
      rewrite bs_is_monad_ok, bm_set_len by (auto; apply Hw). cbn [bind]. destruct ol as [l|], H as [Hl Ht].
      + apply Nat.eqb_neq in Hl. rewrite Hl. cbn [bind]. rewrite E. cbn [bind bm_rebuild]. eauto.
      + apply Nat.eqb_eq in Hl. rewrite Hl. cbn [bind]. rewrite E. cbn [bind bm_rebuild]. exists None, (k, v). auto.
    - intros m Hw. destruct (bm_last m Hw) as [k [v [put [n [E1 [E2 [E0 [E3 [_ [Hin _]]]]]]]]]].
      cbn [v_remove_max v_max_val ByteMap_ops]. unfold bm_remove_max, bm_max_val, bs_remove_max, bs_max_val.
      rewrite E1. cbn [bind]. rewrite E0. cbn [bind]. rewrite E3. cbn [bind].
      destruct (bm_removal m k Hw E2) as [v' [ol [E H]]].
      assert (v' = v) as ->.
      { apply (nodup_keys_inj k v' v (bm_ents m)); auto; [apply (asc_nodup OL); apply bm_asc; auto|].
        destruct ol; destruct H as [_ Ht]; cbn in Ht.
        - eapply Permutation_in; [apply Permutation_sym; apply Ht|left; auto].
        - rewrite Ht. left; auto. }
      rewrite bs_is_monad_ok, bm_set_len by (auto; apply Hw). cbn [bind]. destruct ol as [l|], H as [Hl Ht].
      + apply Nat.eqb_neq in Hl. rewrite Hl. cbn [bind]. rewrite E. cbn [bind bm_rebuild]. eauto.
      + apply Nat.eqb_eq in Hl. rewrite Hl. cbn [bind]. rewrite E. cbn [bind bm_rebuild]. exists None, (k, v). auto.
  Defined.
End ByteMapTree.
