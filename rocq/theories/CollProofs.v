(** The collections are finite maps from the high halves to trees. *)
From Verif Require Import Base Spec Ops Ints Boxed Lists Laws ByteSet ByteSetProofs ByteMap ByteMapProofs Coll.

(** *** ByteMap *)
Section ByteMapColl.
  Context {B : Build} {Lo V : Type} (Tr : VebOps Lo V).
  Notation T := (vt Tr).
  Notation CO := (ByteMap_coll Tr).
  Implicit Types m : ByteMap (list T).
  Notation st := (stored (C := CO) bm_winv bm_ents).

  Lemma bc_mem_in m h t : bm_winv m -> In (h, t) (bm_ents m) -> mem (bm_set m) h = true.
  Proof. intros Hw H. apply bm_mem; auto. apply in_keys in H. auto. Qed.
  (** the tree of a present key, with everything about its position *)
  Lemma bc_at m h t : bm_winv m -> In (h, t) (bm_ents m) -> exists b a,
    bm_ents m = b ++ (h, t) :: a /\ is_present (bm_set m) h = true /\
    count_below (bm_set m) h = N.of_nat (length (map snd b)) /\
    bm_list m = map snd b ++ t :: map snd a /\
    (forall w, bm_winv (BM (bm_set m) (map snd b ++ w :: map snd a)) /\
               bm_ents (BM (bm_set m) (map snd b ++ w :: map snd a)) = b ++ (h, w) :: a) /\
    (b ++ a <> [] -> bm_winv (BM (unset_bit (bm_set m) h) (map snd b ++ map snd a)) /\
               bm_ents (BM (unset_bit (bm_set m) h) (map snd b ++ map snd a)) = b ++ a).
  Proof.
    intros Hw Hin. assert (Hm := bc_mem_in _ _ _ Hw Hin).
    destruct (bm_at_key m h Hw Hm) as [b [t' [a [E [Ec [El [Hput Hrm]]]]]]].
    assert (t' = t) as ->.
    { apply (nodup_keys_inj h t' t (bm_ents m)); auto.
      - apply (asc_nodup (u_cmp_laws 8)). apply bm_asc. auto.
      - rewrite E. apply in_elt. }
    exists b, a. split; auto. split; [rewrite present_bits; exact Hm|]. auto.
  Qed.
  Lemma bc_absent m h : bm_winv m -> ~ In h (map fst (bm_ents m)) -> is_present (bm_set m) h = false.
  Proof.
    intros Hw Hn. rewrite present_bits. destruct (bits (words (bm_set m)) (uval h)) eqn:E; auto.
    elim Hn. apply (bm_mem m h Hw). exact E.
  Qed.
  (** storing the closure's answer *)
  Lemma bc_store m h t ot (val : Lo * V) b a : bm_winv m ->
    bm_ents m = b ++ (h, t) :: a -> is_present (bm_set m) h = true ->
    (forall w, bm_winv (BM (bm_set m) (map snd b ++ w :: map snd a)) /\
               bm_ents (BM (bm_set m) (map snd b ++ w :: map snd a)) = b ++ (h, w) :: a) ->
    (b ++ a <> [] -> bm_winv (BM (unset_bit (bm_set m) h) (map snd b ++ map snd a)) /\
               bm_ents (BM (unset_bit (bm_set m) h) (map snd b ++ map snd a)) = b ++ a) ->
    bm_list m = map snd b ++ t :: map snd a ->
    let l' := replace_at (bm_list m) (length (map snd b)) ot in
    exists oc, st m h t ot oc /\
    ((is_nil l' = true /\ is_none ot = true /\ oc = None) \/
     (is_nil l' = false /\ exists mb, bc_after Tr m h l' (is_none ot) = Ret mb /\ oc = Some mb)).
  Proof.
    intros Hw E Hp Hput Hrm El. cbn zeta. rewrite El. unfold replace_at, bc_after. destruct ot as [t'|]; cbn [is_none].
    - rewrite set_mid. destruct (Hput t') as [H1 H2]. exists (Some (BM (bm_set m) (map snd b ++ t' :: map snd a), false)).
      split.
      + split; auto. exists (b ++ a). rewrite E, H2. split; apply app_perm.
      + right. split; eauto. destruct (map snd b); reflexivity.
    - rewrite del_mid. destruct (is_nil (map snd b ++ map snd a)) eqn:En.
      + exists None. split; [|auto]. cbn. apply is_nil_spec in En. rewrite <- map_app in En. apply map_eq_nil in En.
        rewrite E. rewrite app_perm, En. auto.
      + destruct Hrm as [H1 H2].
        { intros E'. rewrite <- map_app, E' in En. discriminate. }
        eexists. split; [|right; split; [auto|]; rewrite Hp; cbn [debug_assert bind]; eauto].
        cbn. split; auto. rewrite E, H2. apply app_perm.
  Qed.

  Definition ByteMap_coll_laws : CollLaws CO.
  Proof.
    refine {| cinv := bm_winv : ct CO -> Prop; cents := bm_ents : ct CO -> list (u 8 * T) |}.
    - intros m Hw. apply (asc_nodup (u_cmp_laws 8)). apply bm_asc. auto.
    - apply bm_ents_ne.
    - intros h t. eexists. split; [reflexivity|].
      destruct (bm_make (bs_from_monad h tt) [(h, t)]) as [H1 H2].
      + rewrite members_from_monad. auto.
      + discriminate.
      + split; [exact H1|]. exact (eq_ind_r (fun l => Permutation l _) (Permutation_refl _) H2).
    - intros m h Hw. cbn [c_get ByteMap_coll]. unfold bc_get. rewrite present_bits. fold (mem (bm_set m) h).
      destruct (mem (bm_set m) h) eqn:Em; cbn [negb].
      + destruct (bm_at_key m h Hw Em) as [b [t [a [E [Ec [El _]]]]]]. rewrite Ec, El, vd_get_mid. cbn [bind].
        exists (Some t). split; auto. rewrite E. apply in_elt.
      + exists None. split; auto. change (~ In h (keys (bm_ents m))). rewrite <- bm_mem by auto. congruence.
    - intros m h Hw. cbn [c_get c_get_mut ByteMap_coll]. unfold bc_get, bc_get_mut. rewrite present_bits. fold (mem (bm_set m) h).
      destruct (mem (bm_set m) h) eqn:Em; cbn [negb].
      + destruct (bm_at_key m h Hw Em) as [b [t [a [E [Ec [El [Hput _]]]]]]].
        unfold vd_get_mut. rewrite Ec, El, vd_get_mid. cbn [bind]. eexists. split; [reflexivity|]. split; [reflexivity|].
        intros t1 put E1. injection E1 as <- <-. exists (b ++ a). split; [rewrite E; apply app_perm|].
        intros t'. unfold bm_put. rewrite Nat2N.id, set_mid. destruct (Hput t') as [H1 H2]. split; auto.
        rewrite H2. apply app_perm.
      + exists None. split; auto. split; auto. discriminate.
    - intros m h lv Hw Hn. cbn [c_insert_key ByteMap_coll]. unfold bc_insert_key, bs_insert.
      rewrite (bc_absent m h Hw Hn). cbn [bind].
      assert (Em := bc_absent m h Hw Hn). rewrite present_bits in Em.
      destruct (bm_at_gap m h Hw Em) as [b [a [E [Ec [El Hput]]]]].
      rewrite Ec, El, vd_insert_mid. cbn [bind]. eexists. split; [reflexivity|].
      destruct (Hput (v_from_monad Tr (fst lv) (snd lv))) as [H1 H2]. split; auto. rewrite H2, E. apply app_perm.
    - intros m h lv t t' r Hw Hin Hins. cbn [c_insert_key ByteMap_coll]. unfold bc_insert_key, bs_insert.
      destruct (bc_at m h t Hw Hin) as [b [a [E [Hp [Ec [El [Hput _]]]]]]]. rewrite Hp. cbn [bind].
      unfold vd_get_mut. rewrite Ec, El, vd_get_mid. cbn [bind]. rewrite Hins. cbn [bind]. rewrite Nat2N.id, set_mid.
      destruct (Hput t') as [H1 H2]. eexists. exists (b ++ a). split; [reflexivity|]. split; auto.
      rewrite H2, E. split; apply app_perm.
    - intros m h f t ot p Hw Hin Hf. cbn [c_remove_key ByteMap_coll]. unfold bc_remove_key, bs_find.
      destruct (bc_at m h t Hw Hin) as [b [a [E [Hp [Ec [El [Hput Hrm]]]]]]]. rewrite Hp. cbn [bind is_none negb debug_assert].
      destruct (bc_store m h t ot p b a Hw E Hp Hput Hrm El) as [oc [Hst Hoc]].
      unfold tl_remove_key. assert (Hg : vd_get (bm_list m) (N.of_nat (length (map snd b))) = Ret t) by (rewrite El; apply vd_get_mid).
      rewrite Ec, Nat2N.id, Hg. cbn [bind]. rewrite Hf. cbn [bind].
      exists oc. split; [|exact Hst]. destruct Hoc as [[E1 [E2 ->]]|[E1 [mb [E2 ->]]]]; rewrite E1.
      + rewrite E2. reflexivity.
      + cbn [bind]. rewrite E2. reflexivity.
    - intros m h f Hw Hn. cbn [c_maybe_remove_key ByteMap_coll]. unfold bc_maybe_remove_key, bs_find.
      rewrite (bc_absent m h Hw Hn). reflexivity.
    - intros m h f t t' Hw Hin Hf. cbn [c_maybe_remove_key ByteMap_coll]. unfold bc_maybe_remove_key, bs_find.
      destruct (bc_at m h t Hw Hin) as [b [a [E [Hp [Ec [El [Hput Hrm]]]]]]]. rewrite Hp. cbn [bind is_none negb debug_assert].
      unfold tl_maybe_remove_key. rewrite Ec, Nat2N.id, El, vd_get_mid. cbn [bind]. rewrite Hf. cbn [bind]. rewrite set_mid.
      destruct (Hput t') as [H1 H2]. eexists. exists (b ++ a). split; [reflexivity|]. split; auto.
      rewrite H2, E. split; [apply app_perm|]. split; [apply app_perm|]. intros ->. rewrite <- El. destruct m; auto.
    - intros m h f t ot p Hw Hin Hf. cbn [c_maybe_remove_key ByteMap_coll]. unfold bc_maybe_remove_key, bs_find.
      destruct (bc_at m h t Hw Hin) as [b [a [E [Hp [Ec [El [Hput Hrm]]]]]]]. rewrite Hp. cbn [bind is_none negb debug_assert].
      destruct (bc_store m h t ot p b a Hw E Hp Hput Hrm El) as [oc [Hst Hoc]].
      unfold tl_maybe_remove_key. assert (Hg : vd_get (bm_list m) (N.of_nat (length (map snd b))) = Ret t) by (rewrite El; apply vd_get_mid).
      rewrite Ec, Nat2N.id, Hg. cbn [bind]. rewrite Hf. cbn [bind].
      exists oc. split; [|exact Hst]. destruct Hoc as [[E1 [E2 ->]]|[E1 [mb [E2 ->]]]]; rewrite E1.
      + rewrite E2. reflexivity.
      + cbn [bind]. rewrite E2. reflexivity.
    - intros m h lv t Hw Hin Hins. cbn [c_insert_key ByteMap_coll]. unfold bc_insert_key, bs_insert.
      destruct (bc_at m h t Hw Hin) as [b [a [E [Hp [Ec [El _]]]]]]. rewrite Hp. cbn [bind].
      unfold vd_get_mut. rewrite Ec, El, vd_get_mid. cbn [bind]. rewrite Hins. reflexivity.
    - intros m h f t Hw Hin Hf. cbn [c_remove_key ByteMap_coll]. unfold bc_remove_key, bs_find.
      destruct (bc_at m h t Hw Hin) as [b [a [E [Hp [Ec [El _]]]]]]. rewrite Hp. cbn [bind is_none negb debug_assert].
      unfold tl_remove_key. rewrite Ec, El, vd_get_mid. cbn [bind]. rewrite Hf. reflexivity.
    - intros m h f t Hw Hin Hf. cbn [c_maybe_remove_key ByteMap_coll]. unfold bc_maybe_remove_key, bs_find.
      destruct (bc_at m h t Hw Hin) as [b [a [E [Hp [Ec [El _]]]]]]. rewrite Hp. cbn [bind is_none negb debug_assert].
      unfold tl_maybe_remove_key. rewrite Ec, El, vd_get_mid. cbn [bind]. rewrite Hf. reflexivity.
  Defined.
  Lemma bc_panics : dbg = true -> absent_panics ByteMap_coll_laws.
  Proof.
    intros Hd m h f Hw Hn. cbn [c_remove_key ByteMap_coll]. unfold bc_remove_key, bs_find.
    rewrite (bc_absent m h Hw Hn). cbn [bind is_none negb debug_assert]. rewrite Hd. reflexivity.
  Qed.
End ByteMapColl.

(** *** Hash map *)
Section HashColl.
  Context {B : Build} {Hi Lo V : Type} (eq : Hi -> Hi -> bool) (eq_spec : forall a b, eq a b = true <-> a = b) (Tr : VebOps Lo V).
  Notation T := (vt Tr).
  Notation CO := (Hash_coll eq Tr).
  Notation M := (list (Hi * T)).

  Definition hc_inv (m : M) : Prop := NoDup (map fst m) /\ m <> [].

  Lemma hm_get_spec (m : M) h :
    match hm_get eq m h with
    | Some t => In (h, t) m
    | None => ~ In h (map fst m)
    end.
  Proof.
    induction m as [|[h' t'] m IH]; cbn; auto. destruct (eq h h') eqn:E.
    - apply eq_spec in E. subst. auto.
    - destruct (hm_get eq m h); auto. intros [->|H]; auto.
      assert (eq h h = true) by (apply eq_spec; auto). congruence.
  Qed.
  Lemma hm_get_in (m : M) h t : NoDup (map fst m) -> In (h, t) m -> hm_get eq m h = Some t.
  Proof.
    intros Hn Hin. assert (H := hm_get_spec m h). destruct (hm_get eq m h) as [t'|].
    - f_equal. apply (nodup_keys_inj h t' t m); auto.
    - elim H. apply (in_map fst) in Hin. exact Hin.
  Qed.
  Lemma hm_at (m : M) h t : NoDup (map fst m) -> In (h, t) m -> exists b a, m = b ++ (h, t) :: a /\
    (forall t', hm_set eq m h t' = b ++ (h, t') :: a) /\ hm_del eq m h = b ++ a.
  Proof.
    induction m as [|[h' t0] m IH]; [intros _ []|]. cbn [map fst]. intros Hn Hin.
    inversion Hn as [|? ? Hn1 Hn2]; subst. destruct Hin as [Hin|Hin].
    - injection Hin as -> ->. exists [], m. split; auto. cbn. assert (E : eq h h = true) by (apply eq_spec; auto).
      rewrite E. auto.
    - destruct (IH Hn2 Hin) as [b [a [E1 [E2 E3]]]]. exists ((h', t0) :: b), a. cbn.
      assert (E : eq h h' = false).
      { destruct (eq h h') eqn:E; auto. apply eq_spec in E. subst h'. elim Hn1. apply (in_map fst) in Hin. exact Hin. }
      rewrite E. split; [f_equal; auto|]. split; [intros t'; f_equal; auto|f_equal; auto].
  Qed.
  Lemma hc_inv_mid b h t a t' : NoDup (map fst (b ++ (h, t) :: a)) -> hc_inv (b ++ (h, t') :: a).
  Proof.
    intros H. split.
    - rewrite map_app in *. exact H.
    - destruct b; discriminate.
  Qed.
  Lemma hc_inv_del (b a : M) h t : NoDup (map fst (b ++ (h, t) :: a)) -> NoDup (map fst (b ++ a)).
  Proof. rewrite !map_app. cbn [map fst]. intros H. apply NoDup_remove_1 in H. exact H. Qed.

  Notation st := (stored (C := CO) hc_inv (fun m : M => m)).
  Lemma hc_store (m : M) h t ot : hc_inv m -> In (h, t) m ->
    st m h t ot (if is_nil (hm_replace eq m h ot) then None else Some (hm_replace eq m h ot, is_none ot)).
  Proof.
    intros [Hn Hne] Hin. destruct (hm_at m h t Hn Hin) as [b [a [E1 [E2 E3]]]]. rewrite E1 in Hn.
    destruct ot as [t'|]; cbn [hm_replace is_none].
    - rewrite E2. destruct (is_nil (b ++ (h, t') :: a)) eqn:En; [apply is_nil_spec in En; destruct b; discriminate|].
      cbn. split; [apply hc_inv_mid with t; auto|]. exists (b ++ a). rewrite E1. split; apply app_perm.
    - rewrite E3. destruct (is_nil (b ++ a)) eqn:En; cbn.
      + apply is_nil_spec in En. rewrite E1, app_perm, En. auto.
      + split; [|rewrite E1; apply app_perm]. split; [eapply hc_inv_del; eauto|].
        intros E. apply is_nil_spec in E. congruence.
  Qed.

  Definition Hash_coll_laws : CollLaws CO.
  Proof.
    refine {| cinv := hc_inv : ct CO -> Prop; cents := fun m : ct CO => m |}.
    - intros m H. apply H.
    - intros m H. apply H.
    - intros h t. exists [(h, t)]. split.
      + cbn. assert (E : eq h h = true) by (apply eq_spec; auto). rewrite E. auto.
      + split; [|auto]. split; [|discriminate]. constructor; [intros []|constructor].
    - intros m h _. eexists. split; [reflexivity|]. apply hm_get_spec.
    - intros m h [Hn _]. cbn [c_get c_get_mut Hash_coll]. unfold hc_get, hc_get_mut.
      destruct (hm_get eq m h) as [t|] eqn:Eg.
      + eexists. split; [reflexivity|]. split; [reflexivity|]. intros t1 put E. injection E as <- <-.
        assert (Hin := hm_get_spec m h). rewrite Eg in Hin. destruct (hm_at m h t Hn Hin) as [b [a [E1 [E2 E3]]]].
        exists (b ++ a). split; [rewrite E1; apply app_perm|]. intros t'. rewrite E2. split; [|apply app_perm].
        apply hc_inv_mid with t. rewrite <- E1. auto.
      + exists None. split; auto. split; auto. discriminate.
    - intros m h lv [Hn Hne] Hni. cbn [c_insert_key Hash_coll]. unfold hc_insert_key.
      destruct (hm_get eq m h) as [t|] eqn:Eg.
      + assert (Hin := hm_get_spec m h). rewrite Eg in Hin. elim Hni. apply (in_map fst) in Hin. exact Hin.
      + eexists. split; [reflexivity|]. split; [|apply Permutation_refl]. split; [|discriminate].
        cbn. constructor; auto.
    - intros m h lv t t' r [Hn Hne] Hin Hins. cbn [c_insert_key Hash_coll]. unfold hc_insert_key.
      rewrite (hm_get_in m h t Hn Hin), Hins. cbn [bind]. destruct (hm_at m h t Hn Hin) as [b [a [E1 [E2 E3]]]].
      rewrite E2. eexists. exists (b ++ a). split; [reflexivity|]. split; [|rewrite E1; split; apply app_perm].
      apply hc_inv_mid with t. rewrite <- E1. auto.
    - intros m h f t ot p Hi' Hin Hf. cbn [c_remove_key Hash_coll]. unfold hc_remove_key.
      rewrite (hm_get_in m h t (proj1 Hi') Hin), Hf. cbn [bind]. assert (H := hc_store m h t ot Hi' Hin).
      destruct (is_nil (hm_replace eq m h ot)); eauto.
    - intros m h f Hi' Hni. cbn [c_maybe_remove_key Hash_coll]. unfold hc_maybe_remove_key.
      destruct (hm_get eq m h) as [t|] eqn:Eg; auto.
      assert (Hin := hm_get_spec m h). rewrite Eg in Hin. elim Hni. apply (in_map fst) in Hin. exact Hin.
    - intros m h f t t' [Hn Hne] Hin Hf. cbn [c_maybe_remove_key Hash_coll]. unfold hc_maybe_remove_key.
      rewrite (hm_get_in m h t Hn Hin), Hf. cbn [bind hm_replace is_none].
      destruct (hm_at m h t Hn Hin) as [b [a [E1 [E2 E3]]]]. rewrite E2.
      destruct (is_nil (b ++ (h, t') :: a)) eqn:En; [apply is_nil_spec in En; destruct b; discriminate|].
      eexists. exists (b ++ a). split; [reflexivity|]. split.
      + apply hc_inv_mid with t. rewrite <- E1. auto.
      + split; [rewrite E1; apply app_perm|]. split; [apply app_perm|]. intros ->. auto.
    - intros m h f t ot p Hi' Hin Hf. cbn [c_maybe_remove_key Hash_coll]. unfold hc_maybe_remove_key.
      rewrite (hm_get_in m h t (proj1 Hi') Hin), Hf. cbn [bind]. assert (H := hc_store m h t ot Hi' Hin).
      destruct (is_nil (hm_replace eq m h ot)); eauto.
    - intros m h lv t [Hn _] Hin Hins. cbn [c_insert_key Hash_coll]. unfold hc_insert_key.
      rewrite (hm_get_in m h t Hn Hin), Hins. reflexivity.
    - intros m h f t [Hn _] Hin Hf. cbn [c_remove_key Hash_coll]. unfold hc_remove_key.
      rewrite (hm_get_in m h t Hn Hin), Hf. reflexivity.
    - intros m h f t [Hn _] Hin Hf. cbn [c_maybe_remove_key Hash_coll]. unfold hc_maybe_remove_key.
      rewrite (hm_get_in m h t Hn Hin), Hf. reflexivity.
  Defined.
  Lemma hc_panics : absent_panics Hash_coll_laws.
  Proof.
    intros m h f Hi' Hni. cbn [c_remove_key Hash_coll]. unfold hc_remove_key. destruct (hm_get eq m h) as [t|] eqn:Eg; auto.
    assert (Hin := hm_get_spec m h). rewrite Eg in Hin. elim Hni. apply (in_map fst) in Hin. exact Hin.
  Qed.
End HashColl.

(** *** Array *)
(** [index] is injective (it has a left inverse) and below the cardinality the array is made with, which fits [usize]. *)
Record IdxLaws {B : Build} {H : Type} (ix : IdxOps H) : Type := {
  idx_inv : N -> H;
  idx_inv_ok : forall h, idx_inv (i_index ix h) = h;
  idx_lt : forall h, (i_index ix h < i_card ix)%N;
  idx_card : (i_card ix <= usize_max)%N
}.
Arguments idx_inv {B H ix}.
Arguments idx_inv_ok {B H ix}.
Arguments idx_lt {B H ix}.
Arguments idx_card {B H ix}.
Lemma card_fits {B : Build} {n} : (n <= usize_max)%N -> card_usize n = n.
Proof. unfold usize_max, card_usize. intros H. apply N.mod_small. assert (0 < 2 ^ usize_bits)%N by (apply N.neq_0_lt_0, N.pow_nonzero; discriminate). lia. Qed.
Lemma card_le {B : Build} n : (card_usize n <= n)%N.
Proof. unfold card_usize. apply N.mod_le. apply N.pow_nonzero. discriminate. Qed.

Section ArrayColl.
  Context {B : Build} {Hi Lo V : Type} {ix : IdxOps Hi} (IL : IdxLaws ix) (Tr : VebOps Lo V).
  Notation T := (vt Tr).
  Notation CO := (Array_coll ix Tr).
  Notation A := (ArrayColl T).
  Notation inv := (idx_inv IL).
  Notation idx h := (N.to_nat (i_index ix h)).

  Definition slot (n : nat) (o : option T) : list (Hi * T) :=
    match o with Some t => [(inv (N.of_nat n), t)] | None => [] end.
  Fixpoint slots (n : nat) (a : list (option T)) : list (Hi * T) :=
    match a with
    | [] => []
    | o :: a' => slot n o ++ slots (S n) a'
    end.
  (** every occupied slot is the slot of the key it stands for *)
  Fixpoint slots_ok (n : nat) (a : list (option T)) : Prop :=
    match a with
    | [] => True
    | o :: a' => (o <> None -> idx (inv (N.of_nat n)) = n) /\ slots_ok (S n) a'
    end.
  Definition ac_ents (c : A) : list (Hi * T) := slots 0 (ac_array c).
  Definition ac_inv (c : A) : Prop :=
    length (ac_array c) = N.to_nat (i_card ix) /\ slots_ok 0 (ac_array c) /\
    ac_count c = N.of_nat (length (ac_ents c)) /\ ac_ents c <> [].

  Lemma slots_app n a b : slots n (a ++ b) = slots n a ++ slots (n + length a) b.
  Proof.
    revert n. induction a as [|o a IH]; intros n; cbn.
    - rewrite Nat.add_0_r. auto.
    - rewrite IH, <- app_assoc, Nat.add_succ_r. auto.
  Qed.
  Lemma slots_ok_app n a b : slots_ok n (a ++ b) <-> slots_ok n a /\ slots_ok (n + length a) b.
  Proof.
    revert n. induction a as [|o a IH]; intros n; cbn.
    - rewrite Nat.add_0_r. tauto.
    - rewrite IH, Nat.add_succ_r. tauto.
  Qed.
  Lemma slots_length n a : length (slots n a) <= length a.
  Proof.
    revert n. induction a as [|o a IH]; intros n; cbn; auto. specialize (IH (S n)). rewrite app_length.
    destruct o; cbn; lia.
  Qed.
  Lemma slots_in n a h t : slots_ok n a -> In (h, t) (slots n a) -> n <= idx h < n + length a.
  Proof.
    revert n. induction a as [|o a IH]; intros n; [intros _ []|]. cbn. intros [H1 H2] Hin. apply in_app_iff in Hin.
    destruct Hin as [Hin|Hin].
    - destruct o as [t'|]; [|destruct Hin]. destruct Hin as [Hin|[]]. injection Hin as <- <-.
      rewrite H1 by discriminate. lia.
    - apply IH in Hin; auto. lia.
  Qed.
  Lemma slots_nodup n a : slots_ok n a -> NoDup (map fst (slots n a)).
  Proof.
    revert n. induction a as [|o a IH]; intros n; [constructor|]. cbn. intros [H1 H2].
    destruct o as [t|]; cbn; auto. constructor; auto. intros Hin. apply in_map_iff in Hin.
    destruct Hin as [[h t'] [E Hin]]. cbn in E. subst h. apply slots_in in Hin; auto.
    rewrite H1 in Hin by discriminate. lia.
  Qed.
  Lemma slot_idx h : inv (N.of_nat (idx h)) = h.
  Proof. rewrite N2Nat.id. apply idx_inv_ok. Qed.
  Lemma idx_lt_nat h : idx h < N.to_nat (i_card ix).
  Proof. assert (H := idx_lt IL h). lia. Qed.

  (** the slot of a key *)
  Lemma ac_at (c : A) h : ac_inv c -> exists b o a, ac_array c = b ++ o :: a /\ length b = idx h /\
    oa_get (ac_array c) (i_index ix h) = Ret o /\
    (forall o', oa_set (ac_array c) (i_index ix h) o' = Ret (b ++ o' :: a)) /\
    (forall t', list_set (ac_array c) (idx h) t' = b ++ t' :: a) /\
    (forall o', slots 0 (b ++ o' :: a) = slots 0 b ++ slot (idx h) o' ++ slots (S (idx h)) a) /\
    (forall o', slots_ok 0 (b ++ o' :: a)) /\
    ~ In h (map fst (slots 0 b)) /\ ~ In h (map fst (slots (S (idx h)) a)).
  Proof.
    intros [Hl [Hok _]]. assert (Hlt := idx_lt_nat h). rewrite <- Hl in Hlt.
    apply nth_error_Some in Hlt. destruct (nth_error (ac_array c) (idx h)) as [o|] eqn:En; [|congruence].
    destruct (nth_error_split _ _ En) as [b [a [E Eb]]]. exists b, o, a. split; auto. split; auto.
    assert (Hg : oa_get (ac_array c) (i_index ix h) = Ret o) by (unfold oa_get; rewrite En; auto).
    split; auto.
    assert (Hset : forall t', list_set (ac_array c) (idx h) t' = b ++ t' :: a).
    { intros t'. rewrite <- Eb, E. apply set_mid. }
    split; [intros o'; unfold oa_set; rewrite Hg; cbn [bind]; rewrite Hset; auto|]. split; auto.
    rewrite E in Hok. apply slots_ok_app in Hok. destruct Hok as [Hok1 Hok2]. cbn in Hok2.
    split; [intros o'; rewrite slots_app; cbn; rewrite Eb; auto|].
    split.
    { intros o'. apply slots_ok_app. split; auto. cbn. split; [|apply Hok2]. intros _. rewrite Eb, slot_idx. auto. }
    rewrite Eb in Hok2. split; intros Hin; apply in_map_iff in Hin; destruct Hin as [[h' t] [Eh Hin]]; cbn in Eh; subst h';
      apply slots_in in Hin; auto; try lia. apply Hok2.
  Qed.
  Lemma ac_present (c : A) h b o a t : ac_array c = b ++ o :: a ->
    (forall o', slots 0 (b ++ o' :: a) = slots 0 b ++ slot (idx h) o' ++ slots (S (idx h)) a) ->
    ~ In h (map fst (slots 0 b)) -> ~ In h (map fst (slots (S (idx h)) a)) ->
    In (h, t) (ac_ents c) -> o = Some t.
  Proof.
    intros E Es H1 H2 Hin. unfold ac_ents in Hin. rewrite E, Es in Hin. apply in_app_iff in Hin.
    destruct Hin as [Hin|Hin]; [elim H1; apply (in_map fst) in Hin; auto|]. apply in_app_iff in Hin.
    destruct Hin as [Hin|Hin]; [|elim H2; apply (in_map fst) in Hin; auto].
    destruct o as [t'|]; [|destruct Hin]. destruct Hin as [Hin|[]]. congruence.
  Qed.
  Lemma slot_some h t : slot (idx h) (Some t) = [(h, t)].
  Proof. cbn. rewrite slot_idx. auto. Qed.

  Notation st := (stored (C := CO) ac_inv ac_ents).
  Lemma ac_count_pos (c : A) : ac_inv c -> (1 <= ac_count c)%N.
  Proof. intros [_ [_ [H Hne]]]. rewrite H. destruct (ac_ents c); [congruence|]. cbn [length]. lia. Qed.
  Lemma ac_store_ok (c : A) h t ot : ac_inv c -> In (h, t) (ac_ents c) -> exists a0 oc,
    oa_get (ac_array c) (i_index ix h) = Ret (Some t) /\
    oa_set (ac_array c) (i_index ix h) None = Ret a0 /\
    ac_store ix Tr a0 (ac_count c) h ot = Ret oc /\ st c h t ot oc.
  Proof.
    intros Hinv Hin. destruct (ac_at c h Hinv) as [b [o [a [E [Eb [Hg [Hs [Hls [Hsl [Hok [Hn1 Hn2]]]]]]]]]]].
    assert (o = Some t) as -> by (eapply ac_present; eauto).
    assert (Hlen : length (b ++ (Some t) :: a) = N.to_nat (i_card ix)) by (rewrite <- E; apply Hinv).
    exists (b ++ None :: a).
    assert (Hset : forall o', oa_set (b ++ None :: a) (i_index ix h) o' = Ret (b ++ o' :: a)).
    { intros o'. unfold oa_set, oa_get. rewrite <- Eb, nth_mid. cbn [expect bind]. rewrite set_mid. auto. }
    assert (Hents : ac_ents c = slots 0 b ++ (h, t) :: slots (S (idx h)) a).
    { unfold ac_ents. rewrite E, Hsl, slot_some. auto. }
    assert (Hcnt : ac_count c = N.of_nat (length (slots 0 b) + S (length (slots (S (idx h)) a)))).
    { rewrite (proj1 (proj2 (proj2 Hinv))), Hents, app_length. auto. }
    unfold ac_store. destruct ot as [t'|]; cbn [is_none].
    - cbn [bind]. rewrite Hset. cbn [bind]. assert (Hpos := ac_count_pos c Hinv).
      replace (ac_count c =? 0)%N with false by (symmetry; apply N.eqb_neq; lia).
      eexists. split; [exact Hg|]. split; [apply Hs|]. split; [reflexivity|].
      assert (He : ac_ents (AC (b ++ Some t' :: a) (ac_count c)) = slots 0 b ++ (h, t') :: slots (S (idx h)) a).
      { unfold ac_ents. cbn [ac_array]. rewrite Hsl, slot_some. auto. }
      cbv beta iota delta [stored]. split.
      + unfold ac_inv. rewrite He. cbn [ac_array ac_count]. split; [rewrite <- Hlen, !app_length; auto|]. split; auto.
        split; [rewrite Hcnt, app_length; auto|]. destruct (slots 0 b); discriminate.
      + exists (slots 0 b ++ slots (S (idx h)) a). rewrite Hents, He. split; apply app_perm.
    - unfold checked_sub. replace (1 <=? ac_count c)%N with true by (symmetry; apply N.leb_le; apply ac_count_pos; auto).
      cbn [bind]. rewrite Hset. cbn [bind].
      assert (He : ac_ents (AC (b ++ None :: a) (ac_count c - 1)) = slots 0 b ++ slots (S (idx h)) a).
      { unfold ac_ents. cbn [ac_array]. rewrite Hsl. auto. }
      destruct (N.eqb_spec (ac_count c - 1) 0) as [E0|E0]; (eexists; split; [exact Hg|]; split; [apply Hs|]; split; [reflexivity|]); red.
      + rewrite Hents. assert (E1 : slots 0 b = []) by (apply length_zero_iff_nil; lia).
        assert (E2 : slots (S (idx h)) a = []) by (apply length_zero_iff_nil; lia). rewrite E1, E2. auto.
      + split.
        * unfold ac_inv. rewrite He. cbn [ac_array ac_count]. split; [rewrite <- Hlen, !app_length; auto|]. split; auto.
          split; [rewrite Hcnt, app_length; lia|]. intros En. apply app_eq_nil in En. destruct En as [E1 E2].
          rewrite E1, E2 in Hcnt. cbn in Hcnt. lia.
        * rewrite Hents, He. apply app_perm.
  Qed.

  Lemma slots_repeat n k : slots n (repeat None k) = [].
  Proof. revert n. induction k as [|k IH]; intros n; cbn; auto. Qed.
  Lemma slots_ok_repeat n k : slots_ok n (repeat None k).
  Proof. revert n. induction k as [|k IH]; intros n; cbn; auto. split; auto. congruence. Qed.

  Definition Array_coll_laws : CollLaws CO.
  Proof.
    refine {| cinv := ac_inv : ct CO -> Prop; cents := ac_ents |}.
    - intros c H. apply slots_nodup. apply H.
    - intros c H. apply H.
    - intros h t. cbn [c_create Array_coll]. unfold ac_create, oa_set, oa_get, oa_create. rewrite (card_fits (idx_card IL)).
      assert (Hlt := idx_lt_nat h).
      assert (Er : @repeat (option T) None (N.to_nat (i_card ix)) = repeat None (idx h) ++ None :: repeat None (N.to_nat (i_card ix) - S (idx h))).
      { change (None :: repeat None (N.to_nat (i_card ix) - S (idx h))) with (@repeat (option T) None (S (N.to_nat (i_card ix) - S (idx h)))).
        rewrite <- repeat_app. f_equal. lia. }
      rewrite Er. assert (Hm := @nth_mid (option T) (repeat None (idx h)) (repeat None (N.to_nat (i_card ix) - S (idx h))) None).
      rewrite repeat_length in Hm. rewrite Hm. cbn [expect bind].
      assert (Hs := @set_mid (option T) (repeat None (idx h)) (repeat None (N.to_nat (i_card ix) - S (idx h))) None (Some t)).
      rewrite repeat_length in Hs. rewrite Hs. eexists. split; [reflexivity|].
      assert (He : ac_ents (AC (repeat None (idx h) ++ Some t :: repeat None (N.to_nat (i_card ix) - S (idx h))) 1) = [(h, t)]).
      { unfold ac_ents. cbn [ac_array]. rewrite slots_app. cbn [slots]. rewrite !slots_repeat, repeat_length. cbn.
        rewrite slot_idx. auto. }
      split; [|change (Permutation (ac_ents (AC (repeat None (idx h) ++ Some t :: repeat None (N.to_nat (i_card ix) - S (idx h))) 1)) [(h, t)]); rewrite He; auto].
      unfold ac_inv. rewrite He. cbn [ac_array ac_count]. split; [rewrite app_length; cbn [length]; rewrite !repeat_length; lia|].
      split; [|split; [auto|discriminate]]. apply slots_ok_app. split; [apply slots_ok_repeat|]. cbn. rewrite repeat_length.
      split; [|apply slots_ok_repeat]. intros _. rewrite slot_idx. auto.
    - intros c h Hinv. cbn [c_get Array_coll]. unfold ac_get.
      destruct (ac_at c h Hinv) as [b [o [a [E [Eb [Hg [Hs [Hls [Hsl [Hok [Hn1 Hn2]]]]]]]]]]]. exists o. split; auto.
      unfold ac_ents. rewrite E, Hsl. destruct o as [t|].
      + rewrite slot_some. apply in_elt.
      + cbn. rewrite map_app, in_app_iff. tauto.
    - intros c h Hinv. cbn [c_get c_get_mut Array_coll]. unfold ac_get, ac_get_mut.
      destruct (ac_at c h Hinv) as [b [o [a [E [Eb [Hg [Hs [Hls [Hsl [Hok [Hn1 Hn2]]]]]]]]]]]. rewrite Hg. cbn [bind].
      destruct o as [t|].
      + eexists. split; [reflexivity|]. split; [reflexivity|]. intros t1 put E1. injection E1 as <- <-.
        exists (slots 0 b ++ slots (S (idx h)) a). split; [unfold ac_ents; rewrite E, Hsl, slot_some; apply app_perm|].
        intros t'. rewrite Hls.
        assert (He : ac_ents (AC (b ++ Some t' :: a) (ac_count c)) = slots 0 b ++ (h, t') :: slots (S (idx h)) a).
        { unfold ac_ents. cbn [ac_array]. rewrite Hsl, slot_some. auto. }
        rewrite He. split; [|apply app_perm]. destruct Hinv as [H1 [H2 [H3 H4]]]. unfold ac_inv. rewrite He.
        cbn [ac_array ac_count]. split; [rewrite <- H1, E, !app_length; auto|]. split; auto. split; [|destruct (slots 0 b); discriminate].
        rewrite H3. unfold ac_ents. rewrite E, Hsl, slot_some, !app_length. auto.
      + exists None. split; auto. split; auto. discriminate.
    - intros c h lv Hinv Hni. cbn [c_insert_key Array_coll]. unfold ac_insert_key.
      destruct (ac_at c h Hinv) as [b [o [a [E [Eb [Hg [Hs [Hls [Hsl [Hok [Hn1 Hn2]]]]]]]]]]]. rewrite Hg. cbn [bind].
      destruct o as [t|].
      { elim Hni. unfold ac_ents. rewrite E, Hsl, slot_some, map_app. apply in_elt. }
      rewrite Hs. cbn [bind]. destruct Hinv as [H1 [H2 [H3 H4]]].
      assert (He : ac_ents c = slots 0 b ++ slots (S (idx h)) a) by (unfold ac_ents; rewrite E, Hsl; auto).
      assert (Hc : (ac_count c + 1 <= usize_max)%N).
      { rewrite H3, He, app_length. assert (Ha := slots_length 0 b). assert (Ha' := slots_length (S (idx h)) a).
        rewrite E, app_length in H1. cbn in H1. assert (Hcard := idx_card IL). lia. }
      unfold usize_add. replace (ac_count c + 1 <=? usize_max)%N with true by (symmetry; apply N.leb_le; auto). cbn [bind].
      eexists. split; [reflexivity|].
      assert (He' : ac_ents (AC (b ++ Some (v_from_monad Tr (fst lv) (snd lv)) :: a) (ac_count c + 1)) =
                    slots 0 b ++ (h, v_from_monad Tr (fst lv) (snd lv)) :: slots (S (idx h)) a).
      { unfold ac_ents. cbn [ac_array]. rewrite Hsl, slot_some. auto. }
      rewrite He'. split; [|rewrite He; apply app_perm]. unfold ac_inv. rewrite He'. cbn [ac_array ac_count].
      split; [rewrite <- H1, E, !app_length; auto|]. split; auto. split; [|destruct (slots 0 b); discriminate].
      rewrite H3, He, !app_length. cbn [length]. lia.
    - intros c h lv t t' r Hinv Hin Hins. cbn [c_insert_key Array_coll]. unfold ac_insert_key.
      destruct (ac_at c h Hinv) as [b [o [a [E [Eb [Hg [Hs [Hls [Hsl [Hok [Hn1 Hn2]]]]]]]]]]].
      assert (o = Some t) as -> by (eapply ac_present; eauto). rewrite Hg. cbn [bind]. rewrite Hins. cbn [bind].
      rewrite Hs. cbn [bind].
      assert (He : ac_ents (AC (b ++ Some t' :: a) (ac_count c)) = slots 0 b ++ (h, t') :: slots (S (idx h)) a).
      { unfold ac_ents. cbn [ac_array]. rewrite Hsl, slot_some. auto. }
      eexists. exists (slots 0 b ++ slots (S (idx h)) a). split; [reflexivity|]. split.
      + destruct Hinv as [H1 [H2 [H3 H4]]]. unfold ac_inv. rewrite He. cbn [ac_array ac_count].
        split; [rewrite <- H1, E, !app_length; auto|]. split; auto. split; [|destruct (slots 0 b); discriminate].
        rewrite H3. unfold ac_ents. rewrite E, Hsl, slot_some, !app_length. auto.
      + rewrite He. unfold ac_ents. rewrite E, Hsl, slot_some. split; apply app_perm.
    - intros c h f t ot p Hinv Hin Hf. cbn [c_remove_key Array_coll]. unfold ac_remove_key.
      destruct (ac_store_ok c h t ot Hinv Hin) as [a0 [oc [E1 [E2 [E3 Hst]]]]].
      rewrite E1. cbn [bind]. rewrite E2. cbn [bind expect]. rewrite Hf. cbn [bind]. rewrite E3. cbn [bind]. eauto.
    - intros c h f Hinv Hni. cbn [c_maybe_remove_key Array_coll]. unfold ac_maybe_remove_key.
      destruct (ac_at c h Hinv) as [b [o [a [E [Eb [Hg [Hs [Hls [Hsl [Hok [Hn1 Hn2]]]]]]]]]]]. rewrite Hg. cbn [bind].
      rewrite Hs. cbn [bind]. destruct o as [t|].
      { elim Hni. unfold ac_ents. rewrite E, Hsl, slot_some, map_app. apply in_elt. }
      rewrite <- E. destruct c; auto.
    - intros c h f t t' Hinv Hin Hf. cbn [c_maybe_remove_key Array_coll]. unfold ac_maybe_remove_key.
      destruct (ac_at c h Hinv) as [b [o [a [E [Eb [Hg [Hs [Hls [Hsl [Hok [Hn1 Hn2]]]]]]]]]]].
      assert (o = Some t) as -> by (eapply ac_present; eauto). rewrite Hg. cbn [bind]. rewrite Hs. cbn [bind].
      rewrite Hf. cbn [bind]. unfold oa_set, oa_get. rewrite <- Eb, nth_mid. cbn [expect bind]. rewrite set_mid.
      assert (He : ac_ents (AC (b ++ Some t' :: a) (ac_count c)) = slots 0 b ++ (h, t') :: slots (S (idx h)) a).
      { unfold ac_ents. cbn [ac_array]. rewrite Hsl, slot_some. auto. }
      eexists. exists (slots 0 b ++ slots (S (idx h)) a). split; [reflexivity|]. split; [|split; [|split]].
      + destruct Hinv as [H1 [H2 [H3 H4]]]. unfold ac_inv. rewrite He. cbn [ac_array ac_count].
        split; [rewrite <- H1, E, !app_length; auto|]. split; auto. split; [|destruct (slots 0 b); discriminate].
        rewrite H3. unfold ac_ents. rewrite E, Hsl, slot_some, !app_length. auto.
      + unfold ac_ents. rewrite E, Hsl, slot_some. apply app_perm.
      + rewrite He. apply app_perm.
      + intros ->. rewrite <- E. destruct c; auto.
    - intros c h f t ot p Hinv Hin Hf. cbn [c_maybe_remove_key Array_coll]. unfold ac_maybe_remove_key.
      destruct (ac_store_ok c h t ot Hinv Hin) as [a0 [oc [E1 [E2 [E3 Hst]]]]].
      rewrite E1. cbn [bind]. rewrite E2. cbn [bind]. rewrite Hf. cbn [bind]. rewrite E3. cbn [bind]. eauto.
    - intros c h lv t Hinv Hin Hins. cbn [c_insert_key Array_coll]. unfold ac_insert_key.
      destruct (ac_store_ok c h t None Hinv Hin) as [a0 [oc [E1 _]]]. rewrite E1. cbn [bind]. rewrite Hins. reflexivity.
    - intros c h f t Hinv Hin Hf. cbn [c_remove_key Array_coll]. unfold ac_remove_key.
      destruct (ac_store_ok c h t None Hinv Hin) as [a0 [oc [E1 [E2 _]]]].
      rewrite E1. cbn [bind]. rewrite E2. cbn [bind expect]. rewrite Hf. reflexivity.
    - intros c h f t Hinv Hin Hf. cbn [c_maybe_remove_key Array_coll]. unfold ac_maybe_remove_key.
      destruct (ac_store_ok c h t None Hinv Hin) as [a0 [oc [E1 [E2 _]]]].
      rewrite E1. cbn [bind]. rewrite E2. cbn [bind]. rewrite Hf. reflexivity.
  Defined.
  Lemma ac_panics : absent_panics Array_coll_laws.
  Proof.
    intros c h f Hinv Hni. cbn [c_remove_key Array_coll]. unfold ac_remove_key.
    destruct (ac_at c h Hinv) as [b [o [a [E [Eb [Hg [Hs [Hls [Hsl [Hok [Hn1 Hn2]]]]]]]]]]]. rewrite Hg. cbn [bind].
    rewrite Hs. cbn [bind]. destruct o as [t|]; auto.
    elim Hni. change (In h (map fst (ac_ents c))). unfold ac_ents. rewrite E, Hsl, slot_some, map_app. apply in_elt.
  Qed.
End ArrayColl.

(** *** Box *)
Section BoxCollLaws.
  Context {Hi Lo V : Type} {Tr : VebOps Lo V} {C : CollOps Hi Lo V Tr} (LC : CollLaws C).
  Notation CO := (Box_coll C).
  Notation st := (stored (C := CO) (fun c => cinv LC (unbox c)) (fun c => cents LC (unbox c))).

  Lemma box_stored c h t ot (p : Lo * V) oc : stored (cinv LC) (cents LC) (unbox c) h t ot oc ->
    st c h t ot (fst (box_cb C (oc, p))).
  Proof. destruct ot, oc as [[c' []]|]; cbn; auto. Qed.

  Definition Box_coll_laws : CollLaws CO.
  Proof.
    refine {| cinv := fun c : ct CO => cinv LC (unbox c); cents := fun c : ct CO => cents LC (unbox c) |}.
    - intros c. apply C_nodup.
    - intros c. apply C_nonempty.
    - intros h t. destruct (C_create LC h t) as [c [E [H1 H2]]]. exists (mkbox c). cbn. unfold rmap. rewrite E. auto.
    - intros c h H. apply (C_get LC (unbox c) h H).
    - intros c h H. destruct (C_get_mut LC (unbox c) h H) as [o [E1 [E2 H3]]]. cbn. unfold rmap. rewrite E1, E2.
      destruct o as [[t put]|]; cbn.
      + eexists. split; [reflexivity|]. split; [reflexivity|]. intros t1 put1 E. injection E as <- <-.
        apply (H3 t put eq_refl).
      + exists None. split; auto. split; auto. discriminate.
    - intros c h lv H1 H2. destruct (C_insert_new LC (unbox c) h lv H1 H2) as [c' [E H3]]. exists (mkbox c').
      cbn. rewrite E. auto.
    - intros c h lv t t' r H1 H2 H3. destruct (C_insert_old LC (unbox c) h lv t t' r H1 H2 H3) as [c' [rest [E H4]]].
      exists (mkbox c'), rest. cbn. rewrite E. auto.
    - intros c h f t ot p H1 H2 H3. destruct (C_remove LC (unbox c) h f t ot p H1 H2 H3) as [oc [E H4]].
      eexists. split; [|apply (box_stored c h t ot p oc H4)]. cbn. unfold rmap. rewrite E. reflexivity.
    - intros [c] h f H1 H2. cbn in *. rewrite (C_maybe_absent LC c h f H1 H2). reflexivity.
    - intros [c] h f t t' H1 H2 H3. destruct (C_maybe_err LC c h f t t' H1 H2 H3) as [c' [rest [E [H4 [H5 [H6 H7]]]]]].
      exists (mkbox c'), rest. cbn. rewrite E. cbn. split; auto. split; auto. split; auto. split; auto.
      intros Et. rewrite (H7 Et). auto.
    - intros c h f t ot p H1 H2 H3. destruct (C_maybe_ok LC (unbox c) h f t ot p H1 H2 H3) as [oc [E H4]].
      eexists. split; [|apply (box_stored c h t ot p oc H4)]. cbn. rewrite E. reflexivity.
    - intros c h lv t H1 H2 H3. cbn. rewrite (C_insert_panic LC (unbox c) h lv t H1 H2 H3). reflexivity.
    - intros c h f t H1 H2 H3. cbn. unfold rmap. rewrite (C_remove_panic LC (unbox c) h f t H1 H2 H3). reflexivity.
    - intros c h f t H1 H2 H3. cbn. rewrite (C_maybe_panic LC (unbox c) h f t H1 H2 H3). reflexivity.
  Defined.
  Lemma box_panics : absent_panics LC -> absent_panics Box_coll_laws.
  Proof. intros H c h f H1 H2. cbn. unfold rmap. rewrite (H (unbox c) h f H1 H2). reflexivity. Qed.
End BoxCollLaws.
