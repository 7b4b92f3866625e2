(** An array with too few slots is a hash map that panics on the halves without a slot; so is a tree over it. *)
From Verif Require Import Base Ints Ops Spec Lists Laws Coll Boxed Tree ByteMap ByteMapProofs CollProofs TreeChildren TreeUpd TreeProofs Hist HistProofs HistCor
  Types TypesProofs Fits FitsCor Sim TreeSim Key KeySpec KeyProofs Part.

(** *** Hash maps *)
Section Maps.
  Context {Hi T : Type} (eq : Hi -> Hi -> bool) (eq_spec : forall a b, eq a b = true <-> a = b).
  Notation M := (list (Hi * T)).
  Implicit Types m : M.
  Lemma eq_same a : eq a a = true.
  Proof. apply eq_spec. reflexivity. Qed.
  Lemma eq_diff a b : a <> b -> eq a b = false.
  Proof. intros H. destruct (eq a b) eqn:E; [|reflexivity]. apply eq_spec in E. contradiction. Qed.
  Lemma hm_set_keys m h t : map fst (hm_set eq m h t) = map fst m.
  Proof. induction m as [|[h' t'] m IH]; cbn; [reflexivity|]. destruct (eq h h'); cbn; congruence. Qed.
  Lemma hm_set_length m h t : length (hm_set eq m h t) = length m.
  Proof. rewrite <- (map_length fst), hm_set_keys. apply map_length. Qed.
  Lemma hm_del_in m h x : In x (map fst (hm_del eq m h)) -> In x (map fst m).
  Proof. induction m as [|[h' t'] m IH]; cbn; [auto|]. destruct (eq h h'); cbn; [auto|]. intros [H|H]; auto. Qed.
  Lemma hm_del_nodup m h : NoDup (map fst m) -> NoDup (map fst (hm_del eq m h)).
  Proof.
    induction m as [|[h' t'] m IH]; cbn; [auto|]. intros H. inversion H; subst. destruct (eq h h'); [assumption|]. cbn.
    constructor; auto. intros Hx. apply hm_del_in in Hx. contradiction.
  Qed.
  Lemma hm_del_length m h t : hm_get eq m h = Some t -> length m = S (length (hm_del eq m h)).
  Proof. induction m as [|[h' t'] m IH]; cbn; [discriminate|]. destruct (eq h h'); [reflexivity|]. intros H. cbn. f_equal. auto. Qed.
  Lemma hm_get_none m h : ~ In h (map fst m) -> hm_get eq m h = None.
  Proof.
    induction m as [|[h' t'] m IH]; cbn; [reflexivity|]. intros H. rewrite eq_diff by (intros ->; auto). auto.
  Qed.
  Lemma hm_get_some m h t : hm_get eq m h = Some t -> In h (map fst m).
  Proof. induction m as [|[h' t'] m IH]; cbn; [discriminate|]. destruct (eq h h') eqn:E; [apply eq_spec in E; auto|auto]. Qed.
  Lemma hm_get_set m h t h' : hm_get eq (hm_set eq m h t) h' = if eq h' h then (if is_none (hm_get eq m h) then None else Some t) else hm_get eq m h'.
  Proof.
    induction m as [|[h0 t0] m IH]; cbn; [destruct (eq h' h); reflexivity|].
    destruct (eq h h0) eqn:E; cbn; [apply eq_spec in E; subst h0; destruct (eq h' h); reflexivity|]. rewrite IH.
    destruct (eq h' h) eqn:E'; [apply eq_spec in E'; subst h'; rewrite E; reflexivity|reflexivity].
  Qed.
  Lemma hm_get_del m h h' : NoDup (map fst m) -> hm_get eq (hm_del eq m h) h' = if eq h' h then None else hm_get eq m h'.
  Proof.
    induction m as [|[h0 t0] m IH]; cbn; [destruct (eq h' h); reflexivity|]. intros H. inversion H as [|? ? Hn Hm]; subst.
    destruct (eq h h0) eqn:E; cbn.
    - apply eq_spec in E. subst h0. destruct (eq h' h) eqn:E'; [|reflexivity]. apply eq_spec in E'. subst h'. apply hm_get_none, Hn.
    - rewrite (IH Hm). destruct (eq h' h) eqn:E'; [apply eq_spec in E'; subst h'; rewrite E; reflexivity|reflexivity].
  Qed.
End Maps.

(** *** Slots *)
Lemma nth_set {A} (a : list A) i x j : nth_error (list_set a i x) j = if (i =? j)%nat then (if (i <? length a)%nat then Some x else None) else nth_error a j.
Proof.
  revert i j. induction a as [|y a IH]; intros [|i] [|j]; cbn; try reflexivity.
  - destruct (i =? j)%nat; reflexivity.
  - rewrite IH. reflexivity.
Qed.
Lemma length_set {A} (a : list A) i x : length (list_set a i x) = length a.
Proof. revert i. induction a as [|y a IH]; intros [|i]; cbn; auto. Qed.
Lemma set_set {A} (a : list A) i x y : list_set (list_set a i x) i y = list_set a i y.
Proof. revert i. induction a as [|z a IH]; intros [|i]; cbn; auto. rewrite IH. reflexivity. Qed.
Lemma set_same {A} (a : list A) i x : nth_error a i = Some x -> list_set a i x = a.
Proof. revert i. induction a as [|z a IH]; intros [|i]; cbn; try discriminate; [congruence|]. intros H. rewrite IH; auto. Qed.

Section PartArray.
  Context {B : Build} {Hi Lo V : Type} (eq : Hi -> Hi -> bool) (eq_spec : forall a b, eq a b = true <-> a = b) (ix : IdxOps Hi) (Tr : VebOps Lo V).
  Notation card := (card_usize (i_card ix)).
  Definition has_slot (h : Hi) : bool := (i_index ix h <? card)%N.
  Context (Hinj : forall a b, (i_index ix a < card)%N -> i_index ix a = i_index ix b -> a = b).
  Notation T := (vt Tr).
  Notation AA := (Array_coll ix Tr).
  Notation GG := (Guard has_slot (Hash_coll eq Tr)).
  Notation idx h := (N.to_nat (i_index ix h)).
  Lemma card_max : (card <= usize_max)%N.
  Proof. unfold card_usize, usize_max. assert (H : (2 ^ usize_bits <> 0)%N) by (apply N.pow_nonzero; discriminate). assert (Hm := N.mod_lt (i_card ix) _ H). lia. Qed.
  Lemma slot_lt h : has_slot h = true -> (i_index ix h < card)%N.
  Proof. apply N.ltb_lt. Qed.

  (** the array [c] holds what the hash map [m] holds *)
  Record ah (c : ct AA) (m : ct GG) : Prop := {
    ah_len : length (ac_array c) = N.to_nat card;
    ah_nodup : NoDup (map fst m);
    ah_ne : m <> [];
    ah_count : ac_count c = N.of_nat (length m);
    ah_good : forall h, In h (map fst m) -> has_slot h = true;
    ah_get : forall h, has_slot h = true -> nth_error (ac_array c) (idx h) = Some (hm_get eq m h)
  }.
  Lemma idx_same h h' : has_slot h = true -> (idx h =? idx h')%nat = eq h' h.
  Proof.
    intros H. destruct (eq h' h) eqn:E.
    - apply eq_spec in E. subst. apply Nat.eqb_refl.
    - apply Nat.eqb_neq. intros E'. apply N2Nat.inj in E'. apply (Hinj _ _ (slot_lt h H)) in E'. subst h'. rewrite (eq_same eq eq_spec) in E. discriminate E.
  Qed.
  Lemma idx_in h c m : ah c m -> has_slot h = true -> (idx h <? length (ac_array c))%nat = true.
  Proof. intros H Hh. rewrite (ah_len c m H). apply Nat.ltb_lt. apply slot_lt in Hh. lia. Qed.
  Lemma slot_get c m h : ah c m -> oa_get (ac_array c) (i_index ix h) = if has_slot h then Ret (hm_get eq m h) else Panic.
  Proof.
    intros H. unfold oa_get. destruct (has_slot h) eqn:E.
    - rewrite (ah_get c m H h E). reflexivity.
    - rewrite (proj2 (nth_error_None _ _)); [reflexivity|]. rewrite (ah_len c m H). apply N.ltb_ge in E. lia.
  Qed.
  Lemma slot_set c m h o : ah c m -> oa_set (ac_array c) (i_index ix h) o = if has_slot h then Ret (list_set (ac_array c) (idx h) o) else Panic.
  Proof. intros H. unfold oa_set. rewrite (slot_get c m h H). destruct (has_slot h); reflexivity. Qed.
  Lemma slot_set2 c m h o o' : ah c m -> has_slot h = true ->
    oa_set (list_set (ac_array c) (idx h) o') (i_index ix h) o = Ret (list_set (ac_array c) (idx h) o).
  Proof.
    intros H Hh. unfold oa_set, oa_get. rewrite nth_set, Nat.eqb_refl, (idx_in h c m H Hh). cbn [expect bind]. rewrite set_set. reflexivity.
  Qed.
  Lemma ah_create h t : has_slot h = true -> exists a, oa_set (oa_create (i_card ix)) (i_index ix h) (Some t) = Ret a /\ ah (AC a 1) [(h, t)].
  Proof.
    intros Hh. assert (Hl := slot_lt h Hh). assert (Hn : nth_error (@oa_create B T (i_card ix)) (idx h) = Some None).
    { unfold oa_create. rewrite (nth_error_nth' _ None) by (rewrite repeat_length; lia). f_equal. apply nth_repeat. }
    unfold oa_set, oa_get. rewrite Hn. cbn [expect bind]. eexists. split; [reflexivity|]. split; cbn [ac_array ac_count map fst hm_get].
    - rewrite length_set. apply repeat_length.
    - constructor; [intros []|constructor].
    - discriminate.
    - reflexivity.
    - intros h' [<-|[]]. exact Hh.
    - intros h' Hh'. rewrite nth_set, (idx_same h h' Hh). unfold oa_create at 1. rewrite repeat_length.
      replace (idx h <? N.to_nat card)%nat with true by (symmetry; apply Nat.ltb_lt; lia). destruct (eq h' h); [reflexivity|].
      unfold oa_create. apply slot_lt in Hh'. rewrite (nth_error_nth' _ None) by (rewrite repeat_length; lia). f_equal. apply nth_repeat.
  Qed.
  Lemma ah_set c m h t t' : ah c m -> has_slot h = true -> hm_get eq m h = Some t ->
    ah (AC (list_set (ac_array c) (idx h) (Some t')) (ac_count c)) (hm_set eq m h t').
  Proof.
    intros H Hh E. split; cbn [ac_array ac_count].
    - rewrite length_set. apply (ah_len c m H).
    - rewrite hm_set_keys. apply (ah_nodup c m H).
    - intros E'. apply (ah_ne c m H). apply length_zero_iff_nil. rewrite <- (hm_set_length eq m h t'), E'. reflexivity.
    - rewrite hm_set_length. apply (ah_count c m H).
    - rewrite hm_set_keys. apply (ah_good c m H).
    - intros h' Hh'. rewrite nth_set, (idx_same h h' Hh), (idx_in h c m H Hh), (hm_get_set eq eq_spec), E. cbn [is_none].
      destruct (eq h' h); [reflexivity|]. apply (ah_get c m H h' Hh').
  Qed.
  Lemma ah_del c m h t : ah c m -> has_slot h = true -> hm_get eq m h = Some t ->
    checked_sub (ac_count c) 1 = Ret (N.of_nat (length (hm_del eq m h))) /\
    (hm_del eq m h <> [] -> ah (AC (list_set (ac_array c) (idx h) None) (N.of_nat (length (hm_del eq m h)))) (hm_del eq m h)).
  Proof.
    intros H Hh E. assert (El := hm_del_length eq m h t E). split.
    - rewrite (ah_count c m H), El. unfold checked_sub. replace (1 <=? N.of_nat (S (length (hm_del eq m h))))%N with true by (symmetry; apply N.leb_le; lia).
      f_equal. lia.
    - intros Hne. split; cbn [ac_array ac_count].
      + rewrite length_set. apply (ah_len c m H).
      + apply hm_del_nodup, (ah_nodup c m H).
      + exact Hne.
      + reflexivity.
      + intros h' Hh'. apply (ah_good c m H). apply hm_del_in in Hh'. exact Hh'.
      + intros h' Hh'. rewrite nth_set, (idx_same h h' Hh), (idx_in h c m H Hh), (hm_get_del eq eq_spec) by apply (ah_nodup c m H).
        destruct (eq h' h); [reflexivity|]. apply (ah_get c m H h' Hh').
  Qed.
  (** there are no more halves with a slot than slots *)
  Lemma few hs : NoDup hs -> (forall h, In h hs -> has_slot h = true) -> length hs <= N.to_nat card.
  Proof.
    intros Hn Hg. rewrite <- (map_length (fun h => idx h)), <- (seq_length (N.to_nat card) 0). apply NoDup_incl_length.
    - clear - Hn Hg Hinj. induction Hn as [|h hs Hh Hn IH]; cbn; [constructor|]. constructor; [|apply IH; intros h' H'; apply Hg; right; exact H'].
      intros Hx. apply in_map_iff in Hx. destruct Hx as [h' [E H']]. apply N2Nat.inj in E. apply Hinj in E; [subst h'; contradiction|].
      apply slot_lt, Hg. right. exact H'.
    - intros n H'. apply in_map_iff in H'. destruct H' as [h [<- H']]. apply in_seq. apply Hg, slot_lt in H'. lia.
  Qed.
  Lemma ah_new c m h t : ah c m -> has_slot h = true -> hm_get eq m h = None ->
    usize_add (ac_count c) 1 = Ret (N.of_nat (S (length m))) /\
    ah (AC (list_set (ac_array c) (idx h) (Some t)) (N.of_nat (S (length m)))) ((h, t) :: m).
  Proof.
    intros H Hh E. assert (Hni : ~ In h (map fst m)).
    { intros Hin. apply in_map_iff in Hin. destruct Hin as [[h' t'] [E' Hin]]. cbn in E'. subst h'. rewrite (hm_get_in eq eq_spec Tr m h t' (ah_nodup c m H) Hin) in E. discriminate E. }
    assert (Hf := few (h :: map fst m)). cbn [length] in Hf. rewrite map_length in Hf.
    assert (Hn : NoDup (h :: map fst m)) by (constructor; [exact Hni|apply (ah_nodup c m H)]).
    assert (Hg : forall x, In x (h :: map fst m) -> has_slot x = true) by (intros x [<-|Hx]; [exact Hh|apply (ah_good c m H x Hx)]).
    specialize (Hf Hn Hg). assert (Hm := card_max). split.
    - rewrite (ah_count c m H). unfold usize_add. replace (N.of_nat (length m) + 1 <=? usize_max)%N with true by (symmetry; apply N.leb_le; lia). f_equal. lia.
    - split; cbn [ac_array ac_count map fst length hm_get].
      + rewrite length_set. apply (ah_len c m H).
      + exact Hn.
      + discriminate.
      + reflexivity.
      + exact Hg.
      + intros h' Hh'. rewrite nth_set, (idx_same h h' Hh), (idx_in h c m H Hh). destruct (eq h' h); [reflexivity|]. apply (ah_get c m H h' Hh').
  Qed.

  Lemma create_none h (t : T) : has_slot h = false -> oa_set (oa_create (i_card ix)) (i_index ix h) (Some t) = Panic.
  Proof.
    intros H. unfold oa_set, oa_get. rewrite (proj2 (nth_error_None _ _)); [reflexivity|]. unfold oa_create. rewrite repeat_length.
    apply N.ltb_ge in H. lia.
  Qed.
  (** [ac_store] and [hm_replace] *)
  Lemma ah_store c m h t ot : ah c m -> has_slot h = true -> hm_get eq m h = Some t -> exists oc,
    ac_store ix Tr (list_set (ac_array c) (idx h) None) (ac_count c) h ot = Ret oc /\
    ropt (rprod ah Logic.eq) oc (if is_nil (hm_replace eq m h ot) then None else Some (hm_replace eq m h ot, is_none ot)).
  Proof.
    intros H Hh E. unfold ac_store. destruct ot as [t'|]; cbn [is_none bind hm_replace].
    - rewrite (slot_set2 c m h _ _ H Hh). cbn [bind]. assert (H1 := ah_set c m h t t' H Hh E). eexists. split; [reflexivity|].
      assert (Hne := ah_ne _ _ H1). destruct (hm_set eq m h t') as [|p m'] eqn:Em; [contradiction|]. cbn [is_nil].
      assert (Hc := ah_count _ _ H1). cbn [ac_count] in Hc. destruct (N.eqb_spec (ac_count c) 0) as [E0|E0]; [rewrite E0 in Hc; cbn in Hc; lia|].
      split; [exact H1|reflexivity].
    - destruct (ah_del c m h t H Hh E) as [E1 H1]. rewrite E1. cbn [bind]. rewrite (slot_set2 c m h _ _ H Hh). cbn [bind]. eexists. split; [reflexivity|].
      destruct (hm_del eq m h) as [|p m'] eqn:Em; cbn [is_nil]; [exact I|]. cbn [length]. replace (N.of_nat (S (length m')) =? 0)%N with false by (symmetry; apply N.eqb_neq; lia).
      split; [apply H1; discriminate|reflexivity].
  Qed.
  Lemma tkn_eq (x y : option T * (Lo * V)) : rtaken Logic.eq Tr Tr Logic.eq x y <-> x = y.
  Proof.
    split; [|intros ->; destruct y as [[t|] [l v]]; cbn; repeat split].
    destruct x as [ot [l v]], y as [ot' [l' v']]. intros [H [H1 H2]]. cbn in *. subst. f_equal. destruct ot, ot'; cbn in H; try contradiction; congruence.
  Qed.
  Lemma rtkn_eq (x y : result (option T * (Lo * V)) T) : rresult (rtaken Logic.eq Tr Tr Logic.eq) Logic.eq x y <-> x = y.
  Proof.
    split; [|intros ->; destruct y as [y|y]; cbn; [apply tkn_eq|]; reflexivity].
    destruct x, y; cbn; try contradiction; [intros H; apply tkn_eq in H; congruence|congruence].
  Qed.
  Lemma lv_eq {X} (x y : X * V) : rp Logic.eq x y -> x = y.
  Proof. destruct x, y. intros [H1 H2]. cbn in *. congruence. Qed.
  Lemma rlv_refl (o : option (Lo * V)) : ropt (rp Logic.eq) o o.
  Proof. destruct o as [[l v]|]; cbn; repeat split. Qed.

  Lemma array_guard : CSim Logic.eq Logic.eq AA GG ah.
  Proof.
    split; cbn [c_create c_get c_get_mut c_insert_key c_remove_key c_maybe_remove_key Array_coll Guard Hash_coll].
    - intros h t t' <-. unfold ac_create. destruct (has_slot h) eqn:Eh; [|rewrite (create_none h t Eh); apply rres_panic].
      destruct (ah_create h t Eh) as [a [-> H]]. unfold hc_create. cbn. rewrite (eq_same eq eq_spec). cbn. apply rres_ret. exact H.
    - intros c m h H. unfold ac_get. rewrite (slot_get c m h H). destruct (has_slot h) eqn:Eh; [|apply rres_panic]. apply rres_ret.
      destruct (hm_get eq m h); cbn; auto.
    - intros c m h H. unfold ac_get_mut. rewrite (slot_get c m h H). destruct (has_slot h) eqn:Eh; [|apply rres_panic]. cbn [bind]. unfold hc_get_mut.
      destruct (hm_get eq m h) as [t|] eqn:Et; apply rres_ret; cbn; [|exact I]. split; [reflexivity|]. intros t1 t2 <-. cbn. apply (ah_set c m h t t1 H Eh Et).
    - intros c m h lv lv' H Hlv. apply lv_eq in Hlv. subst lv'. unfold ac_insert_key. rewrite (slot_get c m h H).
      destruct (has_slot h) eqn:Eh; [|apply rres_panic]. cbn [bind]. unfold hc_insert_key. destruct (hm_get eq m h) as [t|] eqn:Et.
      + destruct (v_insert Tr t (fst lv) (snd lv)) as [[t' r]|]; [|apply rres_panic]. cbn [bind]. rewrite (slot_set c m h _ H), Eh. cbn [bind]. apply rres_ret.
        split; [apply (ah_set c m h t t' H Eh Et)|]. split; [reflexivity|apply rlv_refl].
      + rewrite (slot_set c m h _ H), Eh. cbn [bind]. destruct (ah_new c m h (v_from_monad Tr (fst lv) (snd lv)) H Eh Et) as [E1 H1]. rewrite E1. cbn [bind].
        apply rres_ret. split; [exact H1|reflexivity].
    - intros c m h f f' H Hf. unfold ac_remove_key. rewrite (slot_get c m h H). destruct (has_slot h) eqn:Eh; [|apply rres_panic]. cbn [bind].
      rewrite (slot_set c m h _ H), Eh. cbn [bind]. unfold hc_remove_key. destruct (hm_get eq m h) as [t|] eqn:Et; [|apply rres_panic]. cbn [expect bind].
      eapply rres_bind; [apply Hf; reflexivity|]. intros [ot p] y Hy. apply tkn_eq in Hy. subst y. destruct (ah_store c m h t ot H Eh Et) as [oc [E1 H1]].
      rewrite E1. cbn [bind]. destruct (is_nil (hm_replace eq m h ot)); apply rres_ret; (split; [exact H1|]); split; reflexivity.
    - intros c m h f f' H Hf. unfold ac_maybe_remove_key. rewrite (slot_get c m h H). destruct (has_slot h) eqn:Eh; [|apply rres_panic]. cbn [bind].
      rewrite (slot_set c m h _ H), Eh. cbn [bind]. unfold hc_maybe_remove_key. destruct (hm_get eq m h) as [t|] eqn:Et.
      + eapply rres_bind; [apply Hf; reflexivity|]. intros r y Hy. apply rtkn_eq in Hy. subst y. destruct r as [[ot p]|t'].
        * destruct (ah_store c m h t ot H Eh Et) as [oc [E1 H1]]. rewrite E1. cbn [bind].
          destruct (is_nil (hm_replace eq m h ot)); apply rres_ret; (split; [exact H1|]); split; reflexivity.
        * rewrite (slot_set2 c m h _ _ H Eh). cbn [bind hm_replace is_none]. assert (H1 := ah_set c m h t t' H Eh Et). assert (Hne := ah_ne _ _ H1).
          destruct (hm_set eq m h t') as [|p m'] eqn:Em; [contradiction|]. cbn [is_nil]. apply rres_ret. exact H1.
      + apply rres_ret. cbn. rewrite set_same; [destruct c; exact H|]. rewrite (ah_get c m H h Eh), Et. reflexivity.
  Qed.
  Lemma guard_array : CSim Logic.eq Logic.eq GG AA (fun m c => ah c m).
  Proof.
    split; cbn [c_create c_get c_get_mut c_insert_key c_remove_key c_maybe_remove_key Array_coll Guard Hash_coll].
    - intros h t t' <-. unfold ac_create. destruct (has_slot h) eqn:Eh; [|apply rres_panic].
      destruct (ah_create h t Eh) as [a [-> H]]. unfold hc_create. cbn. rewrite (eq_same eq eq_spec). cbn. apply rres_ret. exact H.
    - intros m c h H. unfold ac_get. rewrite (slot_get c m h H). destruct (has_slot h) eqn:Eh; [|apply rres_panic]. apply rres_ret.
      destruct (hm_get eq m h); cbn; auto.
    - intros m c h H. unfold ac_get_mut. rewrite (slot_get c m h H). destruct (has_slot h) eqn:Eh; [|apply rres_panic]. cbn [bind]. unfold hc_get_mut.
      destruct (hm_get eq m h) as [t|] eqn:Et; apply rres_ret; cbn; [|exact I]. split; [reflexivity|]. intros t1 t2 <-. cbn. apply (ah_set c m h t t1 H Eh Et).
    - intros m c h lv lv' H Hlv. apply lv_eq in Hlv. subst lv'. unfold ac_insert_key. rewrite (slot_get c m h H).
      destruct (has_slot h) eqn:Eh; [|apply rres_panic]. cbn [bind]. unfold hc_insert_key. destruct (hm_get eq m h) as [t|] eqn:Et.
      + destruct (v_insert Tr t (fst lv) (snd lv)) as [[t' r]|]; [|apply rres_panic]. cbn [bind]. rewrite (slot_set c m h _ H), Eh. cbn [bind]. apply rres_ret.
        split; [apply (ah_set c m h t t' H Eh Et)|]. split; [reflexivity|apply rlv_refl].
      + rewrite (slot_set c m h _ H), Eh. cbn [bind]. destruct (ah_new c m h (v_from_monad Tr (fst lv) (snd lv)) H Eh Et) as [E1 H1]. rewrite E1. cbn [bind].
        apply rres_ret. split; [exact H1|reflexivity].
    - intros m c h f f' H Hf. unfold ac_remove_key. rewrite (slot_get c m h H). destruct (has_slot h) eqn:Eh; [|apply rres_panic]. cbn [bind].
      rewrite (slot_set c m h _ H), Eh. cbn [bind]. unfold hc_remove_key. destruct (hm_get eq m h) as [t|] eqn:Et; [|apply rres_panic]. cbn [expect bind].
      eapply rres_bind; [apply Hf; reflexivity|]. intros [ot p] y Hy. apply tkn_eq in Hy. subst y. destruct (ah_store c m h t ot H Eh Et) as [oc [E1 H1]].
      rewrite E1. cbn [bind]. destruct (is_nil (hm_replace eq m h ot)); destruct oc as [[c1 b1]|]; cbn in H1; try contradiction;
        apply rres_ret; (split; [cbn; try exact I|split; reflexivity]). destruct H1 as [H1 H2]. cbn in H1, H2. split; [exact H1|symmetry; exact H2].
    - intros m c h f f' H Hf. unfold ac_maybe_remove_key. rewrite (slot_get c m h H). destruct (has_slot h) eqn:Eh; [|apply rres_panic]. cbn [bind].
      rewrite (slot_set c m h _ H), Eh. cbn [bind]. unfold hc_maybe_remove_key. destruct (hm_get eq m h) as [t|] eqn:Et.
      + eapply rres_bind; [apply Hf; reflexivity|]. intros r y Hy. apply rtkn_eq in Hy. subst y. destruct r as [[ot p]|t'].
        * destruct (ah_store c m h t ot H Eh Et) as [oc [E1 H1]]. rewrite E1. cbn [bind].
          destruct (is_nil (hm_replace eq m h ot)); destruct oc as [[c1 b1]|]; cbn in H1; try contradiction;
            apply rres_ret; (split; [cbn; try exact I|split; reflexivity]). destruct H1 as [H1 H2]. cbn in H1, H2. split; [exact H1|symmetry; exact H2].
        * rewrite (slot_set2 c m h _ _ H Eh). cbn [bind hm_replace is_none]. assert (H1 := ah_set c m h t t' H Eh Et). assert (Hne := ah_ne _ _ H1).
          destruct (hm_set eq m h t') as [|p m'] eqn:Em; [contradiction|]. cbn [is_nil]. apply rres_ret. exact H1.
      + apply rres_ret. cbn. rewrite set_same; [destruct c; exact H|]. rewrite (ah_get c m H h Eh), Et. reflexivity.
  Qed.

  (** the guard lets pass what is well; all keys have slots *)
  Definition gh (m : ct GG) (m' : ct (Hash_coll eq Tr)) : Prop := m = m' /\ forall h, In h (map fst m') -> has_slot h = true.
  Lemma gh_replace m h ot : (forall h, In h (map fst m) -> has_slot h = true) -> gh (hm_replace eq m h ot) (hm_replace eq m h ot).
  Proof.
    intros H. split; [reflexivity|]. destruct ot as [t|]; cbn [hm_replace]; intros x Hx.
    - rewrite hm_set_keys in Hx. auto.
    - apply hm_del_in in Hx. auto.
  Qed.
  Lemma guard_hash : CSim Logic.eq Logic.eq GG (Hash_coll eq Tr) gh.
  Proof.
    split; cbn [c_create c_get c_get_mut c_insert_key c_remove_key c_maybe_remove_key Guard Hash_coll].
    - intros h t t' <-. destruct (has_slot h) eqn:Eh; [|apply rres_panic]. unfold hc_create. cbn. rewrite (eq_same eq eq_spec). cbn. apply rres_ret.
      split; [reflexivity|]. intros x [<-|[]]. exact Eh.
    - intros m m' h [-> H]. destruct (has_slot h) eqn:Eh; [|apply rres_panic]. apply rres_ret. destruct (hm_get eq m' h); cbn; auto.
    - intros m m' h [-> H]. destruct (has_slot h) eqn:Eh; [|apply rres_panic]. unfold hc_get_mut. destruct (hm_get eq m' h) as [t|] eqn:Et; apply rres_ret; cbn; [|exact I].
      split; [reflexivity|]. intros t1 t2 <-. cbn. apply (gh_replace m' h (Some t1) H).
    - intros m m' h lv lv' [-> H] Hlv. apply lv_eq in Hlv. subst lv'. destruct (has_slot h) eqn:Eh; [|apply rres_panic]. unfold hc_insert_key.
      destruct (hm_get eq m' h) as [t|] eqn:Et.
      + destruct (v_insert Tr t (fst lv) (snd lv)) as [[t' r]|]; [|apply rres_panic]. cbn [bind]. apply rres_ret.
        split; [apply (gh_replace m' h (Some t') H)|]. split; [reflexivity|apply rlv_refl].
      + apply rres_ret. split; [|reflexivity]. split; [reflexivity|]. intros x [<-|Hx]; auto.
    - intros m m' h f f' [-> H] Hf. destruct (has_slot h) eqn:Eh; [|apply rres_panic]. unfold hc_remove_key. destruct (hm_get eq m' h) as [t|] eqn:Et; [|apply rres_panic].
      eapply rres_bind; [apply Hf; reflexivity|]. intros [ot p] y Hy. apply tkn_eq in Hy. subst y. assert (Hr := gh_replace m' h ot H).
      destruct (is_nil (hm_replace eq m' h ot)); apply rres_ret; (split; [cbn; try exact I|split; reflexivity]). split; [exact Hr|reflexivity].
    - intros m m' h f f' [-> H] Hf. destruct (has_slot h) eqn:Eh; [|apply rres_panic]. unfold hc_maybe_remove_key. destruct (hm_get eq m' h) as [t|] eqn:Et.
      + eapply rres_bind; [apply Hf; reflexivity|]. intros r y Hy. apply rtkn_eq in Hy. subst y. destruct r as [[ot p]|t'].
        * assert (Hr := gh_replace m' h ot H). destruct (is_nil (hm_replace eq m' h ot)); apply rres_ret; (split; [cbn; try exact I|split; reflexivity]).
          split; [exact Hr|reflexivity].
        * assert (Hr := gh_replace m' h (Some t') H). destruct (is_nil (hm_replace eq m' h (Some t'))); [apply rres_panic|]. apply rres_ret. exact Hr.
      + apply rres_ret. split; [reflexivity|exact H].
  Qed.
End PartArray.
Section GuardTree.
  Context {B : Build} (fixed : bool) {K Hi Lo V : Type} {ko : KeyOps K Hi Lo} (KL : KeyLaws ko) (S : VebOps Hi unit) (Tr : VebOps Lo V)
    (good : Hi -> bool) (C : CollOps Hi Lo V Tr).
  Notation cmp := (k_cmp ko).
  Notation GC := (Guard good C).
  Notation OG := (Tree_ops fixed ko S Tr GC).
  Notation OC := (Tree_ops fixed ko S Tr C).
  Notation far := (fun k : K => negb (good (fst (k_split_val ko k)))).
  Let OL := KL_k KL.
  Definition as_it_needs (l : list (K * V)) (c : op K V) (tg : vt OG) (t : vt OC) : Prop :=
    if needs_slot cmp far l c then step OG c (Some tg) = Panic
    else forall y, step OC c (Some t) = Ret y -> exists y', step OG c (Some tg) = Ret y'.
  Ltac opened := unfold query, query1, write, write1, tr_insert, tr_remove, tr_find, tr_find_mut, tr_predecessor, tr_predecessor_mut, tr_successor,
      tr_successor_mut, tr_into_monad, tr_is_monad, tr_min_val, tr_max_val, tr_min_val_mut, tr_max_val_mut, tr_remove_min, tr_remove_max, ltb, leb, eqb.
  Lemma guard_one c mn : as_it_needs [mn] c (TR mn None : Tree S Tr GC) (TR mn None : Tree S Tr C).
  Proof.
    unfold as_it_needs. change (needs_slot cmp far [mn] c) with false. cbn iota. intros y E. clear y E. destruct c; cbn; opened; cbn;
      repeat match goal with |- context [cmp ?a ?b] => destruct (cmp a b); cbn end; eexists; reflexivity.
  Qed.
  Lemma guard_push mn mx s (m : ct C) k v : good (fst (k_split_val ko k)) = true ->
    forall y, tr_push ko S Tr C mn mx (Some (s, m)) k v = Ret y -> exists y', tr_push ko S Tr GC mn mx (Some (s, m)) k v = Ret y'.
  Proof.
    intros Hg y E. unfold tr_push in *. destruct (k_split_val ko k) as [h lo]. cbn [fst] in Hg. cbn [c_insert_key Guard]. rewrite Hg.
    destruct (c_insert_key C m h (lo, v)) as [[m' r]|]; [|discriminate E]. cbn [bind] in *. destruct r as [h'|[h' [[lo' v']|]]]; try (eexists; reflexivity).
    destruct (v_insert S s h' tt) as [[s' u]|]; [|discriminate E]. eexists. reflexivity.
  Qed.
  Lemma guard_push_none mn mx k v : good (fst (k_split_val ko k)) = true ->
    forall y, tr_push ko S Tr C mn mx None k v = Ret y -> exists y', tr_push ko S Tr GC mn mx None k v = Ret y'.
  Proof.
    intros Hg y E. unfold tr_push in *. destruct (k_split_val ko k) as [h lo]. cbn [fst] in Hg. cbn [c_create Guard]. rewrite Hg.
    destruct (c_create C h (v_from_monad Tr lo v)); [|discriminate E]. eexists. reflexivity.
  Qed.
  Lemma guard_push_far mn mx o k v : good (fst (k_split_val ko k)) = false -> tr_push ko S Tr GC mn mx o k v = Panic.
  Proof.
    intros Hg. unfold tr_push in *. destruct (k_split_val ko k) as [h lo]. cbn [fst] in Hg. cbn [c_create c_insert_key Guard]. rewrite Hg.
    destruct o as [[s m]|]; reflexivity.
  Qed.

  Lemma guard_insert k v mn mx (o : option (vt S * ct GC)) (o' : option (vt S * ct C)) : cmp (fst mn) (fst mx) = Lt -> (cmp k (fst mn) = Lt -> fixed = true) ->
    match o, o' with None, None => True | Some x, Some x' => (x : vt S * ct C) = x' | _, _ => False end ->
    forall m, as_it_needs (mn :: m ++ [mx]) (Insert k v) (TR mn (Some (TD mx o)) : Tree S Tr GC) (TR mn (Some (TD mx o')) : Tree S Tr C).
  Proof.
    intros H Hf Ho m. assert (Hp : forall n x a w, good (fst (k_split_val ko a)) = true -> forall y, tr_push ko S Tr C n x o' a w = Ret y -> exists y', tr_push ko S Tr GC n x o a w = Ret y').
    { intros n x a w Hg y E. destruct o as [[s1 m1]|], o' as [[s2 m2]|]; try contradiction.
      - injection Ho as -> ->. apply (guard_push n x s2 m2 a w Hg y E).
      - apply (guard_push_none n x a w Hg y E). }
    destruct mn as [kn vn], mx as [kx vx]. cbn [fst snd] in *. assert (Hgt : cmp kx kn = Gt) by (rewrite (cmp_opp OL), H; reflexivity).
    unfold as_it_needs, needs_slot. rewrite ends_some. cbn [step v_insert Tree_ops]. unfold tr_insert. cbn [t_min t_data d_max d_children fst snd]. rewrite Hgt.
    assert (Hstep : forall (X : res (Tree S Tr GC * option (K * V))), (exists y', X = Ret y') -> exists y', (' (t', r) <- X ;; Ret (Some (t' : vt OG), OP r)) = Ret y').
    { intros X [[t r] ->]. eexists. reflexivity. }
    assert (Hres : forall (X : res (Tree S Tr C * option (K * V))) y, (' (t', r) <- X ;; Ret (Some (t' : vt OC), OP r)) = Ret y -> exists y0, X = Ret y0).
    { intros [[t r]|] y E; [eexists; reflexivity|discriminate E]. }
    destruct (cmp k kn) eqn:E1.
    - intros y _. eexists. reflexivity.
    - rewrite (Hf eq_refl). destruct (good (fst (k_split_val ko kn))) eqn:Eg; cbn [negb].
      + intros y E. apply Hres in E. destruct E as [y0 E]. apply Hstep, (Hp _ _ _ _ Eg y0 E).
      + rewrite (guard_push_far _ _ _ _ _ Eg). reflexivity.
    - destruct (cmp k kx) eqn:E2.
      + intros y _. eexists. reflexivity.
      + destruct (good (fst (k_split_val ko k))) eqn:Eg; cbn [negb].
        * intros y E. apply Hres in E. destruct E as [y0 E]. apply Hstep, (Hp _ _ _ _ Eg y0 E).
        * rewrite (guard_push_far _ _ _ _ _ Eg). reflexivity.
      + destruct (good (fst (k_split_val ko kx))) eqn:Eg; cbn [negb].
        * intros y E. apply Hres in E. destruct E as [y0 E]. apply Hstep, (Hp _ _ _ _ Eg y0 E).
        * rewrite (guard_push_far _ _ _ _ _ Eg). reflexivity.
  Qed.

  Lemma guard_two c mn mx : cmp (fst mn) (fst mx) = Lt -> (forall k v, c = Insert k v -> cmp k (fst mn) = Lt -> fixed = true) ->
    as_it_needs [mn; mx] c (TR mn (Some (TD mx None)) : Tree S Tr GC) (TR mn (Some (TD mx None)) : Tree S Tr C).
  Proof.
    intros H Hf. destruct c; try (apply (guard_insert k v mn mx None None H (Hf k v eq_refl) I [])).
    all: unfold as_it_needs, needs_slot; change [mn; mx] with (mn :: [] ++ [mx]); rewrite ends_some; destruct mn as [kn vn], mx as [kx vx]; cbn [fst] in H;
      rewrite ?andb_false_r; intros y E; clear y E; cbn; opened; cbn;
      repeat match goal with |- context [cmp ?a ?b] => destruct (cmp a b); cbn end; eexists; reflexivity.
  Qed.

  (** the second returns if the first does *)
  Definition rets {X Y} (m : res X) (m' : res Y) : Prop := forall y, m = Ret y -> exists y', m' = Ret y'.
  Lemma rets_ret {X Y} m (y : Y) : rets (X := X) m (Ret y).
  Proof. intros x _. eexists. reflexivity. Qed.
  Lemma rets_panic {X Y} (m' : res Y) : rets (X := X) Panic m'.
  Proof. intros x E. discriminate E. Qed.
  Lemma rets_bind {A X Y} (m : res A) (f : A -> res X) (g : A -> res Y) : (forall a, m = Ret a -> rets (f a) (g a)) -> rets (bind m f) (bind m g).
  Proof. intros H. destruct m as [a|]; [exact (H a eq_refl)|apply rets_panic]. Qed.
  Lemma rets_bind2 {A A' X Y} (m : res A) (m' : res A') (f : A -> res X) (g : A' -> res Y) : rets m m' -> (forall a', rets (bind m f) (g a')) -> rets (bind m f) (bind m' g).
  Proof. intros H Hg. destruct m as [a|]; [|apply rets_panic]. destruct (H a eq_refl) as [a' ->]. apply Hg. Qed.
  Ltac go := cbn [bind expect];
    repeat first [apply rets_ret | apply rets_panic
      | match goal with Eg : good ?h = _ |- context [good ?h] => rewrite Eg; cbn [bind] end
      | apply rets_bind; intros ? ?; cbn [bind expect fst snd]
      | match goal with
        | |- rets (match ?x with _ => _ end) _ => destruct x eqn:?; cbn [bind expect fst snd]
        | |- rets (bind (match ?x with _ => _ end) _) _ => destruct x eqn:?; cbn [bind expect fst snd]
        end ].

  Section Many.
    Context (mn mx : K * V) (s : vt S) (m : ct C) (H : cmp (fst mn) (fst mx) = Lt).
    Context (Gmin : forall h u, v_min_val S s = Ret (h, u) -> good h = true) (Gmax : forall h u, v_max_val S s = Ret (h, u) -> good h = true).
    Context (Gpred : forall h h' u, v_predecessor S s h = Ret (Some (h', u)) -> good h' = true) (Gsucc : forall h h' u, v_successor S s h = Ret (Some (h', u)) -> good h' = true).
    Notation tg := (TR mn (Some (@TD K Hi Lo V S Tr GC mx (Some (s, m)))) : Tree S Tr GC).
    Notation tc := (TR mn (Some (TD mx (Some (s, m)))) : Tree S Tr C).
    Notation dg := (@TD K Hi Lo V S Tr GC mx (Some (s, m))).
    Notation dc := (@TD K Hi Lo V S Tr C mx (Some (s, m))).
    Let Hgt : cmp (fst mx) (fst mn) = Gt.
    Proof. rewrite (cmp_opp OL), H. reflexivity. Qed.
    Lemma below_both k : cmp k (fst mn) <> Gt -> cmp k (fst mx) = Lt.
    Proof.
      intros E. destruct (cmp k (fst mn)) eqn:E1; [|eapply (cmp_trans OL); eassumption|contradiction]. apply (cmp_eq OL) in E1. subst k. exact H.
    Qed.
    Lemma guard_child_end h ext : good h = true -> rets (child_end ko Tr C m h ext) (child_end ko Tr GC m h ext).
    Proof. intros Eg. unfold child_end. cbn [c_get Guard]. go. Qed.
    Lemma guard_child_end_mut h ext : good h = true -> rets (child_end_mut ko S Tr C tc dc s m h ext) (child_end_mut ko S Tr GC tg dg s m h ext).
    Proof. intros Eg. unfold child_end_mut. cbn [c_get_mut Guard]. go. Qed.
    Lemma guard_end r rm : rets (after_end S Tr C s r rm) (after_end S Tr GC s r rm).
    Proof. unfold after_end. go. Qed.
    Lemma guard_query (X : res (option (K * V))) (Y : res (option (K * V))) : rets X Y -> rets (o <- X ;; Ret (Some (tc : vt OC), OP o)) (o <- Y ;; Ret (Some (tg : vt OG), OP o)).
    Proof. intros HXY. destruct X as [x|]; [|apply rets_panic]. destruct (HXY x eq_refl) as [y ->]. apply rets_ret. Qed.
    Lemma guard_write (X : res (option (K * V * (V -> Tree S Tr C)))) (Y : res (option (K * V * (V -> Tree S Tr GC)))) w : rets X Y ->
      rets (o <- X ;; match o with Some (p, put) => Ret (Some (put w : vt OC), OP (Some p)) | None => Ret (Some (tc : vt OC), OP None) end)
           (o <- Y ;; match o with Some (p, put) => Ret (Some (put w : vt OG), OP (Some p)) | None => Ret (Some (tg : vt OG), OP None) end).
    Proof. intros HXY. destruct X as [x|]; [|apply rets_panic]. destruct (HXY x eq_refl) as [[[p put]|] ->]; apply rets_ret. Qed.

    Lemma guard_find k : if ltb cmp (fst mn) k && negb (eqb cmp k (fst mx)) && far k then tr_find ko S Tr GC tg k = Panic
      else rets (tr_find ko S Tr C tc k) (tr_find ko S Tr GC tg k).
    Proof.
      unfold tr_find. cbn [t_min t_data d_max d_children]. assert (E3 := cmp_opp OL k (fst mn)). assert (Es := KL_split_ref KL k). unfold ltb. rewrite E3, Es.
      destruct (cmp k (fst mn)); cbn [CompOpp negb andb]; try apply rets_ret. destruct (eqb cmp k (fst mx)); cbn [CompOpp negb andb]; [apply rets_ret|].
      destruct (k_split_val ko k) as [h lo]. cbn [fst c_get Guard]. destruct (good h) eqn:Eg; cbn [negb]; [go|reflexivity].
    Qed.
    Lemma guard_find_mut k : if ltb cmp (fst mn) k && negb (eqb cmp k (fst mx)) && far k then tr_find_mut ko S Tr GC tg k = Panic
      else rets (tr_find_mut ko S Tr C tc k) (tr_find_mut ko S Tr GC tg k).
    Proof.
      unfold tr_find_mut. cbn [t_min t_data d_max d_children]. assert (E3 := cmp_opp OL k (fst mn)). assert (Es := KL_split_ref KL k). unfold ltb. rewrite E3, Es.
      destruct (cmp k (fst mn)); cbn [CompOpp negb andb]; try apply rets_ret. destruct (eqb cmp k (fst mx)); cbn [CompOpp negb andb]; [apply rets_ret|].
      destruct (k_split_val ko k) as [h lo]. cbn [fst c_get_mut Guard]. destruct (good h) eqn:Eg; cbn [negb]; [go|reflexivity].
    Qed.
    Lemma guard_pred k : if ltb cmp (fst mn) k && ltb cmp k (fst mx) && far k then tr_predecessor ko S Tr GC tg k = Panic
      else rets (tr_predecessor ko S Tr C tc k) (tr_predecessor ko S Tr GC tg k).
    Proof.
      unfold tr_predecessor. cbn [t_min t_data d_max d_children]. assert (E3 := cmp_opp OL k (fst mn)). assert (Es := KL_split_ref KL k). unfold ltb, leb. rewrite E3, Es.
      destruct (cmp k (fst mn)); cbn [CompOpp negb andb]; try apply rets_ret.
      destruct (cmp k (fst mx)); cbn [CompOpp negb andb]; [|destruct (k_split_val ko k) as [h lo]; cbn [fst]|apply rets_ret].
      - apply rets_bind. intros [h u] Eh. apply guard_child_end, (Gmax _ _ Eh).
      - cbn [c_get Guard]. destruct (good h) eqn:Eg; cbn [negb]; [|reflexivity]. apply rets_bind. intros oc _. apply rets_bind. intros [[lo' v]|] _; [apply rets_ret|].
        apply rets_bind. intros [[h' u]|] Eh; [|apply rets_ret]. apply guard_child_end, (Gpred _ _ _ Eh).
    Qed.
    Lemma guard_pred_mut k : if ltb cmp (fst mn) k && ltb cmp k (fst mx) && far k then tr_predecessor_mut ko S Tr GC tg k = Panic
      else rets (tr_predecessor_mut ko S Tr C tc k) (tr_predecessor_mut ko S Tr GC tg k).
    Proof.
      unfold tr_predecessor_mut. cbn [t_min t_data d_max d_children]. assert (E3 := cmp_opp OL k (fst mn)). assert (Es := KL_split_ref KL k). unfold ltb, leb. rewrite E3, Es.
      destruct (cmp k (fst mn)); cbn [CompOpp negb andb]; try apply rets_ret.
      destruct (cmp k (fst mx)); cbn [CompOpp negb andb]; [|destruct (k_split_val ko k) as [h lo]; cbn [fst]|apply rets_ret].
      - apply rets_bind. intros u _. apply rets_bind. intros [h u'] Eh. apply guard_child_end_mut, (Gmax _ _ Eh).
      - cbn [c_get_mut Guard]. destruct (good h) eqn:Eg; cbn [negb]; [|reflexivity]. apply rets_bind. intros oc _. apply rets_bind. intros [[[[lo' v] putv] put]|] _; [apply rets_ret|].
        apply rets_bind. intros [[h' u]|] Eh; [|apply rets_ret]. apply guard_child_end_mut, (Gpred _ _ _ Eh).
    Qed.
    Lemma guard_succ k : if ltb cmp (fst mn) k && ltb cmp k (fst mx) && far k then tr_successor ko S Tr GC tg k = Panic
      else rets (tr_successor ko S Tr C tc k) (tr_successor ko S Tr GC tg k).
    Proof.
      unfold tr_successor. cbn [t_min t_data d_max d_children]. assert (E3 := cmp_opp OL k (fst mn)). assert (E4 := cmp_opp OL k (fst mx)). assert (Es := KL_split_ref KL k).
      assert (Hb := below_both k). unfold ltb, leb, eqb. rewrite E3, E4, Es.
      destruct (cmp k (fst mn)); cbn [CompOpp negb andb].
      - rewrite Hb by discriminate. cbn [CompOpp]. apply rets_bind. intros [h u] Eh. apply guard_child_end, (Gmin _ _ Eh).
      - apply rets_ret.
      - destruct (cmp k (fst mx)); cbn [CompOpp negb andb]; try apply rets_ret. destruct (k_split_val ko k) as [h lo]; cbn [fst].
        cbn [c_get Guard]. destruct (good h) eqn:Eg; cbn [negb]; [|reflexivity]. apply rets_bind. intros oc _. apply rets_bind. intros [[lo' v]|] _; [apply rets_ret|].
        apply rets_bind. intros [[h' u]|] Eh; [|apply rets_ret]. apply guard_child_end, (Gsucc _ _ _ Eh).
    Qed.
    Lemma guard_succ_mut k : if ltb cmp (fst mn) k && ltb cmp k (fst mx) && far k then tr_successor_mut ko S Tr GC tg k = Panic
      else rets (tr_successor_mut ko S Tr C tc k) (tr_successor_mut ko S Tr GC tg k).
    Proof.
      unfold tr_successor_mut. cbn [t_min t_data d_max d_children]. assert (E3 := cmp_opp OL k (fst mn)). assert (E4 := cmp_opp OL k (fst mx)). assert (Es := KL_split_ref KL k).
      assert (Hb := below_both k). unfold ltb, leb, eqb. rewrite E3, E4, Es.
      destruct (cmp k (fst mn)); cbn [CompOpp negb andb].
      - rewrite Hb by discriminate. cbn [CompOpp]. apply rets_bind. intros [h u] Eh. apply guard_child_end_mut, (Gmin _ _ Eh).
      - apply rets_ret.
      - destruct (cmp k (fst mx)); cbn [CompOpp negb andb]; try apply rets_ret. destruct (k_split_val ko k) as [h lo]; cbn [fst].
        cbn [c_get_mut Guard]. destruct (good h) eqn:Eg; cbn [negb]; [|reflexivity]. apply rets_bind. intros oc _. apply rets_bind. intros [[[[lo' v] putv] put]|] _; [apply rets_ret|].
        apply rets_bind. intros [[h' u]|] Eh; [|apply rets_ret]. apply guard_child_end_mut, (Gsucc _ _ _ Eh).
    Qed.
    Lemma guard_remove_min : rets (tr_remove_min ko S Tr C tc) (tr_remove_min ko S Tr GC tg).
    Proof.
      unfold tr_remove_min. cbn [t_min t_data d_max d_children]. apply rets_bind. intros [h u] Eh. cbn [c_remove_key Guard]. rewrite (Gmin _ _ Eh).
      apply rets_bind. intros [r [lo v]] _. apply rets_bind2; [apply guard_end|]. intros a'. apply rets_ret.
    Qed.
    Lemma guard_remove_max : rets (tr_remove_max ko S Tr C tc) (tr_remove_max ko S Tr GC tg).
    Proof.
      unfold tr_remove_max. cbn [t_min t_data d_max d_children]. apply rets_bind. intros [h u] Eh. cbn [c_remove_key Guard]. rewrite (Gmax _ _ Eh).
      apply rets_bind. intros [r [lo v]] _. apply rets_bind2; [apply guard_end|]. intros a'. apply rets_ret.
    Qed.
    Lemma guard_remove k : if negb (eqb cmp k (fst mn)) && negb (eqb cmp k (fst mx)) && far k then tr_remove ko S Tr GC tg k = Panic
      else rets (tr_remove ko S Tr C tc k) (tr_remove ko S Tr GC tg k).
    Proof.
      unfold tr_remove. cbn [t_min t_data d_max d_children]. assert (Es := KL_split_ref KL k). rewrite Es.
      destruct (eqb cmp k (fst mn)); cbn [negb andb]; [apply rets_bind2; [apply guard_remove_min|intros a'; apply rets_ret]|].
      destruct (eqb cmp k (fst mx)); cbn [negb andb].
      - apply rets_bind. intros [h u] Eh. cbn [c_remove_key Guard]. rewrite (Gmax _ _ Eh).
        apply rets_bind. intros [r [lo v]] _. apply rets_bind2; [apply guard_end|]. intros a'. apply rets_ret.
      - destruct (k_split_val ko k) as [h lo]. cbn [fst c_maybe_remove_key Guard]. destruct (good h) eqn:Eg; cbn [negb]; [|reflexivity]. go.
    Qed.
    Lemma needs_many p l c : needs_slot cmp far (mn :: (p :: l) ++ [mx]) c =
      match c with
      | Insert k _ =>
          match cmp k (fst mn), cmp k (fst mx) with Eq, _ => false | Lt, _ => far (fst mn) | Gt, Eq => false | Gt, Lt => far k | Gt, Gt => far (fst mx) end
      | Remove k => negb (eqb cmp k (fst mn)) && negb (eqb cmp k (fst mx)) && far k
      | Find k | FindMut k _ => ltb cmp (fst mn) k && negb (eqb cmp k (fst mx)) && far k
      | Pred k | PredMut k _ | Succ k | SuccMut k _ => ltb cmp (fst mn) k && ltb cmp k (fst mx) && far k
      | _ => false
      end.
    Proof. unfold needs_slot. rewrite ends_some. destruct mn, mx. reflexivity. Qed.
    Lemma guard_many c l : (forall k v, c = Insert k v -> cmp k (fst mn) = Lt -> fixed = true) -> l <> [] -> as_it_needs (mn :: l ++ [mx]) c tg tc.
    Proof.
      intros Hf Hl. destruct c; try (apply (guard_insert k v mn mx (Some (s, m)) (Some (s, m)) H (Hf k v eq_refl) eq_refl l)).
      all: clear Hf; destruct l as [|p l]; [contradiction|]; unfold as_it_needs; rewrite needs_many; clear Hl p l;
        cbn [step v_remove v_remove_min v_remove_max v_into_monad v_is_monad v_min_val v_max_val v_min_val_mut
        v_max_val_mut v_find v_find_mut v_predecessor v_predecessor_mut v_successor v_successor_mut Tree_ops].
      - assert (G := guard_remove k). destruct (negb (eqb cmp k (fst mn)) && negb (eqb cmp k (fst mx)) && far k); [rewrite G; reflexivity|].
        apply (rets_bind2 (tr_remove ko S Tr C tc k)); [exact G|]. intros [[ot p]|t']; apply rets_ret.
      - apply (rets_bind2 (tr_remove_min ko S Tr C tc)); [apply guard_remove_min|]. intros [ot p]. apply rets_ret.
      - apply (rets_bind2 (tr_remove_max ko S Tr C tc)); [apply guard_remove_max|]. intros [ot p]. apply rets_ret.
      - apply (rets_ret (X := option (vt OC) * out K V)).
      - apply (rets_ret (X := option (vt OC) * out K V)).
      - apply (rets_ret (X := option (vt OC) * out K V)).
      - apply (rets_ret (X := option (vt OC) * out K V)).
      - assert (G := guard_find k). unfold query. destruct (ltb cmp (fst mn) k && negb (eqb cmp k (fst mx)) && far k); [rewrite G; reflexivity|].
        apply (guard_query _ _ G).
      - assert (G := guard_pred k). unfold query. destruct (ltb cmp (fst mn) k && ltb cmp k (fst mx) && far k); [rewrite G; reflexivity|].
        apply (guard_query _ _ G).
      - assert (G := guard_succ k). unfold query. destruct (ltb cmp (fst mn) k && ltb cmp k (fst mx) && far k); [rewrite G; reflexivity|].
        apply (guard_query _ _ G).
      - apply (rets_ret (X := option (vt OC) * out K V)).
      - apply (rets_ret (X := option (vt OC) * out K V)).
      - assert (G := guard_find_mut k). unfold write. destruct (ltb cmp (fst mn) k && negb (eqb cmp k (fst mx)) && far k); [rewrite G; reflexivity|].
        apply (guard_write _ _ w G).
      - assert (G := guard_pred_mut k). unfold write. destruct (ltb cmp (fst mn) k && ltb cmp k (fst mx) && far k); [rewrite G; reflexivity|].
        apply (guard_write _ _ w G).
      - assert (G := guard_succ_mut k). unfold write. destruct (ltb cmp (fst mn) k && ltb cmp k (fst mx) && far k); [rewrite G; reflexivity|].
        apply (guard_write _ _ w G).
    Qed.
  End Many.
End GuardTree.

Lemma sim_refl {K V} (O : VebOps K V) : Sim eq O O eq.
Proof.
  assert (Hp : forall p : K * V, rp eq p p) by (intros p; split; reflexivity).
  assert (Ho : forall o : option (K * V), ropt (rp eq) o o) by (intros [p|]; cbn; auto).
  assert (Hl : forall l : K * V * (V -> vt O), rlens eq O O eq l l) by (intros [p f]; split; [apply Hp|intros a a' ->; reflexivity]).
  assert (Hol : forall o : option (K * V * (V -> vt O)), ropt (rlens eq O O eq) o o) by (intros [p|]; cbn; auto).
  assert (Ht : forall o : option (vt O) * (K * V), rtaken eq O O eq o o).
  { intros [o p]. split; [destruct o; cbn; auto|apply Hp]. }
  constructor; intros; subst; try (apply rres_eq; auto; fail).
  - reflexivity.
  - apply rres_eq. intros [p|t]; cbn; auto.
  - apply rres_eq. intros [t o]. split; cbn; auto.
  - apply rres_eq. intros [p|t]; cbn; auto.
Qed.

(** *** A tree over an array with too few slots *)
Section PartTree.
  Context {B : Build} (fixed : bool) {K Hi Lo V : Type} (ko : KeyOps K Hi Lo) (KL : KeyLaws ko) (S : VebOps Hi unit) (Tr : VebOps Lo V)
    (TS : VebType fixed Hi unit (hi_cmp ko) S) (TT : VebType fixed Lo V (lo_cmp ko) Tr) (ix : IdxOps Hi).
  Context (Hinj : forall a b, (i_index ix a < card_usize (i_card ix))%N -> i_index ix a = i_index ix b -> a = b).
  Notation cmp := (k_cmp ko).
  Notation eqh := (eqb (hi_cmp ko)).
  Let OL := KL_k KL.
  Definition eqh_ok : forall a b, eqh a b = true <-> a = b := eqb_eq (KL_hi KL).
  Notation HC := (Hash_coll eqh Tr).
  Notation GC := (Guard (has_slot ix) HC).
  Notation AC := (Array_coll ix Tr).
  Notation OH := (Tree_ops fixed ko S Tr HC).
  Notation OG := (Tree_ops fixed ko S Tr GC).
  Notation OA := (Tree_ops fixed ko S Tr AC).
  Notation far := (fun k : K => negb (has_slot ix (fst (k_split_val ko k)))).
  Definition hash_type : VebType fixed K V cmp OH := VT_Tree fixed K Hi Lo V ko KL S Tr HC TS TT (CT_Hash Tr Hi eqh eqh_ok).
  Notation L := (type_laws hash_type).
  Notation R := (tree_rel fixed ko eq S S Tr Tr GC HC eq (gh eqh ix Tr)).

  Lemma part_state c tg t l : R tg t -> repr L t l -> match c with Insert k _ => fits hash_type (keys l) k = true | _ => True end ->
    as_it_needs fixed S Tr (has_slot ix) HC l c tg t.
  Proof.
    intros HR Hr Hc. assert (Hl := tree_list fixed KL (type_laws TS) (type_laws TT) (coll_laws (CT_Hash Tr Hi eqh eqh_ok)) t l Hr).
    assert (Hf : forall mn mx m, l = mn :: m ++ [mx] -> forall k v, c = Insert k v -> cmp k (fst mn) = Lt -> fixed = true).
    { intros mn mx m -> k v -> E. cbn [fits hash_type] in Hc. unfold fits_tree in Hc. rewrite ends_keys, E in Hc. apply andb_prop in Hc. apply Hc. }
    destruct Hr as [Hw [Ho [Ha _]]]. destruct tg as [mn' dg], t as [mn dc]. destruct HR as [H1 H2]. cbn [t_min t_data] in H1, H2, Hl. apply rp_eq in H1. subst mn'.
    destruct dg as [[mx' og]|], dc as [[mx oc]|]; cbn in H2; try contradiction; [|subst l; apply guard_one].
    destruct H2 as [H2 H3]. cbn [d_max d_children] in H2, H3, Hl. apply rp_eq in H2. subst mx'. destruct Hl as [m [El [Hm HPm]]].
    specialize (Hf mn mx m El). subst l. assert (Hlt : cmp (fst mn) (fst mx) = Lt) by exact (proj1 Ho).
    destruct og as [[s' m']|], oc as [[s mm]|]; cbn in H3; try contradiction.
    2:{ apply Permutation_sym, Permutation_nil in HPm. subst m. apply (guard_two fixed KL S Tr (has_slot ix) HC); assumption. }
    destruct H3 as [H3 H4]. cbn in H3, H4. destruct H4 as [H4 H5]. subst s' m'.
    assert (Hwch : wch (type_laws TS) (type_laws TT) (coll_laws (CT_Hash Tr Hi eqh eqh_ok)) (s, mm)) by exact Hw.
    assert (HP : forall h u, In (h, u) (ents (type_laws TS) s) -> has_slot ix h = true).
    { intros h u Hin. apply H5. destruct Hwch as [_ [_ [HP _]]]. cbn in HP. apply (Permutation_in _ HP). apply (in_map fst) in Hin. exact Hin. }
    assert (Hws : winv (type_laws TS) s) by apply Hwch.
    apply (guard_many fixed KL S Tr (has_slot ix) HC mn mx s mm Hlt); try assumption.
    - intros h u E. destruct (L_min (type_laws TS) s Hws) as [[h' u'] [E' [Hin _]]]. rewrite E' in E. injection E as -> ->. exact (HP _ _ Hin).
    - intros h u E. destruct (L_max (type_laws TS) s Hws) as [[h' u'] [E' [Hin _]]]. rewrite E' in E. injection E as -> ->. exact (HP _ _ Hin).
    - intros h h1 u E. destruct (L_pred (type_laws TS) s h Hws) as [o [E' Hin]]. rewrite E' in E. injection E as ->. exact (HP _ _ (proj1 Hin)).
    - intros h h1 u E. destruct (L_succ (type_laws TS) s h Hws) as [o [E' Hin]]. rewrite E' in E. injection E as ->. exact (HP _ _ (proj1 Hin)).
    - intros ->. apply Permutation_nil in HPm. assert (Hne := ch_nonempty (ko := ko) (type_laws TS) (type_laws TT) (coll_laws (CT_Hash Tr Hi eqh eqh_ok)) (s, mm) Hwch).
      apply Hne. exact HPm.
  Qed.
  Lemma part_sim : Sim eq OG OH R.
  Proof. apply (tree_sim (lenient_refl B)) with (RT := eq); [apply sim_refl|apply sim_refl|apply guard_hash; apply eqh_ok]. Qed.

  Context (adm : list (K * V) -> K -> Prop) (Hadm : allowed hash_type adm).
  Lemma part_step c otg ot l : ropt R otg ot -> reprO L ot l -> match c with Insert k _ => adm l k /\ (N.of_nat (length l) < usize_max)%N | _ => True end ->
    if needs_slot cmp far l c then step OG c otg = Panic
    else exists otg' ot', step OG c otg = Ret (otg', snd (sp_step cmp c l)) /\ ropt R otg' ot' /\ reprO L ot' (fst (sp_step cmp c l)).
  Proof.
    intros HR Hr Hc. destruct (step_refines OL L adm c ot l (allowed_covered hash_type adm Hadm) Hr Hc) as [ot1 [E1 Hr1]].
    assert (Hs := sim_step part_sim c c otg ot (rop_refl c) HR).
    assert (Hgo : (exists y, step OG c otg = Ret y) -> exists otg' ot', step OG c otg = Ret (otg', snd (sp_step cmp c l)) /\ ropt R otg' ot' /\ reprO L ot' (fst (sp_step cmp c l))).
    { intros [[otg1 o] E]. destruct (Hs _ E) as [[ot2 o2] [E2 [H1 H2]]]. cbn [fst snd] in H1, H2. rewrite E1 in E2. injection E2 as <- <-. apply rout_eq in H2. subst o.
      exists otg1, ot1. auto. }
    destruct otg as [tg|], ot as [t|]; cbn in HR; try contradiction.
    - assert (H := part_state c tg t l HR Hr). unfold as_it_needs in H. destruct (needs_slot cmp far l c).
      + apply H. destruct c; try exact I. apply Hadm; [apply Hr|apply Hc].
      + apply Hgo. refine (H _ _ E1). destruct c; try exact I. apply Hadm; [apply Hr|apply Hc].
    - cbn in Hr. subst l. change (needs_slot cmp far [] c) with false. cbn iota. apply Hgo. destruct c; eexists; reflexivity.
  Qed.
  Lemma part_run : forall cs otg ot l, ropt R otg ot -> reprO L ot l -> admissible cmp adm cs l ->
    (forall otg' os, run OG cs otg = Ret (otg', os) -> os = snd (sp_run cmp cs l) /\ exists ot', ropt R otg' ot' /\ reprO L ot' (fst (sp_run cmp cs l))) /\
    (run OG cs otg = Panic <-> exists cs1 c cs2, cs = cs1 ++ c :: cs2 /\ needs_slot cmp far (fst (sp_run cmp cs1 l)) c = true).
  Proof.
    induction cs as [|c cs IH]; intros otg ot l HR Hr Ha; cbn [run sp_run].
    - split; [intros ot' os E; injection E as <- <-; split; [reflexivity|exists ot; split; assumption]|]. split; [discriminate|].
      intros [cs1 [c [cs2 [E _]]]]. destruct cs1; discriminate E.
    - destruct Ha as [Ha1 Ha2]. assert (Hs := part_step c otg ot l HR Hr Ha1). destruct (needs_slot cmp far l c) eqn:En.
      + rewrite Hs. cbn [bind]. split; [intros ot' os E'; discriminate E'|]. split; [intros _|reflexivity]. exists [], c, cs. split; [reflexivity|exact En].
      + destruct Hs as [otg1 [ot1 [E [H1 H2]]]]. rewrite E. cbn [bind]. destruct (IH otg1 ot1 _ H1 H2 Ha2) as [IH1 IH2].
        destruct (sp_step cmp c l) as [l1 o1] eqn:El. cbn [fst snd] in *. destruct (sp_run cmp cs l1) as [l2 os1] eqn:Er. cbn [fst snd] in *. split.
        * intros otg' os E'. destruct (run OG cs otg1) as [[otg2 os2]|]; [|discriminate E']. cbn in E'. injection E' as <- <-.
          destruct (IH1 otg2 os2 eq_refl) as [-> Hx]. split; [reflexivity|exact Hx].
        * split.
          -- intros E'. assert (Hp : run OG cs otg1 = Panic) by (destruct (run OG cs otg1) as [[otg2 os2]|]; [discriminate E'|reflexivity]).
             apply IH2 in Hp. destruct Hp as [cs1 [c1 [cs2 [-> Hn]]]]. exists (c :: cs1), c1, cs2. split; [reflexivity|]. cbn [sp_run]. rewrite El.
             destruct (sp_run cmp cs1 l1). exact Hn.
          -- intros [cs1 [c1 [cs2 [Ec Hn]]]]. destruct cs1 as [|c0 cs1].
             ++ cbn in Ec, Hn. injection Ec as <- <-. rewrite En in Hn. discriminate Hn.
             ++ cbn in Ec. injection Ec as <- ->. cbn [sp_run] in Hn. rewrite El in Hn. rewrite (proj2 IH2); [reflexivity|].
                exists cs1, c1, cs2. split; [reflexivity|]. destruct (sp_run cmp cs1 l1). exact Hn.
  Qed.
  Lemma part_all cs : admissible cmp adm cs [] ->
    (forall ot os, run OA cs None = Ret (ot, os) -> os = snd (sp_run cmp cs []) /\ (ot = None <-> fst (sp_run cmp cs []) = [])) /\
    (run OA cs None = Panic <-> exists cs1 c cs2, cs = cs1 ++ c :: cs2 /\ needs_slot cmp far (fst (sp_run cmp cs1 [])) c = true).
  Proof.
    intros Ha. destruct (part_run cs None None [] I eq_refl Ha) as [H1 H2].
    assert (XA : Sim eq OA OG (tree_rel fixed ko eq S S Tr Tr AC GC eq (ah eqh ix Tr))).
    { apply (tree_sim (lenient_refl B)) with (RT := eq); [apply sim_refl|apply sim_refl|apply array_guard; [apply eqh_ok|exact Hinj]]. }
    assert (XG : Sim eq OG OA (tree_rel fixed ko eq S S Tr Tr GC AC eq (fun m c => ah eqh ix Tr c m))).
    { apply (tree_sim (lenient_refl B)) with (RT := eq); [apply sim_refl|apply sim_refl|apply guard_array; [apply eqh_ok|exact Hinj]]. }
    split.
    - intros ot os E. destruct (sim_run_eq XA cs None ot os None I E) as [otg [E' HR]]. destruct (H1 otg os E') as [-> [oth [HR' Hr]]]. split; [reflexivity|].
      destruct ot as [t|], otg as [tg|]; cbn in HR; try contradiction; destruct oth as [th|]; cbn in HR'; try contradiction; cbn in Hr.
      + split; [discriminate|]. intros E0. rewrite E0 in Hr. elim (repr_ne L th [] Hr). reflexivity.
      + split; auto.
    - rewrite <- H2. split; intros E.
      + destruct (run OG cs None) as [[otg os]|] eqn:Eg; [|reflexivity]. destruct (sim_run_eq XG cs None otg os None I Eg) as [ot [E' _]]. rewrite E in E'. discriminate E'.
      + destruct (run OA cs None) as [[ota os]|] eqn:Eg; [|reflexivity]. destruct (sim_run_eq XA cs None ota os None I Eg) as [ot [E' _]]. rewrite E in E'. discriminate E'.
  Qed.
End PartTree.

(** *** Arrays with a slot for each half, and for no half but the negative ones *)
Lemma near_never {K V} cmp (far : K -> bool) (l : list (K * V)) c : (forall k, far k = false) -> needs_slot cmp far l c = false.
Proof.
  intros H. unfold needs_slot. destruct (ends l) as [[[[mn vn] m] [mx vx]]|]; [|reflexivity].
  destruct c; try reflexivity; destruct m; rewrite ?H, ?Bool.andb_false_r; try reflexivity; destruct (cmp k mn), (cmp k mx); rewrite ?H; reflexivity.
Qed.
Lemma needs_ext {K V} cmp (f g : K -> bool) (l : list (K * V)) c : (forall k, f k = g k) -> needs_slot cmp f l c = needs_slot cmp g l c.
Proof.
  intros H. unfold needs_slot. destruct (ends l) as [[[[mn vn] m] [mx vx]]|]; [|reflexivity].
  destruct c; try reflexivity; destruct m; rewrite ?H; reflexivity.
Qed.
Section PartUses.
  Context {B : Build} (fixed : bool) {K Hi Lo V : Type} (ko : KeyOps K Hi Lo) (KL : KeyLaws ko) (S : VebOps Hi unit) (Tr : VebOps Lo V)
    (TS : VebType fixed Hi unit (hi_cmp ko) S) (TT : VebType fixed Lo V (lo_cmp ko) Tr) (adm : list (K * V) -> K -> Prop)
    (Hadm : forall l k, ascending (k_cmp ko) l -> adm l k -> fits_tree fixed ko (fits TS) (fits TT) (keys l) k = true).
  Lemma part_full (ix : IdxOps Hi) : (forall a, i_index ix a < card_usize (i_card ix))%N -> (forall a b, i_index ix a = i_index ix b -> a = b) ->
    forall cs, admissible (k_cmp ko) adm cs [] -> exists ot, run (Tree_ops fixed ko S Tr (Array_coll ix Tr)) cs None = Ret (ot, snd (sp_run (k_cmp ko) cs [])).
  Proof.
    intros Hs Hj cs Ha. destruct (part_all fixed ko KL S Tr TS TT ix (fun a b _ => Hj a b) adm Hadm cs Ha) as [H1 H2].
    destruct (run _ cs None) as [[ot os]|] eqn:E.
    - destruct (H1 ot os eq_refl) as [-> _]. exists ot. reflexivity.
    - destruct (proj1 H2 eq_refl) as [cs1 [c [cs2 [_ Hn]]]]. rewrite near_never in Hn; [discriminate Hn|].
      intros k. unfold has_slot. rewrite (proj2 (N.ltb_lt _ _) (Hs _)). reflexivity.
  Qed.
End PartUses.
Lemma signed_slots {B : Build} {h} (ix : IdxOps (i h)) : sized_signed ix -> card_usize (i_card ix) = i_card ix.
Proof. intros []; unfold card_usize; apply N.mod_small; cbn [i_card i64_idx i32_idx i16_idx i8_idx]; apply N.pow_lt_mono_r; auto; try reflexivity; apply usize_8. Qed.
Lemma signed_slot {B : Build} {h} (ix : IdxOps (i h)) : sized_signed ix -> forall a, has_slot ix a = (ival a <? 0)%Z.
Proof.
  intros H a. unfold has_slot. rewrite (signed_slots ix H). destruct (Z.ltb_spec (ival a) 0).
  - apply N.ltb_lt. assert (E := signed_good ix H a H0). assert (R := ival_range a).
    assert (Hc : (Z.of_N (i_card ix) = 2 * ihalf h)%Z) by (destruct H; vm_compute; reflexivity). lia.
  - apply N.ltb_ge. apply signed_bad; auto.
Qed.
Lemma signed_inj {B : Build} {h} (ix : IdxOps (i h)) : sized_signed ix ->
  forall a b, (i_index ix a < card_usize (i_card ix))%N -> i_index ix a = i_index ix b -> a = b.
Proof.
  intros H a b Ha E. assert (Hb : (i_index ix b < card_usize (i_card ix))%N) by (rewrite <- E; exact Ha).
  apply N.ltb_lt in Ha, Hb. change (has_slot ix a = true) in Ha. change (has_slot ix b = true) in Hb.
  rewrite (signed_slot ix H) in Ha, Hb. apply Z.ltb_lt in Ha, Hb. apply i_eq. assert (Ea := signed_good ix H a Ha). assert (Eb := signed_good ix H b Hb).
  rewrite E in Ea. lia.
Qed.
Lemma part_signed {B : Build} fixed {K Lo V h} (ko : KeyOps K (i h) Lo) (KL : KeyLaws ko) (S : VebOps (i h) unit) (Tr : VebOps Lo V)
    (TS : VebType fixed (i h) unit (hi_cmp ko) S) (TT : VebType fixed Lo V (lo_cmp ko) Tr) (ix : IdxOps (i h)) : sized_signed ix ->
  forall adm : list (K * V) -> K -> Prop, (forall l k, ascending (k_cmp ko) l -> adm l k -> fits_tree fixed ko (fits TS) (fits TT) (keys l) k = true) ->
  let O := Tree_ops fixed ko S Tr (Array_coll ix Tr) in forall cs, admissible (k_cmp ko) adm cs [] ->
  (forall ot os, run O cs None = Ret (ot, os) -> os = snd (sp_run (k_cmp ko) cs [])) /\
  (run O cs None = Panic <-> exists cs1 c cs2, cs = cs1 ++ c :: cs2 /\
    needs_slot (k_cmp ko) (fun k => 0 <=? ival (fst (k_split_val ko k)))%Z (fst (sp_run (k_cmp ko) cs1 [])) c = true).
Proof.
  intros H adm Hadm O cs Ha. destruct (part_all fixed ko KL S Tr TS TT ix (signed_inj ix H) adm Hadm cs Ha) as [H1 H2]. split.
  - intros ot os E. apply (H1 ot os E).
  - etransitivity; [exact H2|]. assert (E : forall k, negb (has_slot ix (fst (k_split_val ko k))) = (0 <=? ival (fst (k_split_val ko k)))%Z).
    { intros k. rewrite (signed_slot ix H). rewrite Z.leb_antisym. reflexivity. }
    split; intros [cs1 [c [cs2 [Ec Hn]]]]; exists cs1, c, cs2; (split; [exact Ec|]); rewrite <- Hn; [symmetry|]; apply needs_ext; exact E.
Qed.
