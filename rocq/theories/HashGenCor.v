(** The hash collection over any correct map, the two maps, and the types with their hash maps exchanged. *)
From Verif Require Import Base Ints Ops Spec ByteSet ByteMap Coll Boxed BTree SizedT Tree Lists Laws ByteSetProofs ByteMapProofs BTreeProofs CollProofs
  Hist Types HistProofs TypesProofs HistCor Sim TreeSim CollSim LeafSim CoreCor Rel RelCor Fits Iter IterSpec IterProofs FitsCor Open OpenCor GenMapProofs
  HashGen.

(** *** The collection *)
Section Coll.
  Context {B : Build} {Hi Lo V : Type} {Tr : VebOps Lo V} {H : HashOps Hi (vt Tr)} (HC : HashContract H).
  Notation T := (vt Tr).
  Notation CO := (HashOf H).
  Notation abs := (hk_abs HC).
  Definition ho_inv (m : hty H) : Prop := hk_inv HC m /\ abs m <> [].
  Lemma ho_ne m h t rest : Permutation (abs m) ((h, t) :: rest) -> abs m <> [].
  Proof. intros P E. rewrite E in P. apply Permutation_nil in P. discriminate. Qed.
  Lemma ho_not_empty m h t rest : hk_inv HC m -> Permutation (abs m) ((h, t) :: rest) -> h_is_empty H m = false.
  Proof.
    intros Hm P. destruct (h_is_empty H m) eqn:E; auto. apply (hk_is_empty _ HC m Hm) in E. elim (ho_ne m h t rest P E).
  Qed.
  Lemma ho_same_tree m h t t' rest : hk_inv HC m -> In (h, t) (abs m) -> Permutation (abs m) ((h, t') :: rest) -> t' = t.
  Proof.
    intros Hm Hin P. apply (nodup_keys_inj h t' t (abs m)); [apply (hk_nodup _ HC); auto| |auto].
    apply (Permutation_in _ (Permutation_sym P)). left. reflexivity.
  Qed.
  Lemma ho_found m h t : hk_inv HC m -> In (h, t) (abs m) -> exists put rep rest, h_entry H m h = Occupied t put rep /\
    Permutation (abs m) ((h, t) :: rest) /\ (forall t', hk_inv HC (put t') /\ Permutation (abs (put t')) ((h, t') :: rest)) /\
    fst (rep (Some t)) = m /\
    (forall ot, hk_inv HC (fst (rep ot)) /\
           match ot with
           | Some t' => snd (rep ot) = false /\ Permutation (abs (fst (rep ot))) ((h, t') :: rest)
           | None => snd (rep ot) = true /\ Permutation (abs (fst (rep ot))) rest
           end).
  Proof.
    intros Hm Hin. assert (E := hk_entry _ HC m h Hm). destruct (h_entry H m h) as [ins|t0 put rep].
    - destruct E as [E _]. elim E. apply (in_map fst) in Hin. exact Hin.
    - destruct E as [rest [P [E1 [E2 E3]]]]. assert (t0 = t) by (eapply ho_same_tree; eauto). subst t0.
      exists put, rep, rest. auto.
  Qed.
  Lemma ho_absent m h : hk_inv HC m -> ~ In h (map fst (abs m)) -> exists ins, h_entry H m h = Vacant ins /\
    forall t, snd (ins h t) = h /\ hk_inv HC (fst (ins h t)) /\ Permutation (abs (fst (ins h t))) ((h, t) :: abs m).
  Proof.
    intros Hm Hni. assert (E := hk_entry _ HC m h Hm). destruct (h_entry H m h) as [ins|t0 put rep].
    - destruct E as [_ E]. exists ins. auto.
    - exfalso. destruct E as [rest [P _]]. apply Hni. apply (Permutation_in _ (Permutation_map fst (Permutation_sym P))). left. reflexivity.
  Qed.
  Lemma ho_store m h t ot rest rep : Permutation (abs m) ((h, t) :: rest) ->
    hk_inv HC (fst (rep ot)) /\
           match ot with
           | Some t' => snd (rep ot) = false /\ Permutation (abs (fst (rep ot))) ((h, t') :: rest)
           | None => snd (rep ot) = true /\ Permutation (abs (fst (rep ot))) rest
           end ->
    stored (C := CO) ho_inv (fun x : ct CO => abs x) m h t ot
      (if h_is_empty H (fst (rep ot)) then None else Some (rep ot)).
  Proof.
    intros P [Hi' E]. destruct (rep ot) as [m' b]. cbn [fst snd] in *. destruct ot as [t'|]; destruct E as [-> P'].
    - rewrite (ho_not_empty m' h t' rest) by auto. cbn. split; [split; [auto|eapply ho_ne; eauto]|eauto].
    - destruct (h_is_empty H m') eqn:Ee; cbn.
      + apply (hk_is_empty _ HC m' Hi') in Ee. rewrite Ee in P'. apply Permutation_nil in P'. subst rest. exact P.
      + split.
        * split; auto. intros E. apply (hk_is_empty _ HC m' Hi') in E. congruence.
        * rewrite P'. exact P.
  Qed.
  Definition HashOf_laws : CollLaws CO.
  Proof.
    refine {| cinv := ho_inv : ct CO -> Prop; cents := fun m : ct CO => abs m |}.
    - intros m Hm. apply (hk_nodup _ HC), Hm.
    - intros m Hm. apply Hm.
    - intros h t. destruct (hk_one _ HC h t) as [H1 H2]. exists (h_one H h t). cbn [c_create HashOf]. unfold ho_create.
      rewrite (hk_len _ HC _ H1), H2. assert (E : h_contains H (h_one H h t) h = true) by (apply (hk_contains _ HC _ _ H1); rewrite H2; left; auto).
      rewrite E. cbn. split; auto. split; [split; [auto|congruence]|apply Permutation_refl].
    - intros m h [Hm _]. eexists. split; [reflexivity|]. cbn [c_get HashOf]. destruct (h_get H m h) as [t|] eqn:Eg.
      + apply (hk_get _ HC m h t Hm). exact Eg.
      + intros Hin. apply in_map_iff in Hin. destruct Hin as [[h' t] [E Hin]]. cbn in E. subst h'. apply (hk_get _ HC m h t Hm) in Hin. congruence.
    - intros m h [Hm _]. cbn [c_get c_get_mut HashOf]. eexists. split; [reflexivity|]. assert (E := hk_get_mut _ HC m h Hm).
      destruct (h_get_mut H m h) as [[t put]|].
      + destruct E as [rest [P E]]. split.
        * cbn. f_equal. apply (hk_get _ HC m h t Hm). apply (Permutation_in _ (Permutation_sym P)). left. reflexivity.
        * intros t1 put1 E1. injection E1 as <- <-. exists rest. split; auto. intros t'. destruct (E t') as [E1 E2].
          split; [split; [auto|eapply ho_ne; eauto]|auto].
      + split; [|discriminate]. cbn. f_equal. destruct (h_get H m h) as [t|] eqn:Eg; auto. elim E.
        apply (hk_get _ HC m h t Hm) in Eg. apply (in_map fst) in Eg. exact Eg.
    - intros m h lv [Hm _] Hni. cbn [c_insert_key HashOf]. unfold ho_insert_key. destruct (ho_absent m h Hm Hni) as [ins [-> E]].
      destruct (E (v_from_monad Tr (fst lv) (snd lv))) as [E1 [E2 E3]]. destruct (ins h (v_from_monad Tr (fst lv) (snd lv))) as [m' h'].
      cbn [fst snd] in *. subst h'. exists m'. split; auto. split; [split; [auto|eapply ho_ne; eauto]|auto].
    - intros m h lv t t' r [Hm _] Hin Hins. cbn [c_insert_key HashOf]. unfold ho_insert_key.
      destruct (ho_found m h t Hm Hin) as [put [rep [rest [-> [P [E1 _]]]]]]. rewrite Hins. cbn [bind]. destruct (E1 t') as [E2 E3].
      exists (put t'), rest. split; auto. split; [split; [auto|eapply ho_ne; eauto]|auto].
    - intros m h f t ot p [Hm _] Hin Hf. cbn [c_remove_key HashOf]. unfold ho_remove_key.
      destruct (ho_found m h t Hm Hin) as [put [rep [rest [-> [P [_ [_ E]]]]]]]. rewrite Hf. cbn [bind].
      assert (S := ho_store m h t ot rest rep P (E ot)). destruct (rep ot) as [m' b]. cbn [fst] in S.
      destruct (h_is_empty H m'); eauto.
    - intros m h f [Hm _] Hni. cbn [c_maybe_remove_key HashOf]. unfold ho_maybe_remove_key. destruct (ho_absent m h Hm Hni) as [ins [-> _]]. reflexivity.
    - intros m h f t t' [Hm _] Hin Hf. cbn [c_maybe_remove_key HashOf]. unfold ho_maybe_remove_key.
      destruct (ho_found m h t Hm Hin) as [put [rep [rest [-> [P [_ [Es E]]]]]]]. rewrite Hf. cbn [bind].
      destruct (E (Some t')) as [E1 [E2 E3]]. destruct (rep (Some t')) as [m' b] eqn:Er. cbn [fst snd] in *.
      rewrite (ho_not_empty m' h t' rest) by auto. exists m', rest. split; auto. split; [split; [auto|eapply ho_ne; eauto]|].
      split; auto. split; auto. intros ->. rewrite Er in Es. exact Es.
    - intros m h f t ot p [Hm _] Hin Hf. cbn [c_maybe_remove_key HashOf]. unfold ho_maybe_remove_key.
      destruct (ho_found m h t Hm Hin) as [put [rep [rest [-> [P [_ [_ E]]]]]]]. rewrite Hf. cbn [bind].
      assert (S := ho_store m h t ot rest rep P (E ot)). destruct (rep ot) as [m' b]. cbn [fst] in S.
      destruct (h_is_empty H m'); eauto.
    - intros m h lv t [Hm _] Hin Hins. cbn [c_insert_key HashOf]. unfold ho_insert_key.
      destruct (ho_found m h t Hm Hin) as [put [rep [rest [-> _]]]]. rewrite Hins. reflexivity.
    - intros m h f t [Hm _] Hin Hf. cbn [c_remove_key HashOf]. unfold ho_remove_key.
      destruct (ho_found m h t Hm Hin) as [put [rep [rest [-> _]]]]. rewrite Hf. reflexivity.
    - intros m h f t [Hm _] Hin Hf. cbn [c_maybe_remove_key HashOf]. unfold ho_maybe_remove_key.
      destruct (ho_found m h t Hm Hin) as [put [rep [rest [-> _]]]]. rewrite Hf. reflexivity.
  Defined.
  Lemma hash_contract deq : (forall a b, deq a b = true <-> a = b) -> inhabited (CollContract deq CO).
  Proof. intros Hdeq. exact (inhabits (lawful_coll_contract HashOf_laws deq Hdeq)). Qed.
End Coll.

(** *** The association list *)
Section Assoc.
  Context {Hi T : Type} (eq : Hi -> Hi -> bool) (eq_spec : forall a b, eq a b = true <-> a = b).
  Notation M := (list (Hi * T)).
  Lemma assoc_at (m : M) h t : NoDup (map fst m) -> In (h, t) m -> exists rest, Permutation m ((h, t) :: rest) /\
    hm_set eq m h t = m /\
    (forall t', NoDup (map fst (hm_set eq m h t')) /\ Permutation (hm_set eq m h t') ((h, t') :: rest)) /\
    NoDup (map fst (hm_del eq m h)) /\ Permutation (hm_del eq m h) rest.
  Proof.
    revert m h t. cut (forall (m : M) h t, NoDup (map fst m) -> In (h, t) m -> exists b a, m = b ++ (h, t) :: a /\
      (forall t', hm_set eq m h t' = b ++ (h, t') :: a) /\ hm_del eq m h = b ++ a).
    - intros G m h t Hn Hin. destruct (G m h t Hn Hin) as [b [a [E1 [E2 E3]]]]. exists (b ++ a). rewrite E1 in Hn.
      assert (Hp : forall x, Permutation (b ++ x :: a) (x :: b ++ a)) by (intros; apply Permutation_sym, Permutation_middle).
      rewrite E3. split; [rewrite E1; apply Hp|]. split; [rewrite E2; auto|]. split.
      + intros t'. rewrite E2. split; [rewrite map_app in *; exact Hn|apply Hp].
      + split; [|apply Permutation_refl]. rewrite map_app in *. cbn in Hn. apply NoDup_remove_1 in Hn. exact Hn.
    - induction m as [|[h' t0] m IH]; [intros h t _ []|]. intros h t. cbn [map fst]. intros Hn Hin.
      inversion Hn as [|? ? Hn1 Hn2]; subst. destruct Hin as [Hin|Hin].
      + injection Hin as -> ->. exists [], m. split; auto. cbn. assert (E : eq h h = true) by (apply eq_spec; auto).
        rewrite E. auto.
      + destruct (IH h t Hn2 Hin) as [b [a [E1 [E2 E3]]]]. exists ((h', t0) :: b), a. cbn.
        assert (E : eq h h' = false).
        { destruct (eq h h') eqn:E; auto. apply eq_spec in E. subst h'. elim Hn1. apply (in_map fst) in Hin. exact Hin. }
        rewrite E. split; [f_equal; auto|]. split; [intros t'; f_equal; auto|f_equal; auto].
  Qed.
  Lemma assoc_get (m : M) h :
    match hm_get eq m h with
    | Some t => In (h, t) m
    | None => ~ In h (map fst m)
    end.
  Proof.
    induction m as [|[h' t'] m IH]; cbn; auto. destruct (eq h h') eqn:E.
    - apply eq_spec in E. subst. auto.
    - destruct (hm_get eq m h); auto. intros [->|H]; auto.
      assert (eq h h = true) by (apply eq_spec; auto). congruence.
  Qed.
  Lemma assoc_get_in (m : M) h t : NoDup (map fst m) -> In (h, t) m <-> hm_get eq m h = Some t.
  Proof.
    intros Hn. assert (H := assoc_get m h). split.
    - intros Hin. destruct (hm_get eq m h) as [t'|].
      + f_equal. apply (nodup_keys_inj h t' t m); auto.
      + elim H. apply (in_map fst) in Hin. exact Hin.
    - intros E. rewrite E in H. exact H.
  Qed.
  Definition Assoc_contract : HashContract (Assoc_hash T eq).
  Proof.
    refine (Build_HashContract Hi T (Assoc_hash T eq) (fun m : M => NoDup (map fst m)) (fun m : M => m) _ _ _ _ _ _ _ _).
    - auto.
    - intros h t. split; [|reflexivity]. constructor; [intros []|constructor].
    - reflexivity.
    - intros m h _. cbn. assert (H := assoc_get m h). destruct (hm_get eq m h) as [t|]; cbn; split; try congruence; auto.
      intros _. apply (in_map fst) in H. exact H.
    - intros m _. apply is_nil_spec.
    - intros m h t Hn. symmetry. apply assoc_get_in. exact Hn.
    - intros m h Hn. cbn. assert (H := assoc_get m h). destruct (hm_get eq m h) as [t|]; auto.
      destruct (assoc_at m h t Hn H) as [rest [P [_ [E _]]]]. eauto.
    - intros m h Hn. cbn. assert (H := assoc_get m h). destruct (hm_get eq m h) as [t|].
      + destruct (assoc_at m h t Hn H) as [rest [P [Es [E [Ed1 Ed2]]]]]. exists rest. split; auto. split; auto. split; [exact Es|].
        intros [t'|]; cbn; [destruct (E t')|]; auto.
      + split; auto. intros t. cbn. split; auto. split; [constructor; auto|apply Permutation_refl].
  Defined.
End Assoc.

(** *** The table *)
Section Table.
  Context {Seed Hi T : Type} (eq : Hi -> Hi -> bool) (eq_spec : forall a b, eq a b = true <-> a = b)
    (hash : Seed -> Hi -> N) (draw : Hi -> T -> Seed) (rows0 : nat) (grow : Table Seed Hi T -> option (Seed * nat)).
  Notation M := (Table Seed Hi T).
  Notation slot := (tb_slot hash).
  Notation pairs := (list (Hi * T)).
  Definition placed (s : Seed) (n : nat) (i : nat) (rows : list pairs) : Prop :=
    forall j r h t, nth_error rows j = Some r -> In (h, t) r -> slot s n h = i + j.
  Definition tb_ok (m : M) : Prop := tb_rows m <> [] /\ placed (tb_seed m) (length (tb_rows m)) 0 (tb_rows m).
  Definition tb_inv (m : M) : Prop := tb_ok m /\ NoDup (map fst (concat (tb_rows m))).
  Lemma slot_lt s n h : n <> 0 -> slot s n h < n.
  Proof. intros Hn. unfold tb_slot. assert (N.of_nat n <> 0%N) by lia. assert (Hl := N.mod_lt (hash s h) (N.of_nat n) H). lia. Qed.
  (** the row of [h], and what replacing it does *)
  Lemma row_at (m : M) h : tb_ok m -> exists A C, tb_rows m = A ++ tb_row hash m h :: C /\
    (forall r, tb_put_row hash m h r = TB (tb_seed m) (A ++ r :: C)) /\
    (forall t, In (h, t) (concat (tb_rows m)) -> In (h, t) (tb_row hash m h)) /\
    (forall r, (forall h' t', In (h', t') r -> h' = h \/ In h' (map fst (tb_row hash m h))) -> tb_ok (TB (tb_seed m) (A ++ r :: C))).
  Proof.
    intros [Hne Hp]. unfold tb_row, tb_put_row. set (n := length (tb_rows m)) in *. assert (Hn : n <> 0) by (subst n; destruct (tb_rows m); [congruence|discriminate]).
    set (i := slot (tb_seed m) n h). assert (Hi' : i < n) by (apply slot_lt; auto).
    destruct (nth_split (tb_rows m) [] Hi') as [A [C [E El]]]. exists A, C. split; auto. split.
    { intros r. f_equal. rewrite E at 1. rewrite <- El. apply list_set_mid. }
    split.
    { intros t Hin. apply in_concat in Hin. destruct Hin as [r [Hr Hin]]. apply In_nth_error in Hr. destruct Hr as [j Hj].
      assert (Es := Hp j r h t Hj Hin). cbn in Es. fold i in Es. subst j. apply nth_error_nth with (d := []) in Hj. rewrite Hj. exact Hin. }
    intros r Hr. assert (Hlen : length (A ++ r :: C) = n). { subst n. rewrite E, !app_length. reflexivity. }
    split; [cbn; destruct A; discriminate|]. cbn [tb_rows tb_seed]. rewrite Hlen. intros j r' h' t' Hj Hin.
    destruct (Nat.eq_dec j i) as [->|Hji].
    - rewrite <- El in Hj at 1. rewrite nth_error_app2, Nat.sub_diag in Hj by lia. injection Hj as <-.
      destruct (Hr h' t' Hin) as [->|H]; [reflexivity|]. apply in_map_iff in H. destruct H as [[h2 t2] [E2 H2]]. cbn in E2. subst h2.
      apply (Hp i (nth i (tb_rows m) []) h' t2); auto. apply nth_error_nth'. exact Hi'.
    - apply (Hp j r' h' t'); auto. rewrite <- Hj, E. destruct (Nat.lt_ge_cases j (length A)) as [Hl|Hl].
      + rewrite !nth_error_app1 by auto. reflexivity.
      + rewrite !nth_error_app2 by auto. destruct (j - length A) as [|x] eqn:Ej; [lia|reflexivity].
  Qed.
  Lemma empty_ok s n : tb_ok (tb_empty s n : M) /\ concat (tb_rows (tb_empty s n : M)) = [].
  Proof.
    split; [split; [discriminate|]|].
    - intros j r h t Hj Hin. apply nth_error_In in Hj. apply repeat_spec in Hj. subst r. destruct Hin.
    - cbn [tb_rows tb_empty]. generalize (S n). intros k. induction k; cbn; auto.
  Qed.
  Lemma push_ok (m : M) p : tb_ok m -> tb_ok (tb_push hash m p) /\ Permutation (concat (tb_rows (tb_push hash m p))) (p :: concat (tb_rows m)).
  Proof.
    intros Hm. destruct p as [h t]. unfold tb_push. cbn [fst]. destruct (row_at m h Hm) as [A [C [E1 [E2 [_ E4]]]]]. rewrite E2. split.
    - apply E4. intros h' t' [E|Hin]; [injection E as -> ->; auto|]. right. apply (in_map fst) in Hin. exact Hin.
    - rewrite E1. cbn [tb_rows]. rewrite !concat_app. cbn [concat]. cbn [app]. apply Permutation_sym, Permutation_middle.
  Qed.
  Lemma pushes_ok l : forall m : M, tb_ok m -> tb_ok (fold_left (tb_push hash) l m) /\
    Permutation (concat (tb_rows (fold_left (tb_push hash) l m))) (l ++ concat (tb_rows m)).
  Proof.
    induction l as [|p l IH]; intros m Hm; cbn [fold_left app]; [auto|]. destruct (push_ok m p Hm) as [H1 H2]. destruct (IH _ H1) as [H3 H4].
    split; auto. rewrite H4, H2. apply Permutation_sym, Permutation_middle.
  Qed.
  Lemma rehash_ok (m : M) s n : tb_ok (tb_rehash hash m s n) /\ Permutation (concat (tb_rows (tb_rehash hash m s n))) (concat (tb_rows m)).
  Proof.
    destruct (empty_ok s n) as [H1 H2]. destruct (pushes_ok (concat (tb_rows m)) _ H1) as [H3 H4]. split; auto. rewrite H2, app_nil_r in H4. exact H4.
  Qed.
  Lemma nodup_sub {A} (a r c : list A) : NoDup (a ++ r ++ c) -> NoDup r.
  Proof.
    induction a as [|x a IH]; cbn; intros Hn; [|inversion Hn; auto]. induction r as [|y r IH]; [constructor|]. cbn in Hn. inversion Hn; subst.
    constructor; auto. intros Hin. apply H1, in_or_app. auto.
  Qed.
  Lemma nodup_row (A C : list pairs) r : NoDup (map fst (concat (A ++ r :: C))) -> NoDup (map fst r).
  Proof.
    rewrite concat_app, map_app. cbn [concat]. rewrite map_app. intros Hn. apply nodup_sub in Hn. exact Hn.
  Qed.
  Lemma tb_get_spec (m : M) h : tb_inv m ->
    match tb_get eq hash m h with
    | Some t => In (h, t) (concat (tb_rows m))
    | None => ~ In h (map fst (concat (tb_rows m)))
    end.
  Proof.
    intros [Hm Hn]. destruct (row_at m h Hm) as [A [C [E1 [_ [E3 _]]]]]. unfold tb_get. assert (H := assoc_get eq eq_spec (tb_row hash m h) h).
    destruct (hm_get eq (tb_row hash m h) h) as [t|].
    - rewrite E1. apply in_concat. exists (tb_row hash m h). split; auto. apply in_elt.
    - intros Hin. apply in_map_iff in Hin. destruct Hin as [[h' t] [E Hin]]. cbn in E. subst h'. apply H. apply E3 in Hin.
      apply (in_map fst) in Hin. exact Hin.
  Qed.
  Lemma tb_at (m : M) h t : tb_inv m -> tb_get eq hash m h = Some t -> exists rest, Permutation (concat (tb_rows m)) ((h, t) :: rest) /\
    tb_set eq hash m h t = m /\
    (forall t', tb_inv (tb_set eq hash m h t') /\ Permutation (concat (tb_rows (tb_set eq hash m h t'))) ((h, t') :: rest)) /\
    (forall ot, tb_inv (tb_replace eq hash m h ot) /\
       Permutation (concat (tb_rows (tb_replace eq hash m h ot))) (match ot with Some t' => (h, t') :: rest | None => rest end)).
  Proof.
    intros [Hm Hn] Eg. destruct (row_at m h Hm) as [A [C [E1 [E2 [_ E4]]]]]. unfold tb_set, tb_replace, tb_get in *.
    set (row := tb_row hash m h) in *. assert (Hr : NoDup (map fst row)) by (rewrite E1 in Hn; apply nodup_row in Hn; exact Hn).
    assert (Hin : In (h, t) row) by (apply (assoc_get_in eq eq_spec); auto).
    destruct (assoc_at eq eq_spec row h t Hr Hin) as [r0 [P [Es [E [Ed1 Ed2]]]]]. exists (concat A ++ r0 ++ concat C).
    assert (Hc : forall r x, Permutation r (x :: r0) -> Permutation (concat (A ++ r :: C)) (x :: concat A ++ r0 ++ concat C)).
    { intros r x Hp. rewrite concat_app. cbn [concat]. rewrite Hp. cbn [app]. apply Permutation_sym, Permutation_middle. }
    assert (P0 : Permutation (concat (tb_rows m)) ((h, t) :: concat A ++ r0 ++ concat C)) by (rewrite E1; apply Hc; exact P).
    assert (Hk : forall x, In x (map fst r0) -> In x (map fst row)).
    { intros x Hx. apply (Permutation_in _ (Permutation_map fst (Permutation_sym P))). right. exact Hx. }
    assert (Hset : forall t', tb_inv (tb_put_row hash m h (hm_set eq row h t')) /\
      Permutation (concat (tb_rows (tb_put_row hash m h (hm_set eq row h t')))) ((h, t') :: concat A ++ r0 ++ concat C)).
    { intros t'. destruct (E t') as [_ P']. rewrite E2. assert (P1 := Hc _ _ P'). split; [|exact P1]. split.
      - apply E4. intros h' t2 Hin'. apply (Permutation_in _ P') in Hin'. destruct Hin' as [E'|Hin']; [injection E' as -> ->; auto|].
        right. apply Hk. apply (in_map fst) in Hin'. exact Hin'.
      - cbn [tb_rows]. apply (Permutation_NoDup (l := map fst (concat (tb_rows m)))); [|exact Hn].
        rewrite (Permutation_map fst P1), (Permutation_map fst P0). apply Permutation_refl. }
    split; [exact P0|]. split; [rewrite Es, E2, <- E1; destruct m; reflexivity|]. split; [exact Hset|].
    intros [t'|]; cbn [hm_replace]; [apply Hset|]. rewrite E2.
    assert (P1 : Permutation (concat (A ++ hm_del eq row h :: C)) (concat A ++ r0 ++ concat C)).
    { rewrite concat_app. cbn [concat]. rewrite Ed2. apply Permutation_refl. }
    split; [|exact P1]. split.
    - apply E4. intros h' t2 Hin'. apply (Permutation_in _ Ed2) in Hin'. right. apply Hk. apply (in_map fst) in Hin'. exact Hin'.
    - cbn [tb_rows]. apply (Permutation_NoDup (Permutation_map fst (Permutation_sym P1))).
      apply (Permutation_NoDup (Permutation_map fst P0)) in Hn. cbn in Hn. inversion Hn. auto.
  Qed.
  Lemma insert_ok (m : M) h t : tb_inv m -> ~ In h (map fst (concat (tb_rows m))) ->
    tb_inv (tb_insert hash grow m h t) /\ Permutation (concat (tb_rows (tb_insert hash grow m h t))) ((h, t) :: concat (tb_rows m)).
  Proof.
    intros [Hm Hn] Hni. unfold tb_insert.
    assert (G : exists m1 : M, match grow m with None => m | Some (s, n) => tb_rehash hash m s n end = m1 /\ tb_ok m1 /\
      Permutation (concat (tb_rows m1)) (concat (tb_rows m))).
    { destruct (grow m) as [[s n]|]; [destruct (rehash_ok m s n)|]; eauto. }
    destruct G as [m1 [-> [H1 P1]]]. destruct (push_ok m1 (h, t) H1) as [H2 P2]. rewrite P1 in P2. split; [|exact P2]. split; auto.
    apply (Permutation_NoDup (Permutation_map fst (Permutation_sym P2))). cbn. constructor; auto.
  Qed.
  Lemma concat_nil_rows (rows : list pairs) : forallb is_nil rows = true <-> concat rows = [].
  Proof.
    induction rows as [|r rows IH]; cbn; [tauto|]. rewrite Bool.andb_true_iff, IH. destruct r; cbn; split; intros; try tauto; try discriminate.
    destruct H. discriminate.
  Qed.
  Definition Table_contract : HashContract (Table_hash eq hash draw rows0 grow).
  Proof.
    refine (Build_HashContract Hi T (Table_hash eq hash draw rows0 grow) tb_inv (fun m : M => concat (tb_rows m)) _ _ _ _ _ _ _ _).
    - intros m Hm. apply Hm.
    - intros h t. cbn [h_one Table_hash]. destruct (empty_ok (draw h t) rows0) as [H1 H2].
      destruct (push_ok _ (h, t) H1) as [H3 H4]. rewrite H2 in H4. apply Permutation_sym, Permutation_length_1_inv in H4. split; [|exact H4].
      split; auto. rewrite H4. constructor; [intros []|constructor].
    - reflexivity.
    - intros m h Hm. cbn [h_contains Table_hash]. assert (H := tb_get_spec m h Hm). destruct (tb_get eq hash m h) as [t|]; cbn; split; try congruence; auto.
      intros _. apply (in_map fst) in H. exact H.
    - intros m _. apply concat_nil_rows.
    - intros m h t Hm. cbn [h_get Table_hash]. assert (H := tb_get_spec m h Hm). destruct (tb_get eq hash m h) as [t'|]; split; intros E.
      + injection E as <-. exact H.
      + f_equal. eapply nodup_keys_inj; [apply Hm|exact H|exact E].
      + discriminate.
      + elim H. apply (in_map fst) in E. exact E.
    - intros m h Hm. cbn [h_get_mut Table_hash]. assert (H := tb_get_spec m h Hm). destruct (tb_get eq hash m h) as [t|] eqn:Eg; auto.
      destruct (tb_at m h t Hm Eg) as [rest [P [_ [E _]]]]. eauto.
    - intros m h Hm. cbn [h_entry Table_hash]. assert (H := tb_get_spec m h Hm). destruct (tb_get eq hash m h) as [t|] eqn:Eg.
      + destruct (tb_at m h t Hm Eg) as [rest [P [Es [E Er]]]]. exists rest. split; auto. split; auto. split; [exact Es|].
        intros ot. destruct (Er ot) as [E1 E2]. split; [exact E1|]. destruct ot; split; auto.
      + split; auto. intros t. cbn [fst snd]. split; auto. apply insert_ok; auto.
  Defined.
End Table.

(** *** The types with their hash maps exchanged *)
Section Rehashed.
  Context (fam : HashFamily) (FC : forall Hi T eq, (forall a b : Hi, eq a b = true <-> a = b) -> HashContract (fam Hi T eq)).
  Context (B' : Build) {B : Build} (Hd : @dbg B = true) (Hw : (@usize_bits B <= @usize_bits B')%N).
  Notation HB := (lenient_checked B B' Hd Hw).
  Fixpoint rehashed_laws {Lo V Tr Hi C} (CT : @CollType B Lo V Tr Hi C) (Tr' : VebOps Lo V) : CollLaws (rehashed_coll B' fam CT Tr') :=
    match CT as CT0 in CollType _ Hi _ return CollLaws (rehashed_coll B' fam CT0 Tr') with
    | CT_Array _ _ ix IL => Array_coll_laws (B := B') (recompiled_idx B' Hw IL) Tr'
    | CT_Hash _ Hi eq Heq => HashOf_laws (B := B') (FC Hi (vt Tr') eq Heq)
    | CT_ByteMap _ => ByteMap_coll_laws (B := B') Tr'
    | CT_Box _ _ _ CT' => Box_coll_laws (rehashed_laws CT' Tr')
    end.
  Lemma rehashed_sim {fixed K V cmp O} (T : @VebType B fixed K V cmp O) : exists R, Sim.Sim eq O (rehashed B' fam T) R.
  Proof.
    induction T as [|V|K V cmp OL|K Hi Lo V ko KL S Tr C TS [RS XS] TT [RT XT] CT|K V cmp O T [R X]|K V cmp O T [R X]]; cbn [rehashed].
    - apply (recompiled_sim B' Hd Hw (VT_ByteSet (B := B) fixed)).
    - apply (recompiled_sim B' Hd Hw (VT_ByteMap (B := B) fixed V)).
    - eexists. apply btree_sim.
    - eexists. eapply tree_sim; [exact HB|exact XS|exact XT|].
      apply (coll_sim (coll_laws CT) (coll_panics Hd CT) (rehashed_laws CT (rehashed B' fam TT)) XT (Lists.key_dec (KL_hi KL))).
    - eexists. exact (box_sim (box_sim' X)).
    - eexists. exact (sized2_sim X HB).
  Qed.
  Lemma rehashed_run {fixed K V cmp O} (T : @VebType B fixed K V cmp O) cs ot os : run O cs None = Ret (ot, os) ->
    exists ot', run (rehashed B' fam T) cs None = Ret (ot', os) /\ (ot = None <-> ot' = None).
  Proof.
    intros E. destruct (rehashed_sim T) as [R X]. destruct (sim_run_eq X cs None ot os None I E) as [ot' [E' H]]. exists ot'. split; auto.
    destruct ot, ot'; cbn in H; try contradiction; split; congruence.
  Qed.
  Lemma rehashed_same {fixed K V cmp O} (T : @VebType B fixed K V cmp O) cs : (N.of_nat (length cs) <= @usize_max B)%N ->
    exists ot ot' os, run O cs None = Ret (ot, os) /\ run (rehashed B' fam T) cs None = Ret (ot', os) /\ (ot = None <-> ot' = None).
  Proof.
    intros Hl. assert (H := no_panic_run (type_laws T) cs Hl). destruct (run O cs None) as [[ot os]|] eqn:E; [|congruence].
    destruct (rehashed_run T cs ot os E) as [ot' [E' H']]. eauto 6.
  Qed.
  (** iterators over the two trees give the same pairs *)
  Lemma rehashed_iter {fixed K V cmp O} (T : @VebType B fixed K V cmp O) cs t os t' os' dirs it ps keq :
    run O cs None = Ret (Some t, os) -> run (rehashed B' fam T) cs None = Ret (Some t', os') ->
    it_run (B := B) O keq t dirs it_new = Ret (it, ps) -> it_run (B := B') (rehashed B' fam T) keq t' dirs it_new = Ret (it, ps).
  Proof.
    intros E E' Hi. destruct (rehashed_sim T) as [R X]. destruct (sim_run_eq X cs None _ _ None I E) as [ot' [E1 H]].
    rewrite E' in E1. injection E1 as <- <-. cbn in H. destruct (iter_sim B' Hd Hw X keq t t' H dirs it_new _ Hi) as [x [E2 <-]]. exact E2.
  Qed.
End Rehashed.

(** the association list is the map of Coll.v *)
Lemma assoc_same {B : Build} {Hi Lo V} (eq : Hi -> Hi -> bool) (Tr : VebOps Lo V) :
  let C := HashOf (Assoc_hash (vt Tr) eq) in let C' := Hash_coll eq Tr in
  (forall h t, c_create C h t = c_create C' h t) /\ (forall m h, c_get C m h = c_get C' m h) /\ (forall m h, c_get_mut C m h = c_get_mut C' m h) /\
  (forall m h lv, c_insert_key C m h lv = c_insert_key C' m h lv) /\ (forall m h f, c_remove_key C m h f = c_remove_key C' m h f) /\
  (forall m h f, c_maybe_remove_key C m h f = c_maybe_remove_key C' m h f).
Proof.
  cbn. unfold ho_create, hc_create, hc_get, hc_get_mut, ho_insert_key, hc_insert_key, ho_remove_key, hc_remove_key, ho_maybe_remove_key, hc_maybe_remove_key.
  cbn. repeat split; auto; intros m h.
  - destruct (hm_get eq m h); reflexivity.
  - intros lv. destruct (hm_get eq m h); reflexivity.
  - intros f. destruct (hm_get eq m h); reflexivity.
  - intros f. destruct (hm_get eq m h); reflexivity.
Qed.
Lemma table_family {Seed : Type -> Type -> Type} (hash : forall Hi T, (Hi -> Hi -> bool) -> Seed Hi T -> Hi -> N)
  (draw : forall Hi T, Hi -> T -> Seed Hi T) (rows0 : nat) (grow : forall Hi T, Table (Seed Hi T) Hi T -> option (Seed Hi T * nat)) :
  forall Hi T eq, (forall a b : Hi, eq a b = true <-> a = b) ->
    HashContract (Table_hash eq (hash Hi T eq) (draw Hi T) rows0 (grow Hi T)).
Proof. intros Hi T eq Heq. apply Table_contract. exact Heq. Qed.
Lemma rehashed_sorted (fam : HashFamily) (FC : forall Hi T eq, (forall a b : Hi, eq a b = true <-> a = b) -> HashContract (fam Hi T eq))
  (B B' : Build) : dbg (Build := B) = true -> (usize_bits (B := B) <= usize_bits (B := B'))%N ->
  forall fixed K V cmp (O : VebOps K V) (T : @VebType B fixed K V cmp O) adm cs, allowed T adm -> admissible (B := B) cmp adm cs [] ->
  exists ot, run (rehashed B' fam T) cs None = Ret (ot, snd (sp_run cmp cs [])) /\ (ot = None <-> fst (sp_run cmp cs []) = []).
Proof.
  intros Hd Hw fixed K V cmp O T adm cs Ha Hc.
  destruct (sorted_map (type_ord T) (type_laws T) (allowed_covered T adm Ha) cs Hc) as [ot [E1 E2]].
  destruct (rehashed_run fam FC B' Hd Hw T cs _ _ E1) as [ot' [E3 E4]]. exists ot'. split; auto. tauto.
Qed.
Lemma rehashed_two (fam fam' : HashFamily) (FC : forall Hi T eq, (forall a b : Hi, eq a b = true <-> a = b) -> HashContract (fam Hi T eq))
  (FC' : forall Hi T eq, (forall a b : Hi, eq a b = true <-> a = b) -> HashContract (fam' Hi T eq))
  (B B1 B2 : Build) : dbg (Build := B) = true -> (usize_bits (B := B) <= usize_bits (B := B1))%N -> (usize_bits (B := B) <= usize_bits (B := B2))%N ->
  forall fixed K V cmp (O : VebOps K V) (T : @VebType B fixed K V cmp O) cs, (N.of_nat (length cs) <= usize_max (B := B))%N ->
  exists ot ot' os, run (rehashed B1 fam T) cs None = Ret (ot, os) /\ run (rehashed B2 fam' T) cs None = Ret (ot', os) /\ (ot = None <-> ot' = None).
Proof.
  intros Hd Hw1 Hw2 fixed K V cmp O T cs Hl. destruct (rehashed_same fam FC B1 Hd Hw1 T cs Hl) as [o [o1 [os [E [E1 H1]]]]].
  destruct (rehashed_run fam' FC' B2 Hd Hw2 T cs _ _ E) as [o2 [E2 H2]]. exists o1, o2, os. repeat split; auto; tauto.
Qed.
