(** The collections refine finite maps. *)
From Verif Require Import Base Ops Boxed Lists Laws CollSpec.

Lemma nodup_fst_fun {A B} (l : list (A * B)) a b c : NoDup (map fst l) -> In (a, b) l -> In (a, c) l -> b = c.
Proof.
  induction l as [|[x y] l IH]; cbn; [tauto|]. intros Hn Hb Hc. inversion Hn as [|? ? H1 H2]; subst.
  destruct Hb as [Eb|Hb], Hc as [Ec|Hc]; try congruence; auto.
  - injection Eb as -> ->. elim H1. apply (in_map fst) in Hc. exact Hc.
  - injection Ec as -> ->. elim H1. apply (in_map fst) in Hb. exact Hb.
Qed.

Section Refine.
  Context {Hi Lo V : Type} {Tr : VebOps Lo V} {C : CollOps Hi Lo V Tr} (L : CollLaws C).
  Context (deq : Hi -> Hi -> bool) (Hdeq : forall a b, deq a b = true <-> a = b).
  Notation T := (vt Tr).
  Definition crepr (c : ct C) (m : list (Hi * T)) : Prop := cinv L c /\ Permutation (cents L c) m.
  Definition creprO (oc : option (ct C)) (m : list (Hi * T)) : Prop :=
    match oc with Some c => crepr c m | None => m = [] end.

  Lemma deq_refl h : deq h h = true.
  Proof. apply Hdeq. auto. Qed.
  Lemma crepr_nodup c m : crepr c m -> NoDup (map fst m).
  Proof. intros [H1 H2]. eapply Permutation_NoDup; [apply Permutation_map; exact H2|]. apply (C_nodup L). auto. Qed.
  Lemma crepr_ne c m : crepr c m -> m <> [].
  Proof. intros [H1 H2] ->. apply Permutation_sym, Permutation_nil in H2. apply (C_nonempty L c H1 H2). Qed.
  Lemma m_get_some m h (t : T) : NoDup (map fst m) -> (m_get deq m h = Some t <-> In (h, t) m).
  Proof.
    unfold m_get. induction m as [|[h' t'] m IH]; cbn; intros Hn.
    - split; [discriminate|tauto].
    - inversion Hn as [|? ? H1 H2]; subst. destruct (deq h h') eqn:E.
      + apply Hdeq in E. subst h'. split.
        * intros E. injection E as ->. auto.
        * intros [E|Hin]; [congruence|]. elim H1. apply (in_map fst) in Hin. exact Hin.
      + rewrite (IH H2). split; [auto|]. intros [E'|Hin]; auto. injection E' as -> _. rewrite deq_refl in E. discriminate.
  Qed.
  Lemma m_get_none m h : m_get deq m h = None <-> ~ In h (map fst (m : list (Hi * T))).
  Proof.
    unfold m_get. induction m as [|[h' t'] m IH]; cbn; [tauto|]. destruct (deq h h') eqn:E.
    - apply Hdeq in E. subst. split; [discriminate|]. intros H. elim H. auto.
    - rewrite IH. split; [|tauto]. intros H [E'|H']; auto. subst. rewrite deq_refl in E. discriminate.
  Qed.
  Lemma filter_absent (m : list (Hi * T)) h : ~ In h (map fst m) -> filter (fun p => negb (deq h (fst p))) m = m.
  Proof.
    induction m as [|[h' t'] m IH]; cbn; auto. intros H. destruct (deq h h') eqn:E.
    - apply Hdeq in E. subst. tauto.
    - cbn. rewrite IH; tauto.
  Qed.
  Lemma filter_perm {A} (f : A -> bool) (a b : list A) : Permutation a b -> Permutation (filter f a) (filter f b).
  Proof.
    induction 1; cbn; auto.
    - destruct (f x); auto.
    - destruct (f x), (f y); auto. apply perm_swap.
    - etransitivity; eauto.
  Qed.
  Lemma m_set_perm m h (t : T) rest o : NoDup (map fst m) -> Permutation m ((h, t) :: rest) ->
    Permutation (m_set deq m h o) (match o with Some t' => (h, t') :: rest | None => rest end).
  Proof.
    intros Hn Hp. unfold m_set. assert (Hf : Permutation (filter (fun p => negb (deq h (fst p))) m) rest).
    { rewrite (filter_perm _ _ _ Hp). cbn. rewrite deq_refl. cbn. rewrite filter_absent; auto.
      apply (Permutation_map fst) in Hp. apply (Permutation_NoDup Hp) in Hn. cbn in Hn. inversion Hn. auto. }
    destruct o; cbn; auto.
  Qed.
  Lemma crepr_some c m h t : crepr c m -> m_get deq m h = Some t -> In (h, t) (cents L c).
  Proof.
    intros H E. apply m_get_some in E; [|eapply crepr_nodup; eauto]. eapply Permutation_in; [|exact E]. apply Permutation_sym, H.
  Qed.
  Lemma crepr_none c m h : crepr c m -> m_get deq m h = None -> ~ In h (map fst (cents L c)).
  Proof.
    intros H E Hin. apply m_get_none in E. apply E. eapply Permutation_in; [|exact Hin]. apply Permutation_map, H.
  Qed.
  Lemma crepr_set c m c' h t t' rest : crepr c m -> cinv L c' -> Permutation (cents L c) ((h, t) :: rest) ->
    Permutation (cents L c') ((h, t') :: rest) -> crepr c' (m_set deq m h (Some t')).
  Proof.
    intros H Hv Hp Hp'. split; auto. rewrite Hp'. symmetry. apply (m_set_perm m h t rest (Some t')).
    - eapply crepr_nodup; eauto.
    - rewrite <- Hp. symmetry. apply H.
  Qed.
  Lemma crepr_stored c m h t ot oc : crepr c m -> stored (cinv L) (cents L) c h t ot oc ->
    let (c', b) := split_left C oc in creprO c' (m_set deq m h ot) /\ b = m_left (m_set deq m h ot) ot.
  Proof.
    intros H Hs. assert (Hn := crepr_nodup _ _ H). assert (H0 := H). destruct H as [Hv Hp].
    destruct ot as [t'|], oc as [[c' [|]]|]; cbn in Hs; try tauto; cbn [split_left creprO].
    - destruct Hs as [H1 [rest [H2 H3]]]. split; [eapply crepr_set; eauto|]. reflexivity.
    - destruct Hs as [H1 H2]. assert (Hm : Permutation (cents L c') (m_set deq m h None)).
      { symmetry. apply (m_set_perm m h t (cents L c') None); auto. rewrite <- H2. symmetry. auto. }
      split; [split; auto|]. destruct (m_set deq m h None) eqn:E; auto.
      apply Permutation_sym, Permutation_nil in Hm. elim (C_nonempty L c' H1 Hm).
    - assert (Hm : Permutation [] (m_set deq m h None)).
      { symmetry. apply (m_set_perm m h t [] None); auto. rewrite <- Hs. symmetry. auto. }
      apply Permutation_nil in Hm. rewrite Hm. auto.
  Qed.

  Lemma c_step_ok x oc m m' o : creprO oc m -> m_step deq x m = Ret (m', o) ->
    exists oc', c_step C x oc = Ret (oc', o) /\ creprO oc' m'.
  Proof.
    intros H E. destruct oc as [c|].
    2:{ cbn in H. subst m. destruct x; cbn in *; try (injection E as <- <-; eexists; split; reflexivity).
        - injection E as <- <-. destruct (C_create L h t) as [c [E [H1 H2]]]. rewrite E. cbn. eexists. split; [reflexivity|]. split; auto.
        - destruct lv. injection E as <- <-. eexists; split; reflexivity. }
    cbn in H. assert (Hne := crepr_ne _ _ H). assert (Hv := proj1 H).
    destruct x as [h t|h|h t|h [lo v]|h f|h f].
    - cbn in *. injection E as <- <-. destruct (C_create L h t) as [c' [E [H1 H2]]]. rewrite E. cbn. eexists. split; [reflexivity|]. split; auto.
    - cbn. destruct (C_get L c h Hv) as [o' [Eg Ho]]. rewrite Eg. cbn.
      assert (E' : m_step deq (CGet h) m = Ret (m, COTree (m_get deq m h))) by (destruct m; [elim Hne|]; reflexivity).
      rewrite E' in E. injection E as <- <-. exists (Some c). split; [|exact H]. do 3 f_equal.
      destruct (m_get deq m h) as [t|] eqn:Em.
      + assert (Hin := crepr_some _ _ _ _ H Em). destruct o' as [t'|].
        * f_equal. eapply (nodup_fst_fun (cents L c)); eauto. apply (C_nodup L). auto.
        * elim Ho. apply (in_map fst) in Hin. exact Hin.
      + assert (Hin := crepr_none _ _ _ H Em). destruct o' as [t'|]; auto. elim Hin. apply (in_map fst) in Ho. exact Ho.
    - cbn. destruct (C_get_mut L c h Hv) as [o' [Eg [Eg' Ho]]]. destruct (C_get L c h Hv) as [o2 [Eg2 Ho2]]. rewrite Eg. cbn.
      assert (E' : m_step deq (CSet h t) m = Ret (match m_get deq m h with
             | Some t0 => (m_set deq m h (Some t), COTree (Some t0)) | None => (m, COTree None) end)) by (destruct m; [elim Hne|]; reflexivity).
      rewrite E' in E. rewrite Eg' in Eg2. injection Eg2 as <-. destruct (m_get deq m h) as [t0|] eqn:Em; injection E as <- <-.
      + assert (Hin := crepr_some _ _ _ _ H Em). destruct o' as [[t1 put]|]; cbn in Ho2.
        * assert (t1 = t0) by (eapply (nodup_fst_fun (cents L c)); eauto; apply (C_nodup L); auto). subst t1.
          destruct (Ho t0 put eq_refl) as [rest [Hp Hput]]. destruct (Hput t) as [H1 H2].
          exists (Some (put t)). split; [reflexivity|]. eapply crepr_set; eauto.
        * elim Ho2. apply (in_map fst) in Hin. exact Hin.
      + assert (Hin := crepr_none _ _ _ H Em). destruct o' as [[t1 put]|]; cbn in Ho2.
        * elim Hin. apply (in_map fst) in Ho2. exact Ho2.
        * exists (Some c). split; [reflexivity|]. exact H.
    - assert (E' : m_step deq (CInsert h (lo, v)) m = match m_get deq m h with
        | None => Ret (m_set deq m h (Some (v_from_monad Tr lo v)), COInsert (Ok h))
        | Some t => ' (t', r) <- v_insert Tr t lo v ;; Ret (m_set deq m h (Some t'), COInsert (Err (h, r))) end)
        by (destruct m; [elim Hne|]; reflexivity).
      rewrite E' in E. cbn. destruct (m_get deq m h) as [t|] eqn:Em.
      + destruct (v_insert Tr t lo v) as [[t' r]|] eqn:Ei; [|discriminate]. cbn in E. injection E as <- <-.
        destruct (C_insert_old L c h (lo, v) t t' r Hv (crepr_some _ _ _ _ H Em) Ei) as [c' [rest [Ec [H1 [H2 H3]]]]].
        rewrite Ec. cbn. exists (Some c'). split; [reflexivity|]. eapply crepr_set; eauto.
      + injection E as <- <-. destruct (C_insert_new L c h (lo, v) Hv (crepr_none _ _ _ H Em)) as [c' [Ec [H1 H2]]]. rewrite Ec. cbn.
        exists (Some c'). split; [reflexivity|]. split; auto. rewrite H2. unfold m_set. cbn. constructor.
        rewrite filter_absent; [apply H|]. apply m_get_none. auto.
    - assert (E' : m_step deq (CRemove h f) m = match m_get deq m h with
        | None => Panic
        | Some t => ' (o, p) <- f t ;; Ret (m_set deq m h o, CORemoved (m_left (m_set deq m h o) o) p) end)
        by (destruct m; [elim Hne|]; reflexivity).
      rewrite E' in E. cbn. destruct (m_get deq m h) as [t|] eqn:Em; [|discriminate].
      destruct (f t) as [[ot p]|] eqn:Ef; [|discriminate]. cbn in E. injection E as <- <-.
      destruct (C_remove L c h f t ot p Hv (crepr_some _ _ _ _ H Em) Ef) as [oc [Ec Hs]]. rewrite Ec. cbn.
      assert (Hs' := crepr_stored _ _ _ _ _ _ H Hs). destruct (split_left C oc) as [c' b]. destruct Hs' as [Hs' ->]. eauto.
    - assert (E' : m_step deq (CMaybe h f) m = match m_get deq m h with
        | None => Ret (m, COKept)
        | Some t =>
            r <- f t ;;
            match r with
            | Err t' => Ret (m_set deq m h (Some t'), COKept)
            | Ok (o, p) => Ret (m_set deq m h o, CORemoved (m_left (m_set deq m h o) o) p)
            end end)
        by (destruct m; [elim Hne|]; reflexivity).
      rewrite E' in E. cbn. destruct (m_get deq m h) as [t|] eqn:Em.
      + destruct (f t) as [[[ot p]|t']|] eqn:Ef; [| |discriminate]; cbn in E; injection E as <- <-.
        * destruct (C_maybe_ok L c h f t ot p Hv (crepr_some _ _ _ _ H Em) Ef) as [oc [Ec Hs]]. rewrite Ec. cbn.
          assert (Hs' := crepr_stored _ _ _ _ _ _ H Hs). destruct (split_left C oc) as [c' b]. destruct Hs' as [Hs' ->]. eauto.
        * destruct (C_maybe_err L c h f t t' Hv (crepr_some _ _ _ _ H Em) Ef) as [c' [rest [Ec [H1 [H2 [H3 _]]]]]]. rewrite Ec. cbn.
          exists (Some c'). split; [reflexivity|]. eapply crepr_set; eauto.
      + injection E as <- <-. rewrite (C_maybe_absent L c h f Hv (crepr_none _ _ _ H Em)). cbn. exists (Some c). split; auto.
  Qed.
  Lemma c_run_ok xs : forall oc m m' os, creprO oc m -> m_run deq xs m = Ret (m', os) ->
    exists oc', c_run C xs oc = Ret (oc', os) /\ creprO oc' m'.
  Proof.
    induction xs as [|x xs IH]; intros oc m m' os H E; cbn in *.
    - injection E as <- <-. eauto.
    - destruct (m_step deq x m) as [[m1 o]|] eqn:E1; [|discriminate]. cbn in E.
      destruct (m_run deq xs m1) as [[m2 os']|] eqn:E2; [|discriminate]. cbn in E. injection E as <- <-.
      destruct (c_step_ok x oc m m1 o H E1) as [oc1 [Ec1 H1]]. rewrite Ec1. cbn.
      destruct (IH oc1 m1 m2 os' H1 E2) as [oc2 [Ec2 H2]]. rewrite Ec2. cbn. eauto.
  Qed.
  Lemma coll_finite_map_ret xs m os : m_run deq xs [] = Ret (m, os) -> exists oc, c_run C xs None = Ret (oc, os) /\ (oc = None <-> m = []).
  Proof.
    intros E. destruct (c_run_ok xs None [] m os eq_refl E) as [oc [Ec H]]. exists oc. split; auto.
    destruct oc as [c|]; cbn in H; [|tauto]. split; [discriminate|]. intros Em. elim (crepr_ne _ _ H Em).
  Qed.
  Context (HP : absent_panics L).
  Lemma c_step_panic x oc m : creprO oc m -> m_step deq x m = Panic -> c_step C x oc = Panic.
  Proof.
    intros H E. destruct oc as [c|].
    2:{ cbn in H. subst m. destruct x as [h t|h|h t|h [lo v]|h f|h f]; cbn in E; discriminate E. }
    cbn in H. assert (Hne := crepr_ne _ _ H). assert (Hv := proj1 H). destruct m as [|p0 m0]; [elim Hne; reflexivity|].
    destruct x as [h t|h|h t|h [lo v]|h f|h f]; cbn [m_step] in E; try discriminate E; cbn [c_step].
    - destruct (m_get deq (p0 :: m0) h) as [t|] eqn:Em; [|discriminate E].
      destruct (v_insert Tr t lo v) as [[t' r]|] eqn:Ei; [discriminate E|].
      rewrite (C_insert_panic L c h (lo, v) t Hv (crepr_some _ _ _ _ H Em) Ei). reflexivity.
    - destruct (m_get deq (p0 :: m0) h) as [t|] eqn:Em.
      + destruct (f t) as [[ot p]|] eqn:Ef; [discriminate E|].
        rewrite (C_remove_panic L c h f t Hv (crepr_some _ _ _ _ H Em) Ef). reflexivity.
      + rewrite (HP c h f Hv (crepr_none _ _ _ H Em)). reflexivity.
    - destruct (m_get deq (p0 :: m0) h) as [t|] eqn:Em; [|discriminate E].
      destruct (f t) as [[[ot p]|t']|] eqn:Ef; [discriminate E|discriminate E|].
      rewrite (C_maybe_panic L c h f t Hv (crepr_some _ _ _ _ H Em) Ef). reflexivity.
  Qed.
  Lemma c_run_panic xs : forall oc m, creprO oc m -> m_run deq xs m = Panic -> c_run C xs oc = Panic.
  Proof.
    induction xs as [|x xs IH]; intros oc m H E; cbn in *; [discriminate E|].
    destruct (m_step deq x m) as [[m1 o]|] eqn:E1; cbn in E.
    - destruct (m_run deq xs m1) as [[m2 os']|] eqn:E2; [discriminate E|].
      destruct (c_step_ok x oc m m1 o H E1) as [oc1 [Ec1 H1]]. rewrite Ec1. cbn. rewrite (IH oc1 m1 H1 E2). reflexivity.
    - rewrite (c_step_panic x oc m H E1). reflexivity.
  Qed.
  Lemma coll_panic_run xs : m_run deq xs [] = Panic -> c_run C xs None = Panic.
  Proof. exact (c_run_panic xs None [] eq_refl). Qed.
  Lemma coll_finite_map xs :
    match m_run deq xs [] with
    | Ret (m, os) => exists oc, c_run C xs None = Ret (oc, os) /\ (oc = None <-> m = [])
    | Panic => c_run C xs None = Panic
    end.
  Proof.
    destruct (m_run deq xs []) as [[m os]|] eqn:E; [apply coll_finite_map_ret; exact E|apply (c_run_panic xs None [] eq_refl E)].
  Qed.
End Refine.
