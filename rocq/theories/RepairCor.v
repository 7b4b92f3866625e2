(** Proofs about the user's wrapper of Repair.v. *)
From Verif Require Import Base Lists Ops Spec Hist Laws Types TypesProofs Boxed SizedT Tree TreeUpd TreeProofs HistProofs HistCor Fits FitsCor
  CollSpec Open OpenCor Three ThreeCor BenchCor Sentinel SentinelCor Repair.

Section Front.
  Context {K V : Type} {cmp : K -> K -> comparison} (OL : OrdLaws cmp).
  Lemma insert_front (l : list (K * V)) k v : (forall q, In q l -> cmp k (fst q) = Lt) -> sp_insert cmp k v l = (k, v) :: l /\ sp_find cmp k l = None.
  Proof.
    intros H. split.
    - unfold sp_insert. replace (below cmp k l) with (@nil (K * V)); [replace (above cmp k l) with l; [reflexivity|]|].
      + unfold above. induction l as [|q l IH]; [reflexivity|]. cbn. rewrite (proj2 (ltb_lt _ _) (H q (or_introl eq_refl))). f_equal. apply IH.
        intros x Hx. apply H. right. exact Hx.
      + unfold below. induction l as [|q l IH]; [reflexivity|]. cbn. rewrite (proj2 (ltb_ge _ _) (lt_asym OL _ _ (H q (or_introl eq_refl)))). apply IH.
        intros x Hx. apply H. right. exact Hx.
    - apply (sp_find_none OL). intros Hk. apply keys_in in Hk. destruct Hk as [w Hw]. apply H in Hw. elim (lt_irrefl OL k). exact Hw.
  Qed.
End Front.

(** A tree whose every insertion goes right under the wrapper keeps the contract under it *)
Section Contract.
  Context {B : Build} {K V : Type} {cmp : K -> K -> comparison} (OL : OrdLaws cmp) {O : VebOps K V} (L : VebLaws cmp O)
          (Hins : forall t l k v, repr L t l -> (N.of_nat (length l) < usize_max)%N ->
             exists t', careful_insert cmp O t k v = Ret (t', sp_find cmp k l) /\ repr L t' (sp_insert cmp k v l)).
  Definition careful_contract : TreeContract cmp (careful cmp O).
  Proof.
    refine {| tc_inv := fun t : vt (careful cmp O) => winv L t /\ ord L t; tc_abs := fun t : vt (careful cmp O) => sabs L t |}.
    - intros t _. apply (sorted_of_asc OL).
    - intros t H. apply (repr_ne L t). apply (sabs_repr OL). exact H.
    - intros k v. assert (H := repr_from L k v). split; [split; apply H|]. apply (repr_sabs OL). exact H.
    - intros c t H Hl. assert (Hr := sabs_repr OL L t H).
      assert (Hcase : (exists k v, c = Insert k v) \/ match c with Insert _ _ => False | _ => True end) by (destruct c; eauto).
      destruct Hcase as [[k [v ->]]|Hc].
      + destruct (Hins t _ k v Hr (Hl k v eq_refl)) as [t' [E H']]. exists (Some t'). cbn [step v_insert careful]. rewrite E. split; [reflexivity|].
        split; [split; apply H'|]. apply (repr_sabs OL). exact H'.
      + destruct (step_refines OL L (adm_ascending cmp) c (Some t) (sabs L t)) as [ot [E H']].
        * apply covered_ascending.
        * exact Hr.
        * destruct c; auto. destruct Hc.
        * exists ot. split; [destruct c; solve [exact E|destruct Hc]|]. destruct ot as [t'|]; cbn in H'; auto. split; [split; apply H'|]. apply (repr_sabs OL). exact H'.
    - intros t t' H E. cbn in E. change (v_into_monad O t = Ret (Err t')) in E. rewrite (repr_into_monad L t (sabs L t) (sabs_repr OL L t H)) in E.
      destruct (sabs L t) as [|p [|q l]]; congruence.
    - intros t k t' H E. change (v_remove O t k = Ret (Err t')) in E. assert (Hr := repr_remove OL L t (sabs L t) k (sabs_repr OL L t H)).
      destruct (sp_find cmp k (sabs L t)) as [p|].
      + destruct Hr as [ot [E' _]]. congruence.
      + destruct Hr as [E' _]. congruence.
    - intros t H. rewrite <- (repr_len L t (sabs L t) (sabs_repr OL L t H)). apply (L_len_hint L). apply H.
  Defined.
End Contract.

Section Tree.
  Context {B : Build} {K Hi Lo V : Type} {ko : KeyOps K Hi Lo} (KL : KeyLaws ko) {So : VebOps Hi unit} {Tr : VebOps Lo V} {C : CollOps Hi Lo V Tr}
          (LS : VebLaws (hi_cmp ko) So) (LT : VebLaws (lo_cmp ko) Tr) (LC : CollLaws C)
          (fS : list Hi -> Hi -> bool) (fT : list Lo -> Lo -> bool)
          (HS : forall s ls h, repr LS s ls -> (safe LS s h <-> fS (keys ls) h = true))
          (HT : forall t ls x, repr LT t ls -> (safe LT t x <-> fT (keys ls) x = true)).
  Notation cmp := (k_cmp ko).
  Notation O := (Tree_ops false ko So Tr C).
  Notation L := (Tree_laws false KL LS LT LC).
  Let OL : OrdLaws cmp := KL_k KL.

  Lemma repr_rel t l : repr L t l -> exists s, rel LS LT LC t s /\ th_all s = l.
  Proof.
    intros Hr. assert (Hl := tree_list false KL LS LT LC t l Hr). destruct t as [mn [[mx o]|]]; cbn in Hl.
    - destruct Hl as [m [-> [Ha HP]]]. exists (Two mn mx m). split; [|reflexivity]. cbn. split; auto. split; auto.
      destruct Hr as [Hw [Ho _]]. cbn in Hw, Ho. split; [exact Hw|]. split; [apply Ho|]. auto.
    - subst l. exists (One mn). split; reflexivity.
  Qed.
  Lemma rel_repr t s : rel LS LT LC t s -> ascending cmp (th_all s) -> repr L t (th_all s).
  Proof.
    destruct t as [mn [[mx o]|]]; destruct s as [p|p q m]; cbn [rel]; try tauto.
    - intros [-> [-> [Hw [Ho [Ha HP]]]]] Hs. cbn [th_all] in *. split; [exact Hw|].
      apply asc_cons in Hs. destruct Hs as [Hs Hmn]. apply asc_app in Hs. destruct Hs as [_ [_ Hmx]].
      split.
      + cbn. split; [apply Hmn; apply in_app_iff; right; left; reflexivity|]. split; [|exact Ho].
        intros x Hx. apply (Permutation_in x (Permutation_sym HP)) in Hx. split; [apply Hmn; apply in_app_iff; auto|].
        apply Hmx; [exact Hx|left; reflexivity].
      + split.
        * apply asc_cons. split; auto. apply asc_app. split; [exact Ha|]. split; [apply asc_cons; split; [apply asc_nil|intros ? []]|]. exact Hmx.
        * cbn. constructor. transitivity (mx :: m); [apply Permutation_sym, Permutation_cons_append|]. constructor. exact HP.
    - intros -> Hs. split; [exact I|]. split; [exact I|]. split; [exact Hs|]. reflexivity.
  Qed.

  (** The exchange: the defective insertion, then [remove_max] *)
  Lemma swap t p q r k v : repr L t (p :: q :: r) -> (N.of_nat (length (p :: q :: r)) < usize_max)%N -> cmp k (fst p) = Lt ->
    (forall (m : list (K * V)) x, q :: r = m ++ [x] -> fits_between ko fS fT (keys m) (fst x) = true) ->
    exists t1 t2, v_insert O t k v = Ret (t1, None) /\ v_remove_max O t1 = Ret (Some t2, p) /\ repr L t2 ((k, v) :: q :: r).
  Proof.
    intros Hr Hlen Hk Hfit. destruct (repr_rel t _ Hr) as [s [Hrel Hall]]. destruct s as [p'|p' mx m]; cbn [th_all] in Hall; [discriminate Hall|].
    injection Hall as -> Hm. destruct Hr as [_ [_ [Hasc _]]]. apply asc_cons in Hasc. destruct Hasc as [Hasc Hp].
    specialize (Hfit m mx (eq_sym Hm)). rewrite <- Hm in *. clear Hm q r.
    assert (Hmx : forall x, In x m -> cmp (fst x) (fst mx) = Lt).
    { intros x Hx. apply asc_app in Hasc. apply Hasc; [exact Hx|left; reflexivity]. }
    assert (Hpm : cmp (fst p) (fst mx) = Lt) by (apply Hp; apply in_app_iff; right; left; reflexivity).
    assert (Eplace : th_place cmp k v (Two p mx m) = (Two (k, v) p m, inl mx)).
    { cbn [th_place]. rewrite Hk. rewrite (cmp_opp OL), Hpm. reflexivity. }
    assert (Eins : th_insert cmp k v (Two p mx m) = (Two (k, v) p (m ++ [mx]), None)).
    { unfold th_insert. rewrite Eplace. rewrite (sp_insert_end OL (snd mx) m (fst mx) Hmx), (sp_find_fresh OL m (fst mx) Hmx). destruct mx. reflexivity. }
    destruct (th_insert_ok KL LS LT LC fS fT HS HT t (Two p mx m) k v Hrel Hlen) as [t1 [E1 H1]].
    { rewrite Eplace. exact Hfit. }
    rewrite Eins in E1, H1. cbn [fst snd] in E1, H1.
    destruct (th_remove_max_ok KL LS LT LC t1 _ H1) as [ot [E2 H2]]. cbn [th_remove_max] in E2, H2. rewrite last_error_app in E2, H2.
    rewrite removelast_app1 in H2. cbn [fst snd] in E2, H2. destruct ot as [t2|]; [|destruct H2]. cbn [orel] in H2.
    exists t1, t2. split; [exact E1|]. split; [exact E2|]. apply (rel_repr t2 (Two (k, v) mx m) H2). cbn [th_all]. apply asc_cons. split; [exact Hasc|].
    intros x Hx. apply (cmp_trans OL _ (fst p)); [exact Hk|]. apply Hp. exact Hx.
  Qed.

  (** Children without the defect *)
  Hypothesis HfS : forall hs h, fS hs h = true.
  Hypothesis HfT : forall ls x, fT ls x = true.
  Lemma above_ok t l k : repr L t l -> adm_above_min cmp l k -> safe L t k.
  Proof.
    intros Hr Ha. apply (tree_safe_fits false KL LS LT LC fS fT HS HT t l k Hr). apply tree_above; auto.
  Qed.
  Lemma careful_ok t l k v : repr L t l -> (N.of_nat (length l) < usize_max)%N ->
    exists t', careful_insert cmp O t k v = Ret (t', sp_find cmp k l) /\ repr L t' (sp_insert cmp k v l).
  Proof.
    intros Hr Hlen. unfold careful_insert. destruct (repr_min OL L t l Hr) as [p [Emin Ep]]. rewrite Emin, (repr_is_monad L t l Hr). cbn [bind].
    destruct (negb (length l =? 1) && ltb cmp k (fst p)) eqn:Eb.
    - apply andb_prop in Eb. destruct Eb as [El Ek]. apply ltb_lt in Ek. destruct l as [|p' [|q r]]; [discriminate Ep|discriminate El|].
      injection Ep as ->. destruct (swap t p q r k v Hr Hlen Ek) as [t1 [t2 [E1 [E2 H2]]]].
      { intros m x _. apply push_any; auto. }
      rewrite E1. cbn [bind]. rewrite E2. cbn [bind].
      destruct Hr as [_ [_ [Hasc _]]]. apply asc_cons in Hasc. destruct Hasc as [Hasc Hp].
      assert (Hk : forall x, In x (p :: q :: r) -> cmp k (fst x) = Lt).
      { intros x [<-|Hx]; [exact Ek|]. apply (cmp_trans OL _ (fst p)); auto. }
      destruct (insert_front OL (p :: q :: r) k v Hk) as [-> ->].
      destruct (repr_insert OL L t2 ((k, v) :: q :: r) (fst p) (snd p) H2 Hlen) as [t3 [E3 H3]].
      { apply (above_ok t2 _ _ H2). cbn. apply (lt_asym OL). exact Ek. }
      destruct (insert_front OL (q :: r) (fst p) (snd p) Hp) as [Ei Ef].
      assert (Ei3 : sp_insert cmp (fst p) (snd p) ((k, v) :: q :: r) = (k, v) :: p :: q :: r).
      { unfold sp_insert in *. cbn [below above filter fst] in *. rewrite (proj2 (ltb_lt _ _) Ek), (proj2 (ltb_ge _ _) (lt_asym OL _ _ Ek)).
        cbn [app]. f_equal. etransitivity; [exact Ei|]. destruct p. reflexivity. }
      assert (Ef3 : sp_find cmp (fst p) ((k, v) :: q :: r) = None).
      { apply (sp_find_none OL). intros [E|Hin]; [cbn in E; rewrite E in Ek; exact (lt_irrefl OL _ Ek)|].
        apply keys_in in Hin. destruct Hin as [w Hw]. apply Hp in Hw. exact (lt_irrefl OL _ Hw). }
      rewrite Ei3 in H3. rewrite Ef3 in E3. eauto.
    - apply (repr_insert OL L t l k v Hr Hlen). apply (above_ok t l k Hr). destruct l as [|p' [|q r]]; [exact I|exact I|].
      injection Ep as ->. cbn in Eb |- *. apply ltb_ge. exact Eb.
  Qed.
End Tree.

Lemma careful_tree {B : Build} {K Hi Lo V : Type} (ko : KeyOps K Hi Lo) (So : VebOps Hi unit) (Tr : VebOps Lo V) (C : CollOps Hi Lo V Tr) deq :
  KeyLaws ko -> TreeContract (hi_cmp ko) So -> TreeContract (lo_cmp ko) Tr -> (forall a b, deq a b = true <-> a = b) -> CollContract deq C ->
  inhabited (TreeContract (k_cmp ko) (careful (k_cmp ko) (Tree_ops false ko So Tr C))).
Proof.
  intros KL TS TT Hd CC. constructor.
  apply (careful_contract (KL_k KL) (Tree_laws false KL (user_laws (KL_hi KL) TS) (user_laws (KL_lo KL) TT) (user_coll_laws deq Hd CC))).
  apply (careful_ok KL _ _ _ (fun _ _ => true) (fun _ _ => true)); auto; intros; split; auto; intros _; exact I.
Qed.
Lemma mend_ord {B : Build} {K V cmp O} (T : MendType K V cmp O) : OrdLaws cmp.
Proof. induction T; auto. - exact (type_ord T). - apply KL_k. auto. Qed.
Lemma mend_contract {B : Build} {K V cmp O} (T : MendType K V cmp O) : inhabited (TreeContract cmp O).
Proof.
  induction T as [K V cmp O T Hp|K Hi Lo V ko KL So Tr C TS [IS] TT [IT] CT|K V cmp O T [IH]|K V cmp O T [IH]].
  - apply (plain_contract T Hp).
  - destruct (coll_contract CT (eqb (hi_cmp ko)) (eqb_eq (KL_hi KL))) as [CC].
    exact (careful_tree ko So Tr C _ KL IS IT (eqb_eq (KL_hi KL)) CC).
  - apply (open_contract (OT_Box false _ _ _ _ (OT_user false _ _ _ O (mend_ord T) IH))). left. reflexivity.
  - apply (open_contract (OT_Sized false _ _ _ _ (OT_user false _ _ _ O (mend_ord T) IH))). left. reflexivity.
Qed.
Lemma mend_run {B : Build} {K V cmp O} (T : MendType K V cmp O) cs : roomy cmp cs [] -> exists ot, run O cs None = Ret (ot, snd (sp_run cmp cs [])).
Proof.
  intros Hr. destruct (mend_contract T) as [TC]. destruct (sorted_map (mend_ord T) (user_laws (mend_ord T) TC) (adm := adm_any)) with (cs := cs) as [ot [E _]]; eauto.
  - apply covered_any. intros; exact I.
  - clear -Hr. revert Hr. generalize (@nil (K * V)). induction cs as [|c cs IH]; intros l Hr; [exact I|]. cbn [admissible]. split.
    + destruct c; auto. split; [exact I|exact (Hr [] cs _ _ eq_refl)].
    + apply IH. intros cs1 cs2 k v E. rewrite <- sp_run_cons. apply (Hr (c :: cs1) cs2 k v). cbn. rewrite E. reflexivity.
Qed.

(** The exchange at the top of a tree of any depth whose insertions so far have all fitted *)
Lemma exchange {B : Build} {K Hi Lo V : Type} (ko : KeyOps K Hi Lo) (KL : KeyLaws ko) (So : VebOps Hi unit) (Tr : VebOps Lo V) (C : CollOps Hi Lo V Tr)
  (TS : VebType false Hi unit (hi_cmp ko) So) (TT : VebType false Lo V (lo_cmp ko) Tr) (CT : CollType Tr Hi C)
  (T := VT_Tree false K Hi Lo V ko KL So Tr C TS TT CT) (O := Tree_ops false ko So Tr C) cs1 p q r k v cs2 :
  admissible (k_cmp ko) (adm_fits T) cs1 [] -> fst (sp_run (k_cmp ko) cs1 []) = p :: q :: r -> k_cmp ko k (fst p) = Lt ->
  (N.of_nat (length (p :: q :: r)) < usize_max)%N -> admissible (k_cmp ko) (adm_fits T) cs2 ((k, v) :: q :: r) ->
  exists ot, run O (cs1 ++ [Insert k v; RemoveMax] ++ cs2) None =
    Ret (ot, snd (sp_run (k_cmp ko) cs1 []) ++ [OP None; OP (Some p)] ++ snd (sp_run (k_cmp ko) cs2 ((k, v) :: q :: r))).
Proof.
  intros H1 E1 Hk Hlen H2. assert (OL := KL_k KL). destruct (run_refines OL (type_laws T) (adm_fits T) cs1 (covered_fits T) None [] eq_refl H1) as [ot [E Hr]].
  rewrite E1 in Hr. destruct ot as [t|]; [|discriminate Hr].
  destruct (swap KL (type_laws TS) (type_laws TT) (coll_laws CT) (fits TS) (fits TT) (safe_fits TS) (safe_fits TT) t p q r k v Hr Hlen Hk) as [t1 [t2 [Ei [Em Hr2]]]].
  { intros m x Em. apply (push_asc KL (fits TS) (fits TT)).
    - intros l h. apply fits_ascending.
    - intros l h. apply fits_ascending.
    - destruct Hr as [_ [_ [Ha _]]]. apply asc_cons in Ha. destruct Ha as [Ha _]. rewrite Em in Ha. apply asc_app in Ha. apply Ha.
    - destruct Hr as [_ [_ [Ha _]]]. apply asc_cons in Ha. destruct Ha as [Ha _]. rewrite Em in Ha. apply asc_app in Ha. destruct Ha as [_ [_ Ha]].
      right. intros y Hy. apply keys_in in Hy. destruct Hy as [w Hw]. apply (Ha _ x Hw). left. reflexivity. }
  destruct (run_refines OL (type_laws T) (adm_fits T) cs2 (covered_fits T) (Some t2) _ Hr2 H2) as [ot2 [E2 _]].
  exists ot2. rewrite (run_app cs1 _ None _ _ E). subst O. cbn [app run step]. rewrite Ei. cbn [bind run step]. rewrite Em. cbn [bind].
  rewrite E2. reflexivity.
Qed.

(** Around a tree that answers as it should the wrapper changes nothing but the work done *)
Section Lawful.
  Context {B : Build} {K V : Type} {cmp : K -> K -> comparison} (OL : OrdLaws cmp) {O : VebOps K V} (L : VebLaws cmp O) (Hs : forall t k, safe L t k).
  Lemma careful_same t l k v : repr L t l -> (N.of_nat (length l) < usize_max)%N ->
    exists t', careful_insert cmp O t k v = Ret (t', sp_find cmp k l) /\ repr L t' (sp_insert cmp k v l).
  Proof.
    intros Hr Hlen. unfold careful_insert. destruct (repr_min OL L t l Hr) as [p [Emin Ep]]. rewrite Emin, (repr_is_monad L t l Hr). cbn [bind].
    destruct (negb (length l =? 1) && ltb cmp k (fst p)) eqn:Eb; [|apply (repr_insert OL L t l k v Hr Hlen); apply Hs].
    apply andb_prop in Eb. destruct Eb as [El Ek]. apply ltb_lt in Ek. destruct l as [|p' [|q r]]; [discriminate Ep|discriminate El|].
    injection Ep as ->. destruct (repr_insert OL L t _ k v Hr Hlen (Hs t k)) as [t1 [E1 H1]].
    destruct (repr_remove_max OL L t1 _ H1) as [ot [x [E2 [Ex H2]]]]. rewrite E1. cbn [bind]. rewrite E2. cbn [bind].
    destruct Hr as [_ [_ [Hasc _]]].
    assert (Hk : forall x, In x (p :: q :: r) -> cmp k (fst x) = Lt).
    { apply asc_cons in Hasc. destruct Hasc as [_ Hp]. intros y [<-|Hy]; [exact Ek|]. apply (cmp_trans OL _ (fst p)); auto. }
    destruct (insert_front OL (p :: q :: r) k v Hk) as [Ei Ef]. rewrite Ei in *. rewrite Ef.
    apply last_error_in in Ex. destruct Ex as [m Em]. rewrite Em in H2. rewrite removelast_app1 in H2.
    assert (Ha : ascending cmp (m ++ [x])) by (rewrite <- Em; apply asc_cons; split; assumption).
    apply asc_app in Ha. destruct Ha as [_ [_ Ha]].
    assert (Hx : forall y, In y m -> cmp (fst y) (fst x) = Lt) by (intros y Hy; apply Ha; [exact Hy|left; reflexivity]).
    destruct m as [|y m]; [discriminate Em|]. destruct ot as [t2|]; [|discriminate H2].
    destruct (repr_insert OL L t2 _ (fst x) (snd x) H2) as [t3 [E3 H3]]; [|apply Hs|].
    - apply (f_equal (@length _)) in Em. rewrite app_length in Em. cbn [length] in Em, Hlen |- *. lia.
    - rewrite (sp_insert_end OL (snd x) _ _ Hx), <- surjective_pairing in H3. rewrite (sp_find_fresh OL _ _ Hx) in E3. rewrite Em. eauto.
  Qed.
End Lawful.
Lemma careful_harmless {B : Build} {K V cmp} (O : VebOps K V) : OrdLaws cmp -> TreeContract cmp O -> inhabited (TreeContract cmp (careful cmp O)).
Proof.
  intros OL TC. constructor. apply (careful_contract OL (user_laws OL TC)). apply (careful_same OL). intros; exact I.
Qed.
