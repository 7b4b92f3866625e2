(** Proofs for C61: what a [Tree] that behaves as a sorted map forces of its key type, and collections of theirs. *)
From Coq Require Import ZArith Lia.
From Verif Require Import Base Ints Ops Spec Key Coll Tree Laws Lists HistCor KeyProofs KeySpec CollProofs Hist CollSpec Types Open OpenCor Fits FitsCor HistProofs TypesProofs.

Section Need.
  Context {B : Build} (fixed : bool) {K Hi Lo V : Type} (ko : KeyOps K Hi Lo) (S : VebOps Hi unit) (Tr : VebOps Lo V)
    (C : CollOps Hi Lo V Tr) (deq : Hi -> Hi -> bool).
  Hypothesis OK : OrdLaws (k_cmp ko).
  Hypothesis OH : OrdLaws (hi_cmp ko).
  Hypothesis OL : OrdLaws (lo_cmp ko).
  Hypothesis Hd : forall a b, deq a b = true <-> a = b.
  Context (TS : TreeContract (hi_cmp ko) S) (TT : TreeContract (lo_cmp ko) Tr) (CC : CollContract deq C) (v : V).
  Notation cmp := (k_cmp ko).
  Notation TO := (Tree_ops fixed ko S Tr C).
  Hypothesis Map : forall cs, admissible cmp (adm_ascending cmp) cs [] ->
    exists ot, run TO cs None = Ret (ot, snd (sp_run cmp cs [])).

  Lemma lt_gt a b : cmp a b = Lt -> cmp b a = Gt.
  Proof. intros H. rewrite (cmp_opp OK a b), H. reflexivity. Qed.

  (** the tree after three ascending insertions, and what it then answers *)
  Lemma three a k b : cmp a k = Lt -> cmp k b = Lt -> exists c,
    cc_inv CC c /\ cc_abs CC c = [(fst (k_split_val ko k), v_from_monad Tr (snd (k_split_val ko k)) v)] /\
    forall x, (forall k v, x <> Insert k v) -> exists ot,
      step TO x (Some (TR (a, v) (Some (TD (b, v) (Some (v_from_monad S (fst (k_split_val ko k)) tt, c)))))) =
        Ret (ot, snd (sp_step cmp x [(a, v); (k, v); (b, v)])).
  Proof.
    intros Ha Hb. destruct (cc_create CC (fst (k_split_val ko k)) (v_from_monad Tr (snd (k_split_val ko k)) v)) as [c [Ec [Ic Ac]]].
    exists c. split; [exact Ic|split; [exact Ac|]]. intros x Hx.
    assert (Hab : cmp a b = Lt) by (eapply (cmp_trans OK); eassumption).
    pose proof (lt_gt _ _ Ha) as Ha'. pose proof (lt_gt _ _ Hb) as Hb'. pose proof (lt_gt _ _ Hab) as Hab'.
    assert (E1 : sp_insert cmp k v [(a, v)] = [(a, v); (k, v)]).
    { unfold sp_insert, below, above. cbn [filter fst]. unfold ltb. rewrite Ha, Ha'. reflexivity. }
    assert (E2 : sp_insert cmp b v [(a, v); (k, v)] = [(a, v); (k, v); (b, v)]).
    { unfold sp_insert, below, above. cbn [filter fst]. unfold ltb. rewrite Hab, Hb, Hab', Hb'. reflexivity. }
    destruct (Map [Insert a v; Insert k v; Insert b v; x]) as [ot E].
    { cbn [admissible sp_step fst]. change (sp_insert cmp a v []) with [(a, v)]. rewrite E1, E2. repeat split; auto; try (cbn; unfold usize_max, usize_bits; destruct ptr; reflexivity).
      - right. intros ? [].
      - right. cbn. intros ? [<-|[]]. exact Ha.
      - right. cbn. intros ? [<-|[<-|[]]]; assumption.
      - destruct x; auto. exfalso. eapply Hx. reflexivity. }
    cbn [run sp_run sp_step] in E. change (sp_insert cmp a v []) with [(a, v)] in E. rewrite E1, E2 in E.
    change (step TO (Insert a v) None) with (Ret (Some (TR (S := S) (C := C) (a, v) None), OP (K := K) (V := V) None)) in E.
    cbn [bind] in E. unfold step at 1 in E. cbn [v_insert Tree_ops] in E. unfold tr_insert at 1 in E. cbn [t_min t_data fst] in E.
    rewrite Ha' in E. cbn [bind] in E. unfold step at 1 in E. cbn [v_insert Tree_ops] in E. unfold tr_insert at 1 in E. cbn [t_min t_data fst snd d_max d_children] in E.
    rewrite Hab', Hb' in E. unfold tr_push in E. destruct (k_split_val ko k) as [h l] eqn:Ek. cbn [fst snd] in *. rewrite Ec in E. cbn [bind] in E.
    destruct (step TO x _) as [[ot1 o]|] eqn:Ex; [|discriminate E]. cbn [bind] in E.
    destruct (sp_step cmp x [(a, v); (k, v); (b, v)]) as [l' o'] eqn:Es. cbn [snd] in E. assert (Eo : o = o') by congruence. subst o'.
    exists ot1. reflexivity.
  Qed.

  (** the parts *)
  Lemma get_one c h t q : cc_inv CC c -> cc_abs CC c = [(h, t)] -> c_get C c q = Ret (if deq q h then Some t else None).
  Proof.
    intros I E. destruct (cc_step CC (CGet q) c [(h, t)] (COTree (if deq q h then Some t else None)) I) as [oc [Es _]].
    { rewrite E. cbn [m_step]. unfold m_get. cbn [find fst]. destruct (deq q h); reflexivity. }
    cbn [c_step] in Es. destruct (c_get C c q) as [o|]; [|discriminate Es]. cbn [bind] in Es. congruence.
  Qed.
  Lemma find_one l q : v_find Tr (v_from_monad Tr l v) q = Ret (if eqb (lo_cmp ko) l q then Some (l, v) else None).
  Proof.
    destruct (tc_from_monad TT l v) as [I E].
    destruct (tc_step TT (Find q) _ I ltac:(discriminate)) as [ot [Es _]]. rewrite E in Es. cbn [step] in Es. unfold query in Es.
    destruct (v_find Tr _ q) as [o|]; [|discriminate Es]. cbn [bind sp_step snd] in Es. unfold sp_find in Es. cbn [find fst] in Es. congruence.
  Qed.
  Lemma succ_one {K' V'} {cmp'} {O : VebOps K' V'} (TC : TreeContract cmp' O) l w q :
    v_successor O (v_from_monad O l w) q = Ret (if ltb cmp' q l then Some (l, w) else None).
  Proof.
    destruct (tc_from_monad TC l w) as [I E].
    destruct (tc_step TC (Succ q) _ I ltac:(discriminate)) as [ot [Es _]]. rewrite E in Es. cbn [step] in Es. unfold query in Es.
    destruct (v_successor O _ q) as [o|]; [|discriminate Es]. cbn [bind sp_step snd] in Es. unfold sp_succ, above in Es. cbn [filter fst] in Es.
    destruct (ltb cmp' q l); cbn [hd_error] in Es; congruence.
  Qed.
  Lemma min_one l : v_min_val Tr (v_from_monad Tr l v) = Ret (l, v).
  Proof.
    destruct (tc_from_monad TT l v) as [I E].
    destruct (tc_step TT Min _ I ltac:(discriminate)) as [ot [Es _]]. rewrite E in Es. cbn [step] in Es. unfold query1 in Es.
    destruct (v_min_val Tr _) as [o|]; [|discriminate Es]. cbn [bind sp_step snd sp_min hd_error] in Es. congruence.
  Qed.
  Lemma remove_one l : exists ot, v_remove Tr (v_from_monad Tr l v) l = Ret (Ok (ot, (l, v))).
  Proof.
    destruct (tc_from_monad TT l v) as [I E].
    destruct (tc_step TT (Remove l) _ I ltac:(discriminate)) as [ot [Es _]]. rewrite E in Es. cbn [step] in Es.
    destruct (v_remove Tr _ l) as [[[ot' p]|t']|]; [| |discriminate Es]; cbn [bind sp_step snd] in Es; unfold sp_find in Es; cbn [find fst] in Es;
      rewrite (eqb_refl OL) in Es; [|discriminate Es]. exists ot'. congruence.
  Qed.
  Lemma deq_false a b : a <> b -> deq a b = false.
  Proof. intros H. destruct (deq a b) eqn:E; [|reflexivity]. exfalso. apply H, Hd, E. Qed.

  (** what is found *)
  Lemma need_join a k b : cmp a k = Lt -> cmp k b = Lt ->
    k_join ko (fst (k_split_val ko k)) (snd (k_split_val ko k)) = k /\ k_split_ref ko k = k_split_val ko k.
  Proof.
    intros Ha Hb. destruct (three a k b Ha Hb) as [c [Ic [Ac Hs]]]. destruct (Hs (Find k) ltac:(discriminate)) as [ot E].
    cbn [step Tree_ops v_find sp_step snd] in E. unfold query, tr_find in E. cbn [t_min t_data d_max d_children fst] in E.
    pose proof (lt_gt _ _ Ha) as Ha'. rewrite Ha' in E. unfold eqb at 1 in E. rewrite Hb in E.
    unfold sp_find in E. cbn [find fst] in E. unfold eqb in E. rewrite Ha, (cmp_refl OK) in E.
    destruct (k_split_ref ko k) as [h' l'] eqn:Er. rewrite (get_one _ _ _ _ Ic Ac) in E. cbn [bind] in E.
    destruct (deq h' (fst (k_split_val ko k))) eqn:Ed; cbn [bind] in E; [|discriminate E]. apply Hd in Ed.
    rewrite find_one in E. cbn [bind] in E. destruct (eqb (lo_cmp ko) (snd (k_split_val ko k)) l') eqn:El; cbn [bind] in E; [|discriminate E].
    apply (eqb_eq OL) in El. subst h' l'. split; [congruence|]. destruct (k_split_val ko k); reflexivity.
  Qed.
  (** what is removed *)
  Lemma need_apart a k b q : cmp a k = Lt -> cmp k b = Lt -> k_split_ref ko q = k_split_val ko k -> q = a \/ q = k \/ q = b.
  Proof.
    intros Ha Hb Eq. destruct (cmp q a) eqn:Ea; [left; apply (cmp_eq OK), Ea| |];
      (destruct (cmp q k) eqn:Ek; [right; left; apply (cmp_eq OK), Ek| |]); (destruct (cmp q b) eqn:Eb; [right; right; apply (cmp_eq OK), Eb| |]);
      exfalso; destruct (three a k b Ha Hb) as [c [Ic [Ac Hs]]]; destruct (Hs (Remove q) ltac:(discriminate)) as [ot E];
      cbn [step Tree_ops v_remove sp_step snd] in E; unfold tr_remove in E; cbn [t_min t_data d_max d_children fst] in E;
      unfold eqb at 1 2 in E; rewrite Ea, Eb in E; unfold sp_find in E; cbn [find fst] in E; unfold eqb in E;
      rewrite (cmp_opp OK q a), (cmp_opp OK q k), (cmp_opp OK q b), Ea, Ek, Eb in E; cbn [CompOpp] in E; rewrite Eq in E;
      destruct (k_split_val ko k) as [h l]; cbn [fst snd] in *;
      destruct (remove_one l) as [ot' Er]; pose (m := m_set deq [(h, v_from_monad Tr l v)] h ot');
      (destruct (cc_step CC (CMaybe h (fun c => v_remove Tr c l)) c m (CORemoved (m_left m ot') (l, v)) Ic) as [oc [Es _]];
       [rewrite Ac; cbn [m_step]; unfold m_get; cbn [find fst]; rewrite (proj2 (Hd h h) eq_refl), Er; reflexivity|]);
      cbn [c_step] in Es; destruct (c_maybe_remove_key C c h (fun c => v_remove Tr c l)) as [[[oc' p]|c']|]; try discriminate Es;
      cbn [bind] in Es, E; unfold split_left in Es; destruct oc' as [[c1 [|]]|]; cbn [bind] in E;
      destruct p as [lo' val]; cbn [bind] in E; try discriminate E;
      exfalso; unfold m, m_set in Es; cbn [filter fst] in Es; rewrite (proj2 (Hd h h) eq_refl) in Es; destruct ot'; discriminate Es.
  Qed.
  (** what is the successor *)
  Definition lex (p q : Hi * Lo) : comparison := match hi_cmp ko (fst p) (fst q) with Eq => lo_cmp ko (snd p) (snd q) | c => c end.
  Lemma lex_eq p q : lex p q = Eq -> p = q.
  Proof.
    destruct p as [h l], q as [h' l']. unfold lex. cbn [fst snd]. destruct (hi_cmp ko h h') eqn:E; try discriminate.
    apply (cmp_eq OH) in E. intros El. apply (cmp_eq OL) in El. congruence.
  Qed.
  Lemma lex_refl p : lex p p = Eq.
  Proof. unfold lex. rewrite (cmp_refl OH). apply (cmp_refl OL). Qed.
  Lemma need_cmp a k b q : cmp a k = Lt -> cmp k b = Lt -> cmp a q = Lt -> cmp q b = Lt ->
    lex (k_split_ref ko q) (k_split_val ko k) = cmp q k.
  Proof.
    intros Ha Hb Hqa Hqb. destruct (cmp q k) eqn:Ek.
    { apply (cmp_eq OK) in Ek. subst q. rewrite (proj2 (need_join a k b Ha Hb)). apply lex_refl. }
    all: destruct (lex (k_split_ref ko q) (k_split_val ko k)) eqn:Ex; [apply lex_eq in Ex;
      destruct (need_apart a k b q Ha Hb Ex) as [-> | [-> | ->]]; rewrite ?(cmp_refl OK) in *; discriminate| |]; try reflexivity; exfalso.
    all: destruct (three a k b Ha Hb) as [c [Ic [Ac Hs]]]; destruct (Hs (Succ q) ltac:(discriminate)) as [ot E].
    all: cbn [step Tree_ops v_successor sp_step snd] in E; unfold query, tr_successor in E; cbn [t_min t_data d_max d_children fst] in E.
    all: unfold ltb at 1, leb at 1, eqb at 1 in E; pose proof (lt_gt _ _ Hqa) as Hqa'; pose proof (lt_gt _ _ Hqb) as Hqb'; rewrite Hqa', Hqb' in E.
    all: unfold sp_succ, above in E; cbn [filter fst] in E; unfold ltb in E; rewrite Hqa', Hqb, Ek in E; cbn [hd_error] in E.
    all: destruct (k_split_ref ko q) as [h' l']; rewrite (get_one _ _ _ _ Ic Ac) in E; cbn [bind] in E; unfold lex in Ex; cbn [fst snd] in Ex.
    all: assert (Hne : k <> b) by (intros ->; rewrite (cmp_refl OK) in Hb; discriminate).
    all: destruct (hi_cmp ko h' (fst (k_split_val ko k))) eqn:Eh; try discriminate Ex.
    all: try (apply (cmp_eq OH) in Eh; subst h'; rewrite (proj2 (Hd _ _) eq_refl), (succ_one TT) in E; unfold ltb in E; rewrite Ex in E; cbn [bind] in E).
    all: try (rewrite (succ_one TS) in E; unfold ltb in E; rewrite (cmp_refl OH) in E; cbn [bind] in E).
    all: try (rewrite deq_false in E by (intros ->; rewrite (cmp_refl OH) in Eh; discriminate); cbn [bind] in E;
              rewrite (succ_one TS) in E; unfold ltb in E; rewrite Eh in E; cbn [bind] in E).
    all: try (unfold child_end in E; rewrite (get_one _ _ _ _ Ic Ac), (proj2 (Hd _ _) eq_refl) in E; cbn [bind expect] in E;
              rewrite min_one in E; cbn [bind] in E).
    all: try rewrite (proj1 (need_join a k b Ha Hb)) in E.
    all: congruence.
  Qed.
End Need.

(** *** Both directions *)
Lemma laws_enough {B : Build} fixed {K Hi Lo V} (ko : KeyOps K Hi Lo) (S : VebOps Hi unit) (Tr : VebOps Lo V) (C : CollOps Hi Lo V Tr) deq
  (Hd : forall a b, deq a b = true <-> a = b) (TS : TreeContract (hi_cmp ko) S) (TT : TreeContract (lo_cmp ko) Tr) (CC : CollContract deq C) (KL : KeyLaws ko) :
  (forall cs, admissible (k_cmp ko) (adm_ascending (k_cmp ko)) cs [] ->
    exists ot, run (Tree_ops fixed ko S Tr C) cs None = Ret (ot, snd (sp_run (k_cmp ko) cs []))) /\
  (fixed = true -> forall cs, admissible (k_cmp ko) adm_any cs [] ->
    exists ot, run (Tree_ops fixed ko S Tr C) cs None = Ret (ot, snd (sp_run (k_cmp ko) cs []))).
Proof.
  pose (T := OT_Tree fixed _ _ _ _ ko KL S Tr C (OT_user fixed _ _ _ S (KL_hi KL) TS) (OT_user fixed _ _ _ Tr (KL_lo KL) TT) (OC_user Tr _ C deq Hd CC)).
  split.
  - intros cs H. destruct (sorted_map (open_ord T) (open_laws T) (open_allowed_covered T _ (OA_ascending T)) cs H) as [ot [E _]]. eauto.
  - intros Hf cs H. destruct (sorted_map (open_ord T) (open_laws T) (open_allowed_covered T _ (OA_fixed T Hf)) cs H) as [ot [E _]]. eauto.
Qed.
Lemma laws_exactly {B : Build} fixed {K Hi Lo V} (ko : KeyOps K Hi Lo) (S : VebOps Hi unit) (Tr : VebOps Lo V) (C : CollOps Hi Lo V Tr) deq
  (OK : OrdLaws (k_cmp ko)) (OH : OrdLaws (hi_cmp ko)) (OL : OrdLaws (lo_cmp ko))
  (Hd : forall a b, deq a b = true <-> a = b) (TS : TreeContract (hi_cmp ko) S) (TT : TreeContract (lo_cmp ko) Tr) (CC : CollContract deq C) (v : V) :
  (forall k, exists a b, k_cmp ko a k = Lt /\ k_cmp ko k b = Lt) ->
  (KeyLaws ko <-> forall cs, admissible (k_cmp ko) (adm_ascending (k_cmp ko)) cs [] ->
    exists ot, run (Tree_ops fixed ko S Tr C) cs None = Ret (ot, snd (sp_run (k_cmp ko) cs []))).
Proof.
  intros Hin. split; [intros KL; exact (proj1 (laws_enough fixed ko S Tr C deq Hd TS TT CC KL))|]. intros Map. split; auto.
  - intros k. destruct (Hin k) as [a [b [Ha Hb]]]. exact (proj1 (need_join fixed ko S Tr C deq OK OL Hd TT CC v Map a k b Ha Hb)).
  - intros k. destruct (Hin k) as [a [b [Ha Hb]]]. exact (proj2 (need_join fixed ko S Tr C deq OK OL Hd TT CC v Map a k b Ha Hb)).
  - intros x y. destruct (Hin x) as [a [b [Ha Hb]]]. destruct (Hin y) as [a' [b' [Ha' Hb']]].
    assert (Hlo : exists c, k_cmp ko c x = Lt /\ k_cmp ko c y = Lt).
    { destruct (k_cmp ko a a') eqn:E.
      - apply (cmp_eq OK) in E. subst a'. eauto.
      - exists a. split; [auto|eapply (cmp_trans OK); eassumption].
      - exists a'. split; [|auto]. apply (cmp_trans OK) with a; [|auto]. apply (cmp_gt_lt OK). exact E. }
    assert (Hup : exists c, k_cmp ko x c = Lt /\ k_cmp ko y c = Lt).
    { destruct (k_cmp ko b b') eqn:E.
      - apply (cmp_eq OK) in E. subst b'. eauto.
      - exists b'. split; [eapply (cmp_trans OK); eassumption|auto].
      - exists b. split; [auto|]. apply (cmp_trans OK) with b'; [auto|]. apply (cmp_gt_lt OK). exact E. }
    destruct Hlo as [c [Hcx Hcy]], Hup as [d [Hxd Hyd]].
    rewrite <- (need_cmp fixed ko S Tr C deq OK OH OL Hd TS TT CC v Map c y d x Hcy Hyd Hcx Hxd).
    rewrite (proj2 (need_join fixed ko S Tr C deq OK OL Hd TT CC v Map c x d Hcx Hxd)). reflexivity.
Qed.
Lemma admissible_any {B : Build} {K V} (cmp : K -> K -> comparison) adm (cs : list (op K V)) : forall l, admissible cmp adm cs l -> admissible cmp adm_any cs l.
Proof. induction cs as [|c cs IH]; intros l H; [exact I|]. destruct H as [H1 H2]. split; [|apply IH, H2]. destruct c; auto. split; [exact I|apply H1]. Qed.
Lemma laws_exactly_fixed {B : Build} {K Hi Lo V} (ko : KeyOps K Hi Lo) (S : VebOps Hi unit) (Tr : VebOps Lo V) (C : CollOps Hi Lo V Tr) deq
  (OK : OrdLaws (k_cmp ko)) (OH : OrdLaws (hi_cmp ko)) (OL : OrdLaws (lo_cmp ko))
  (Hd : forall a b, deq a b = true <-> a = b) (TS : TreeContract (hi_cmp ko) S) (TT : TreeContract (lo_cmp ko) Tr) (CC : CollContract deq C) (v : V) :
  (forall k, exists a b, k_cmp ko a k = Lt /\ k_cmp ko k b = Lt) ->
  (KeyLaws ko <-> forall cs, admissible (k_cmp ko) adm_any cs [] ->
    exists ot, run (Tree_ops true ko S Tr C) cs None = Ret (ot, snd (sp_run (k_cmp ko) cs []))).
Proof.
  intros Hin. split; [intros KL; exact (proj2 (laws_enough true ko S Tr C deq Hd TS TT CC KL) eq_refl)|]. intros Map.
  apply (laws_exactly true ko S Tr C deq OK OH OL Hd TS TT CC v Hin). intros cs H. apply Map. exact (admissible_any _ _ _ _ H).
Qed.

(** *** Collections *)
Lemma array_needs {B : Build} {Hi Lo V} (ix : IdxOps Hi) (Tr : VebOps Lo V) deq (Hd : forall a b, deq a b = true <-> a = b) (t : vt Tr) :
  CollContract deq (Array_coll ix Tr) -> (forall h, (i_index ix h < i_card ix mod 2 ^ usize_bits)%N) /\ (forall a b, i_index ix a = i_index ix b -> a = b).
Proof.
  intros CC. assert (Hlt : forall h, (i_index ix h < i_card ix mod 2 ^ usize_bits)%N).
  { intros h. destruct (cc_create CC h t) as [c [E _]]. cbn [Array_coll c_create] in E. unfold ac_create, oa_set, oa_get, oa_create in E.
    destruct (nth_error (repeat None (N.to_nat (card_usize (i_card ix)))) (N.to_nat (i_index ix h))) as [o|] eqn:En; [|discriminate E].
    assert (H : nth_error (repeat (@None (vt Tr)) (N.to_nat (card_usize (i_card ix)))) (N.to_nat (i_index ix h)) <> None) by congruence.
    apply nth_error_Some in H. rewrite repeat_length in H. unfold card_usize in H. lia. }
  split; [exact Hlt|]. intros a b Hab. destruct (cc_create CC a t) as [c [E [I A]]].
  pose proof (get_one Tr (Array_coll ix Tr) deq CC c a t b I A) as Hb. pose proof (get_one Tr (Array_coll ix Tr) deq CC c a t a I A) as Ha.
  rewrite (proj2 (Hd a a) eq_refl) in Ha. cbn [Array_coll c_get] in Ha, Hb. unfold ac_get in Ha, Hb. rewrite Hab, Hb in Ha.
  destruct (deq b a) eqn:Ed; [symmetry; apply Hd, Ed|discriminate Ha].
Qed.
Lemma hash_needs {B : Build} {Hi Lo V} (eq : Hi -> Hi -> bool) (Tr : VebOps Lo V) deq (Hd : forall a b, deq a b = true <-> a = b) (t : vt Tr) :
  (forall a b, eq a b = true <-> a = b) <-> inhabited (CollContract deq (Hash_coll eq Tr)).
Proof.
  split; [intros He; exact (coll_contract (CT_Hash Tr Hi eq He) deq Hd)|]. intros [CC] a b. rewrite <- Hd.
  destruct (cc_create CC b t) as [c [E [I A]]]. pose proof (get_one Tr (Hash_coll eq Tr) deq CC c b t a I A) as H.
  cbn [Hash_coll c_create c_get] in E, H. unfold hc_create, hc_get in *.
  assert (Ec : c = [(b, t)]).
  { unfold debug_assert in E. cbn [length N.of_nat] in E. change (1 =? 1)%N with true in E. cbn [bind] in E.
    cbn [hm_get] in E. destruct (eq b b); cbn in E; [congruence|]. destruct (@dbg B); cbn in E; congruence. }
  subst c. cbn [hm_get] in H. destruct (eq a b), (deq a b); try discriminate H; tauto.
Qed.
Lemma laws_needed {B : Build} fixed {K Hi Lo V} (ko : KeyOps K Hi Lo) (S : VebOps Hi unit) (Tr : VebOps Lo V) (C : CollOps Hi Lo V Tr) deq
  (OK : OrdLaws (k_cmp ko)) (OH : OrdLaws (hi_cmp ko)) (OL : OrdLaws (lo_cmp ko))
  (Hd : forall a b, deq a b = true <-> a = b) (TS : TreeContract (hi_cmp ko) S) (TT : TreeContract (lo_cmp ko) Tr) (CC : CollContract deq C) (v : V) :
  (forall cs, admissible (k_cmp ko) (adm_ascending (k_cmp ko)) cs [] ->
    exists ot, run (Tree_ops fixed ko S Tr C) cs None = Ret (ot, snd (sp_run (k_cmp ko) cs []))) ->
  forall a k b, k_cmp ko a k = Lt -> k_cmp ko k b = Lt ->
    k_join ko (fst (k_split_val ko k)) (snd (k_split_val ko k)) = k /\
    k_split_ref ko k = k_split_val ko k /\
    (forall q, k_cmp ko a q = Lt -> k_cmp ko q b = Lt ->
      k_cmp ko q k = match hi_cmp ko (fst (k_split_ref ko q)) (fst (k_split_val ko k)) with
                     | Eq => lo_cmp ko (snd (k_split_ref ko q)) (snd (k_split_val ko k))
                     | c => c
                     end) /\
    (forall q, k_split_ref ko q = k_split_val ko k -> q = a \/ q = k \/ q = b).
Proof.
  intros Map a k b Ha Hb. destruct (need_join fixed ko S Tr C deq OK OL Hd TT CC v Map a k b Ha Hb) as [H1 H2].
  split; [exact H1|]. split; [exact H2|]. split.
  - intros q Hqa Hqb. symmetry. exact (need_cmp fixed ko S Tr C deq OK OH OL Hd TS TT CC v Map a k b q Ha Hb Hqa Hqb).
  - intros q. exact (need_apart fixed ko S Tr C deq OK OL Hd TT CC v Map a k b q Ha Hb).
Qed.

(** *** A key type whose halves are not all used: an integer as its last decimal digit and the rest; and the same with the halves' roles wrong *)
Definition dec_split (k : Z) : Z * u 8 := (k / 10, wrap 8 (Z.to_N (k mod 10)))%Z.
Definition dec_join (h : Z) (l : u 8) : Z := (10 * h + Z.of_N (uval l))%Z.
Definition dec_key : KeyOps Z Z (u 8) :=
  {| k_cmp := Z.compare; hi_cmp := Z.compare; lo_cmp := u_cmp; k_split_val := dec_split; k_join := dec_join; k_split_ref := dec_split |}.
Definition swapped_split (k : Z) : Z * u 8 := (k mod 10, wrap 8 (Z.to_N (k / 10)))%Z.
Definition swapped_join (h : Z) (l : u 8) : Z := (10 * Z.of_N (uval l) + h)%Z.
Definition swapped_key : KeyOps Z Z (u 8) :=
  {| k_cmp := Z.compare; hi_cmp := Z.compare; lo_cmp := u_cmp; k_split_val := swapped_split; k_join := swapped_join; k_split_ref := swapped_split |}.
Lemma Z_laws : OrdLaws Z.compare.
Proof.
  split.
  - exact Z.compare_eq_iff.
  - intros a b. apply Z.compare_antisym.
  - intros a b c. rewrite !Z.compare_lt_iff. apply Z.lt_trans.
Qed.
Lemma digit k : uval (wrap 8 (Z.to_N (k mod 10))) = Z.to_N (k mod 10).
Proof. apply wrap_small. assert (0 <= k mod 10 < 10)%Z by (apply Z.mod_pos_bound; lia). change (2 ^ 8)%N with 256%N. lia. Qed.
Lemma dec_laws : KeyLaws dec_key.
Proof.
  split; cbn; try apply Z_laws; try apply u_cmp_laws; try reflexivity.
  - intros k. unfold dec_join, dec_split. cbn [fst snd]. rewrite digit. assert (0 <= k mod 10 < 10)%Z by (apply Z.mod_pos_bound; lia).
    rewrite Z2N.id by lia. symmetry. apply Z.div_mod. lia.
  - intros a b. unfold dec_split, u_cmp. cbn [fst snd]. rewrite !digit.
    assert (Ha : (0 <= a mod 10 < 10)%Z) by (apply Z.mod_pos_bound; lia). assert (Hb : (0 <= b mod 10 < 10)%Z) by (apply Z.mod_pos_bound; lia).
    rewrite Z2N.inj_compare by lia. pose proof (Z.div_mod a 10 ltac:(lia)) as Ea. pose proof (Z.div_mod b 10 ltac:(lia)) as Eb.
    destruct (Z.compare_spec (a / 10) (b / 10)); destruct (Z.compare_spec (a mod 10) (b mod 10)); destruct (Z.compare_spec a b); try reflexivity; lia.
Qed.
Lemma dec_gap : exists h l, k_split_val dec_key (k_join dec_key h l) <> (h, l).
Proof. exists 0%Z, (wrap 8 12). intros H. apply (f_equal fst) in H. vm_compute in H. discriminate H. Qed.
Lemma not_onto : exists K Hi Lo (ko : KeyOps K Hi Lo), KeyLaws ko /\ exists h l, k_split_val ko (k_join ko h l) <> (h, l).
Proof. exists Z, Z, (u 8), dec_key. exact (conj dec_laws dec_gap). Qed.
Lemma array_signed {B : Build} {h Lo V} (ix : IdxOps (i h)) (Hs : sized_signed ix) (Tr : VebOps Lo V) deq
  (Hd : forall a b, deq a b = true <-> a = b) (t : vt Tr) : CollContract deq (Array_coll ix Tr) -> False.
Proof.
  intros CC. pose proof (proj1 (array_needs ix Tr deq Hd t CC) (wrapi h 0)) as H.
  pose proof (signed_bad ix Hs (wrapi h 0)) as H'. pose proof (card_le (i_card ix)) as Hc. unfold card_usize in Hc. assert (0 <= ival (wrapi h 0))%Z; [|specialize (H' ltac:(assumption)); lia].
  destruct Hs; vm_compute; discriminate.
Qed.
