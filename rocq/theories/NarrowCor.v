(** A [Tree] whose collection cannot be made: it works as long as it holds at most two pairs.  Then the arrays that are such collections. *)
From Verif Require Import Base Ints Ops Spec Key KeySpec Coll Tree Markers Laws CollProofs KeyProofs Hist.

Section Two.
  Context {B : Build} (fixed : bool) {K Hi Lo V : Type} (ko : KeyOps K Hi Lo) (OL : OrdLaws (k_cmp ko))
    (S : VebOps Hi unit) (Tr : VebOps Lo V) (C : CollOps Hi Lo V Tr) (HC : forall h t, c_create C h t = Panic).
  Notation O := (Tree_ops fixed ko S Tr C).
  Notation cmp := (k_cmp ko).

  Definition two_rep (ot : option (vt O)) (l : list (K * V)) : Prop :=
    match ot with
    | None => l = []
    | Some t => (exists p, (t : Tree S Tr C) = TR p None /\ l = [p]) \/
                (exists p q, (t : Tree S Tr C) = TR p (Some (TD q None)) /\ l = [p; q] /\ cmp (fst p) (fst q) = Lt)
    end.
  Lemma two_push mn mx k v : tr_push ko S Tr C mn mx None k v = Panic.
  Proof. unfold tr_push. destruct (k_split_val ko k). rewrite HC. reflexivity. Qed.

  Ltac ends := eexists _, _; split; [reflexivity|split; [reflexivity|]]; cbn; try reflexivity; try solve [left; eexists; split; reflexivity];
    try solve [right; eexists _, _; split; [reflexivity|split; [reflexivity|cbn; auto]]].
  Lemma two_none c : exists ot' o, step O c None = Ret (ot', o) /\ o = snd (sp_step cmp c []) /\ two_rep ot' (fst (sp_step cmp c [])).
  Proof. destruct c; cbn; ends. Qed.

  Ltac opened := unfold query, query1, write, write1, tr_insert, tr_remove, tr_find, tr_find_mut, tr_predecessor, tr_predecessor_mut, tr_successor,
      tr_successor_mut, tr_into_monad, tr_is_monad, tr_min_val, tr_max_val, tr_min_val_mut, tr_max_val_mut, tr_remove_min, tr_remove_max,
      sp_insert, sp_remove, sp_find, sp_pred, sp_succ, sp_min, sp_max, sp_mut, sp_write, below, above, ltb, leb, eqb.
  Lemma two_one c p : exists ot' o, step O c (Some (TR p None : vt O)) = Ret (ot', o) /\ o = snd (sp_step cmp c [p]) /\ two_rep ot' (fst (sp_step cmp c [p])).
  Proof.
    destruct p as [kp vp]. assert (Hr := proj2 (cmp_eq OL kp kp) eq_refl).
    destruct c; cbn; opened; cbn; rewrite ?Hr; cbn; try solve [ends].
    all: rewrite ?(cmp_opp OL k kp); destruct (cmp k kp) eqn:E; cbn; try (apply (cmp_eq OL) in E; subst k); rewrite ?Hr; cbn; try solve [ends].
    ends. right. eexists _, _. split; [reflexivity|split; [reflexivity|]]. cbn. rewrite (cmp_opp OL k kp), E. reflexivity.
  Qed.
  Lemma two_two c p q : cmp (fst p) (fst q) = Lt ->
    (exists ot' o, step O c (Some (TR p (Some (TD q None)) : vt O)) = Ret (ot', o) /\ o = snd (sp_step cmp c [p; q]) /\ two_rep ot' (fst (sp_step cmp c [p; q]))) \/
    (step O c (Some (TR p (Some (TD q None)) : vt O)) = Panic /\ length (fst (sp_step cmp c [p; q])) = 3).
  Proof.
    destruct p as [kp vp], q as [kq vq]. cbn [fst]. intros H. assert (Hr := proj2 (cmp_eq OL kp kp) eq_refl). assert (Hs := proj2 (cmp_eq OL kq kq) eq_refl).
    assert (Hg : cmp kq kp = Gt) by (rewrite (cmp_opp OL), H; reflexivity).
    destruct c; cbn; opened; cbn; rewrite ?Hr, ?Hs, ?H, ?Hg; cbn; try solve [left; ends].
    all: assert (E1 := cmp_opp OL k kp); assert (E2 := cmp_opp OL k kq); destruct (cmp k kp) eqn:Ep; cbn in E1; rewrite ?E1; cbn;
      (destruct (cmp k kq) eqn:Eq; cbn in E2; rewrite ?E2; cbn);
      try (apply (cmp_eq OL) in Ep; subst k); try (apply (cmp_eq OL) in Eq; subst k);
      try solve [exfalso; congruence]; try solve [exfalso; pose proof (cmp_trans OL _ _ _ E2 Ep); congruence]; rewrite ?Hr, ?Hs, ?H, ?Hg; cbn; rewrite ?two_push; cbn; try solve [left; ends]; try solve [right; auto].
    right. destruct fixed; split; reflexivity.
  Qed.
  Lemma two_step c ot l : two_rep ot l ->
    (exists ot' o, step O c ot = Ret (ot', o) /\ o = snd (sp_step cmp c l) /\ two_rep ot' (fst (sp_step cmp c l))) \/
    (step O c ot = Panic /\ length (fst (sp_step cmp c l)) = 3).
  Proof.
    destruct ot as [t|]; intros H.
    - destruct H as [[p [-> ->]]|[p [q [-> [-> H]]]]]; [left; apply two_one|apply two_two, H].
    - cbn in H. subst l. left. apply two_none.
  Qed.
  Lemma two_length ot l : two_rep ot l -> length l <= 2.
  Proof. destruct ot as [t|]; [intros [[p [_ ->]]|[p [q [_ [-> _]]]]]|intros ->]; cbn; lia. Qed.

  Lemma two_run : forall cs ot l, two_rep ot l ->
    (forall ot' os, run O cs ot = Ret (ot', os) -> os = snd (sp_run cmp cs l) /\ two_rep ot' (fst (sp_run cmp cs l))) /\
    (run O cs ot = Panic <-> exists cs1 cs2, cs = cs1 ++ cs2 /\ 2 < length (fst (sp_run cmp cs1 l))).
  Proof.
    induction cs as [|c cs IH]; intros ot l H; cbn [run sp_run].
    - split; [intros ot' os E; injection E as <- <-; split; [reflexivity|exact H]|]. split; [discriminate|].
      intros [cs1 [cs2 [E Hl]]]. destruct cs1; [|discriminate E]. cbn in Hl. apply two_length in H. lia.
    - destruct (two_step c ot l H) as [[ot1 [o [E [Eo H1]]]]|[E Hl]]; rewrite E; cbn [bind].
      + destruct (IH ot1 _ H1) as [IH1 IH2]. destruct (sp_step cmp c l) as [l1 o1] eqn:El. cbn [fst snd] in *. subst o1.
        destruct (sp_run cmp cs l1) as [l2 os1] eqn:Er. cbn [fst snd] in *. split.
        * intros ot' os E'. destruct (run O cs ot1) as [[ot2 os2]|]; [|discriminate E']. cbn in E'. injection E' as <- <-.
          destruct (IH1 ot2 os2 eq_refl) as [-> Hr]. split; [reflexivity|exact Hr].
        * split.
          -- intros E'. assert (Hp : run O cs ot1 = Panic) by (destruct (run O cs ot1) as [[ot2 os2]|]; [discriminate E'|reflexivity]).
             apply IH2 in Hp. destruct Hp as [cs1 [cs2 [-> Hl]]]. exists (c :: cs1), cs2. split; [reflexivity|]. cbn [sp_run]. rewrite El.
             destruct (sp_run cmp cs1 l1). exact Hl.
          -- intros [cs1 [cs2 [Ec Hl]]]. destruct cs1 as [|c1 cs1].
             ++ cbn in Hl. apply two_length in H. lia.
             ++ cbn in Ec. injection Ec as <- ->. cbn [sp_run] in Hl. rewrite El in Hl. rewrite (proj2 IH2); [reflexivity|].
                exists cs1, cs2. split; [reflexivity|]. destruct (sp_run cmp cs1 l1). exact Hl.
      + split; [intros ot' os E'; discriminate E'|]. split; [intros _|reflexivity]. exists [c], cs. split; [reflexivity|]. cbn [sp_run].
        destruct (sp_step cmp c l) as [l1 o1]. cbn in *. lia.
  Qed.
  Lemma two_all cs : (forall ot os, run O cs None = Ret (ot, os) -> os = snd (sp_run cmp cs []) /\ (ot = None <-> fst (sp_run cmp cs []) = [])) /\
    (run O cs None = Panic <-> exists cs1 cs2, cs = cs1 ++ cs2 /\ 2 < length (fst (sp_run cmp cs1 []))).
  Proof.
    destruct (two_run cs None [] eq_refl) as [H1 H2]. split; [|exact H2]. intros ot os E. destruct (H1 ot os E) as [-> H]. split; [reflexivity|].
    destruct ot as [t|]; cbn in H; [|split; auto]. split; [discriminate|]. destruct H as [[p [_ ->]]|[p [q [_ [-> _]]]]]; discriminate.
  Qed.
End Two.

(** an array with no slots: the cardinality is a multiple of what [usize] counts *)
Lemma no_slots {B : Build} {Hi Lo V} (ix : IdxOps Hi) (Tr : VebOps Lo V) : (i_card ix mod 2 ^ usize_bits = 0)%N ->
  forall h t, c_create (Array_coll ix Tr) h t = Panic.
Proof. intros H h t. cbn [c_create Array_coll]. unfold ac_create. rewrite oa_out; [reflexivity|]. unfold card_usize. rewrite H. apply N.le_0_l. Qed.
Lemma narrow_all {B : Build} fixed {K Hi Lo V} (ko : KeyOps K Hi Lo) (OL : OrdLaws (k_cmp ko)) (ix : IdxOps Hi) S (Tr : VebOps Lo V) :
  (i_card ix mod 2 ^ usize_bits = 0)%N -> let O := Tree_ops fixed ko S Tr (Array_coll ix Tr) in forall cs,
  (forall ot os, run O cs None = Ret (ot, os) -> os = snd (sp_run (k_cmp ko) cs []) /\ (ot = None <-> fst (sp_run (k_cmp ko) cs []) = [])) /\
  (run O cs None = Panic <-> exists cs1 cs2, cs = cs1 ++ cs2 /\ 2 < length (fst (sp_run (k_cmp ko) cs1 []))).
Proof. intros H. cbv zeta. apply two_all; auto. apply no_slots, H. Qed.
Lemma narrow_markers {B : Build} fixed V :
  (usize_bits = 16%N -> forall cs, run (M32 fixed V) cs None = Panic <-> exists cs1 cs2, cs = cs1 ++ cs2 /\ 2 < length (fst (sp_run u_cmp cs1 []))) /\
  (usize_bits = 32%N -> forall cs, run (M64 fixed V) cs None = Panic <-> exists cs1 cs2, cs = cs1 ++ cs2 /\ 2 < length (fst (sp_run u_cmp cs1 []))).
Proof.
  split; intros E cs; [apply (narrow_all fixed u32_key (u_cmp_laws 32) u16_idx)|apply (narrow_all fixed u64_key (u_cmp_laws 64) u32_idx)]; rewrite E; reflexivity.
Qed.
