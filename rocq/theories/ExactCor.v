(** Which tree types are sorted maps on every history. *)
From Verif Require Import Base Ints Ops Spec ByteSet ByteMap Coll Boxed BTree SizedT Tree Lists Laws CollProofs TreeChildren TreeUpd TreeProofs
  Hist Types HistProofs TypesProofs HistCor Fits FitsCor.

Section Chain.
  Context {K : Type} (cmp : K -> K -> comparison).
  Definition three_keys : Prop := exists a b c, cmp a b = Lt /\ cmp b c = Lt.
End Chain.

Lemma few_keys_safe {B : Build} {fixed K V cmp O} (T : VebType fixed K V cmp O) : ~ three_keys cmp -> forall t k, ord (type_laws T) t -> safe (type_laws T) t k.
Proof.
  induction T as [|V|K V cmp OL|K Hi Lo V ko KL S Tr C TS IHS TT IHT CT|K V cmp O T IH|K V cmp O T IH]; intros Hn t k Ho; try exact I.
  - cbn. unfold tr_safe. cbn in Ho. unfold tr_ord in Ho. destruct (t_data t) as [d|]; [|exact I]. destruct Ho as [Hlt _].
    assert (OL := KL_k KL). destruct (k_cmp ko k (fst (t_min t))) eqn:E1; [exact I| |].
    + elim Hn. exists k, (fst (t_min t)), (fst (d_max d)). auto.
    + apply (cmp_gt_lt OL) in E1. destruct (k_cmp ko k (fst (d_max d))) eqn:E2; [exact I| |].
      * elim Hn. exists (fst (t_min t)), k, (fst (d_max d)). auto.
      * apply (cmp_gt_lt OL) in E2. elim Hn. exists (fst (t_min t)), (fst (d_max d)), k. auto.
  - exact (IH Hn (unbox t) k Ho).
  - exact (IH Hn (sz_tree t) k Ho).
Qed.
Lemma covered_few {B : Build} {fixed K V cmp O} (T : VebType fixed K V cmp O) : ~ three_keys cmp -> covered (type_laws T) (@adm_any K V).
Proof. intros H t l k Hr _. apply few_keys_safe; auto. apply Hr. Qed.

(** with three keys, [Tree] goes wrong *)
Lemma tree_unfit {B : Build} {K V cmp O} (T : VebType false K V cmp O) a b c : plain T = false -> cmp a b = Lt -> cmp b c = Lt -> fits T [b; c] a = false.
Proof.
  induction T as [|V|K V cmp OL|K Hi Lo V ko KL S Tr C TS IHS TT IHT CT|K V cmp O T IH|K V cmp O T IH]; cbn [plain fits]; intros Hp Hab Hbc; try discriminate Hp; auto.
  unfold fits_tree, ends. cbn. rewrite Hab. reflexivity.
Qed.
Lemma three_inserts {B : Build} {K V} (cmp : K -> K -> comparison) (OL : OrdLaws cmp) (adm : list (K * V) -> K -> Prop) a b c (v : V) :
  cmp a b = Lt -> cmp b c = Lt ->
  (admissible cmp adm [Insert b v; Insert c v; Insert a v] [] <-> adm [] b /\ adm [(b, v)] c /\ adm [(b, v); (c, v)] a).
Proof.
  intros Hab Hbc. assert (Hcb : cmp c b = Gt) by (apply (cmp_gt_lt OL); auto).
  cbn. unfold sp_find, sp_insert, below, above, ltb, eqb. cbn. rewrite ?Hbc, ?Hcb. cbn.
  split; [tauto|]. intros [H1 [H2 H3]]. repeat split; auto; unfold usize_max, usize_bits; destruct ptr; reflexivity.
Qed.
Lemma sorted_map_exactly {B : Build} {K V cmp O} (T : VebType false K V cmp O) (v : V) :
  (forall cs, admissible cmp adm_any cs [] -> exists ot, run O cs None = Ret (ot, snd (sp_run cmp cs []))) <->
  plain T = true \/ ~ three_keys cmp.
Proof.
  split.
  - intros H. destruct (plain T) eqn:Hp; auto. right. intros [a [b [c [Hab Hbc]]]].
    assert (Ha : admissible cmp adm_any [Insert b v; Insert c v; Insert a v] []) by (apply three_inserts; auto; [apply (type_ord T)|repeat split]).
    apply (fits_weakest T adm_any H) in Ha. apply three_inserts in Ha; auto; [|apply (type_ord T)]. destruct Ha as [_ [_ Ha]].
    unfold adm_fits in Ha. cbn in Ha. rewrite (tree_unfit T a b c Hp Hab Hbc) in Ha. discriminate Ha.
  - intros [H|H] cs Ha.
    + destruct (sorted_map (type_ord T) (type_laws T) (covered_plain T H) cs Ha) as [ot [E _]]. eauto.
    + destruct (sorted_map (type_ord T) (type_laws T) (covered_few T H) cs Ha) as [ot [E _]]. eauto.
Qed.
