(** The laws of every tree type, by recursion on how it is built. *)
From Verif Require Import Base Ints Ops Spec ByteSet ByteMap Coll Boxed BTree SizedT Tree Lists Laws CollProofs
  ByteSetProofs ByteMapProofs BTreeProofs WrapProofs TreeChildren TreeProofs Types Hist HistProofs KeyProofs.

Fixpoint coll_laws {B : Build} {Lo V Tr Hi C} (CT : @CollType B Lo V Tr Hi C) : CollLaws C :=
  match CT in CollType _ Hi C return CollLaws C with
  | CT_Array _ _ _ IL => Array_coll_laws IL Tr
  | CT_Hash _ _ eq Heq => Hash_coll_laws eq Heq Tr
  | CT_ByteMap _ => ByteMap_coll_laws Tr
  | CT_Box _ _ _ CT' => Box_coll_laws (coll_laws CT')
  end.

(** [remove_key] of an absent key panics: in a build with debug assertions, or without [ByteMap] *)
Fixpoint no_bytes {B : Build} {Lo V Tr Hi C} (CT : @CollType B Lo V Tr Hi C) : bool :=
  match CT with
  | CT_ByteMap _ => false
  | CT_Box _ _ _ CT' => no_bytes CT'
  | _ => true
  end.
Lemma coll_panics_if {B : Build} {Lo V Tr Hi C} (CT : @CollType B Lo V Tr Hi C) :
  dbg = true \/ no_bytes CT = true -> absent_panics (coll_laws CT).
Proof.
  induction CT; cbn [coll_laws no_bytes]; intros H.
  - apply ac_panics.
  - apply hc_panics.
  - destruct H as [H|H]; [apply bc_panics; auto|discriminate H].
  - apply box_panics. auto.
Qed.
Lemma coll_panics {B : Build} {Lo V Tr Hi C} (Hd : dbg = true) (CT : @CollType B Lo V Tr Hi C) : absent_panics (coll_laws CT).
Proof. apply coll_panics_if. left. exact Hd. Qed.

Fixpoint type_laws {B : Build} {fixed K V cmp O} (T : VebType fixed K V cmp O) : VebLaws cmp O :=
  match T in VebType _ K V cmp O return VebLaws cmp O with
  | VT_ByteSet _ => ByteSet_laws
  | VT_ByteMap _ _ => ByteMap_laws
  | VT_BTree _ K V cmp OL => BTree_laws OL
  | VT_Tree _ K Hi Lo V ko KL So Tr C TS TT CT =>
      Tree_laws fixed KL (type_laws TS) (type_laws TT) (coll_laws CT)
  | VT_Box _ _ _ _ _ T' => Box_laws (type_laws T')
  | VT_Sized _ _ _ _ _ T' => Sized_laws (type_laws T')
  end.

Lemma type_ord {B : Build} {fixed K V cmp O} (T : VebType fixed K V cmp O) : OrdLaws cmp.
Proof.
  induction T; auto using u_cmp_laws. apply KL_k. auto.
Qed.

(** Every insertion is safe without [Tree], and in the corrected [Tree]. *)
Lemma plain_safe {B : Build} {fixed K V cmp O} (T : VebType fixed K V cmp O) :
  plain T = true -> forall t k, safe (type_laws T) t k.
Proof.
  induction T; intros H t k; cbn in H; try discriminate; try exact I.
  - exact (IHT H (unbox t) k).
  - exact (IHT H (sz_tree t) k).
Qed.
Lemma fixed_safe {B : Build} {K V cmp O} (T : VebType true K V cmp O) : forall t k, safe (type_laws T) t k.
Proof.
  induction T; intros t k; try exact I.
  - apply tr_safe_fixed; auto.
  - exact (IHT (unbox t) k).
  - exact (IHT (sz_tree t) k).
Qed.

Lemma covered_box {B : Build} {K V cmp} {O : VebOps K V} (L : VebLaws cmp O) adm :
  covered L adm -> covered (Box_laws L) adm.
Proof. intros H t l k Hr Ha. exact (H (unbox t) l k Hr Ha). Qed.
Lemma covered_sized {B : Build} {K V cmp} {O : VebOps K V} (L : VebLaws cmp O) adm :
  covered L adm -> covered (Sized_laws L) adm.
Proof.
  intros H t l k [[H1 _] [H2 [H3 H4]]] Ha. apply (H (sz_tree t) l k); auto. split; auto.
Qed.

Lemma covered_plain {B : Build} {fixed K V cmp O} (T : VebType fixed K V cmp O) :
  plain T = true -> covered (type_laws T) (@adm_any K V).
Proof. intros H. apply covered_any. apply plain_safe. auto. Qed.
Lemma covered_fixed {B : Build} {K V cmp O} (T : VebType true K V cmp O) : covered (type_laws T) (@adm_any K V).
Proof. apply covered_any. apply fixed_safe. Qed.
Lemma covered_asc {B : Build} {fixed K V cmp O} (T : VebType fixed K V cmp O) : covered (type_laws T) (adm_ascending cmp).
Proof. apply covered_ascending. Qed.

Lemma covered_weaken {B : Build} {K V cmp} {O : VebOps K V} (L : VebLaws cmp O) (adm adm' : list (K * V) -> K -> Prop) :
  covered L adm -> (forall l k, adm' l k -> adm l k) -> covered L adm'.
Proof. intros H H' t l k Hr Ha. eauto. Qed.

Lemma covered_shallow {B : Build} {fixed K V cmp O} (T : VebType fixed K V cmp O) :
  shallow T = true -> covered (type_laws T) (adm_above_min cmp).
Proof.
  induction T; intros H; cbn in H.
  - intros t l k _ _. exact I.
  - intros t l k _ _. exact I.
  - intros t l k _ _. exact I.
  - apply andb_prop in H. destruct H as [H1 H2]. intros t l k Hr Ha.
    apply tr_safe_shallow; try apply plain_safe; auto; [apply Hr|].
    change (length (ents (type_laws (VT_Tree fixed K Hi Lo V ko KL S Tr C T1 T2 CT)) t) <= 1 \/
            k_cmp ko (fst (t_min t)) k <> Gt).
    rewrite (repr_len _ t l Hr). destruct (repr_min (KL_k KL) _ t l Hr) as [p [E Ep]].
    destruct l as [|q [|q' l]]; cbn; auto. right. cbn in Ha, Ep. injection Ep as ->.
    cbn in E. unfold tr_min_val in E. injection E as ->.
    intros Hc. apply Ha. apply (cmp_gt_lt (KL_k KL)). auto.
  - apply covered_box. auto.
  - apply covered_sized. auto.
Qed.

