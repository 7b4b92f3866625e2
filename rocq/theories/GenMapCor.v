(** The contracts of [ByteMap] over a user's list, and the lists that keep theirs. *)
From Verif Require Import Base Ints Ops Spec Lists Laws ByteSet ByteMap ByteMapProofs Coll CollProofs CollSpec CollCor HistProofs
  Key KeyProofs TypesProofs Types Tree Hist HistCor Open OpenCor GenMap GenMapProofs Fits FitsCor.

Lemma gen_tree_contract {B : Build} {V} {L : ListOps V} : ListContract L -> inhabited (TreeContract u_cmp (ByteMapOf_ops L)).
Proof.
  intros LC. constructor.
  apply (lawful_contract (u_cmp_laws 8) (sim_laws (O' := ByteMapOf_ops L) (O := ByteMap_ops V) (gm_al LC) (gm_inv LC) (gm_sim LC) ByteMap_laws)).
  intros t k. exact I.
Qed.
Lemma gen_coll_contract {B : Build} {Lo V} {Tr : VebOps Lo V} {L : TreeListOps Tr} deq : TreeListContract L ->
  (forall a b, deq a b = true <-> a = b) -> inhabited (CollContract deq (ByteMapOf_coll L)).
Proof.
  intros LC Hd. constructor. apply lawful_coll_contract; auto.
  exact (sim_coll_laws (C' := ByteMapOf_coll L) (C := ByteMap_coll Tr) (gc_al LC) (gc_inv LC) (gc_sim LC) (coll_laws (CT_ByteMap Tr))).
Qed.

(** *** [VecDeque] *)
Lemma vd_get_mid {A} (a : list A) x b : vd_get (a ++ x :: b) (N.of_nat (length a)) = Ret x.
Proof. unfold vd_get. rewrite Nnat.Nat2N.id, nth_error_app2, Nat.sub_diag by lia. auto. Qed.
Lemma vd_get_mut_mid {A} (a : list A) x b : exists put, vd_get_mut (a ++ x :: b) (N.of_nat (length a)) = Ret (x, put) /\
  forall w, put w = a ++ w :: b.
Proof.
  unfold vd_get_mut. rewrite vd_get_mid. cbn. eexists. split; [reflexivity|]. intros w. cbn. rewrite Nnat.Nat2N.id. apply list_set_mid.
Qed.
Lemma vd_insert_mid {A} (a b : list A) x : vd_insert (a ++ b) (N.of_nat (length a)) x = Ret (a ++ x :: b).
Proof.
  unfold vd_insert. rewrite app_length. replace (_ <=? _)%N with true by (symmetry; apply N.leb_le; lia).
  rewrite Nnat.Nat2N.id, firstn_app, skipn_app, Nat.sub_diag, firstn_all, skipn_all. cbn. rewrite app_nil_r. auto.
Qed.
Definition VecDeque_contract (V : Type) : ListContract (VecDeque_list V).
Proof.
  refine {| lc_inv := fun l : lty (VecDeque_list V) => l <> []; lc_abs := fun l : lty (VecDeque_list V) => l |}.
  - auto.
  - intros v. split; [discriminate|reflexivity].
  - intros l _. reflexivity.
  - intros l a v b _ ->. apply vd_get_mid.
  - intros l a v b _ ->. destruct (vd_get_mut_mid a v b) as [put [E H]]. exists put. split; auto. intros w. rewrite H. split; auto.
    destruct a; discriminate.
  - intros l a b v _ ->. eexists. split; [apply vd_insert_mid|]. split; auto. destruct a; discriminate.
  - intros l a v b _ ->. cbn. unfold li_remove_value, vd_remove. rewrite Nnat.Nat2N.id, nth_error_app2, Nat.sub_diag by lia. cbn.
    rewrite list_del_mid. eexists. split; [reflexivity|]. destruct (a ++ b); cbn; auto. split; auto. discriminate.
Defined.
Definition VecDeque_tree_contract {B : Build} {Lo V} (Tr : VebOps Lo V) : TreeListContract (VecDeque_trees Tr).
Proof.
  assert (Hne : forall (a : list (vt Tr)) x b, a ++ x :: b <> []) by (intros a x b E; destruct a; discriminate).
  assert (Hrem : forall (a b : list (vt Tr)) ot (p : Lo * V), is_nil (a ++ spot ot ++ b) = true -> debug_assert (is_none ot) = Ret tt).
  { intros a b ot p. destruct ot; cbn.
    - destruct a; discriminate.
    - unfold debug_assert. destruct dbg; reflexivity. }
  refine {| tlc_inv := fun l : tlty (VecDeque_trees Tr) => l <> []; tlc_abs := fun l : tlty (VecDeque_trees Tr) => l |}.
  - auto.
  - intros v. split; [discriminate|reflexivity].
  - intros l a v b _ ->. apply vd_get_mid.
  - intros l a v b _ ->. destruct (vd_get_mut_mid a v b) as [put [E H]]. exists put. split; auto. intros w. rewrite H. split; auto.
  - intros l a b v _ ->. eexists. split; [apply vd_insert_mid|]. split; auto.
  - intros l a t b f ot p _ -> Hf. cbn. unfold tl_remove_key. rewrite vd_get_mid. cbn [bind]. rewrite Hf. cbn [bind].
    rewrite Nnat.Nat2N.id, replace_at_mid. destruct (is_nil (a ++ spot ot ++ b)) eqn:E.
    + rewrite (Hrem a b ot p E). cbn. eexists. split; [reflexivity|]. destruct (a ++ spot ot ++ b); [auto|discriminate].
    + eexists. split; [reflexivity|]. cbn. split; auto. intros E'. rewrite E' in E. discriminate.
  - intros l a t b f _ -> Hf. cbn. unfold tl_remove_key. rewrite vd_get_mid. cbn [bind]. rewrite Hf. reflexivity.
  - intros l a t b f ot p _ -> Hf. cbn. unfold tl_maybe_remove_key. rewrite vd_get_mid. cbn [bind]. rewrite Hf. cbn [bind].
    rewrite Nnat.Nat2N.id, replace_at_mid. destruct (is_nil (a ++ spot ot ++ b)) eqn:E.
    + rewrite (Hrem a b ot p E). cbn. eexists. split; [reflexivity|]. destruct (a ++ spot ot ++ b); [auto|discriminate].
    + eexists. split; [reflexivity|]. cbn. split; auto. intros E'. rewrite E' in E. discriminate.
  - intros l a t b f t' _ -> Hf. cbn. unfold tl_maybe_remove_key. rewrite vd_get_mid. cbn [bind]. rewrite Hf. cbn [bind].
    rewrite Nnat.Nat2N.id, list_set_mid. eexists. split; [reflexivity|]. repeat split; auto. intros ->. auto.
  - intros l a t b f _ -> Hf. cbn. unfold tl_maybe_remove_key. rewrite vd_get_mid. cbn [bind]. rewrite Hf. reflexivity.
Defined.
(** The model of [ByteMap] over [VecDeque] (ByteMap.v) is the general one at [VecDeque]. *)
Lemma gen_vecdeque {B : Build} V : ByteMapOf_ops (VecDeque_list V) = ByteMap_ops V.
Proof. reflexivity. Qed.
Lemma gen_vecdeque_coll {B : Build} Lo V (Tr : VebOps Lo V) : ByteMapOf_coll (VecDeque_trees Tr) = ByteMap_coll Tr.
Proof. reflexivity. Qed.

(** *** The counted stack *)
Section Stack.
  Context {A : Type}.
  Definition st_ok (s : stack A) : Prop := fst s = N.of_nat (length (snd s)) /\ snd s <> [].
  Definition st_abs (s : stack A) : list A := rev (snd s).
  Lemma st_shape (s : stack A) a x b : st_ok s -> st_abs s = a ++ x :: b -> s = (N.of_nat (length a + S (length b)), rev b ++ x :: rev a).
  Proof.
    destruct s as [n l]. unfold st_abs, st_ok. cbn. intros [-> _] E. apply (f_equal (@rev A)) in E.
    rewrite rev_involutive, rev_app_distr in E. cbn in E. rewrite <- app_assoc in E. cbn in E. subst l. f_equal. rewrite app_length.
    cbn. rewrite !rev_length. lia.
  Qed.
  Lemma st_split_mid a x b : st_split (A := A) (N.of_nat (length a + S (length b)), rev b ++ x :: rev a) (N.of_nat (length a)) = Some (rev b, x, rev a).
  Proof.
    unfold st_split. cbn [fst snd].
    replace (N.to_nat (N.of_nat (length a + S (length b)) - 1 - N.of_nat (length a))) with (length (rev b)) by (rewrite rev_length; lia).
    rewrite nth_error_app2, Nat.sub_diag by lia. cbn [nth_error]. replace (_ <? _)%N with true by (symmetry; apply N.ltb_lt; lia).
    rewrite firstn_app, Nat.sub_diag, firstn_all. cbn [firstn]. rewrite app_nil_r.
    change (rev b ++ x :: rev a) with (rev b ++ [x] ++ rev a). rewrite app_assoc.
    replace (S (length (rev b))) with (length (rev b ++ [x])) by (rewrite app_length; cbn; lia).
    rewrite skipn_app, Nat.sub_diag, skipn_all. reflexivity.
  Qed.
  Lemma st_mid_ok (a : list A) x b n : n = N.of_nat (length a + S (length b)) ->
    st_ok (n, rev b ++ x :: rev a) /\ st_abs (n, rev b ++ x :: rev a) = a ++ x :: b.
  Proof.
    intros ->. unfold st_ok, st_abs. cbn. rewrite app_length. cbn. rewrite !rev_length. repeat split; [lia|destruct (rev b); discriminate|].
    rewrite rev_app_distr. cbn. rewrite !rev_involutive, <- app_assoc. reflexivity.
  Qed.
  Lemma st_left_ok (a b : list A) n : n = N.of_nat (length a + length b) ->
    match st_left (n, rev b ++ rev a) with Some s => st_ok s /\ st_abs s = a ++ b | None => a ++ b = [] end.
  Proof.
    intros ->. unfold st_left. cbn. destruct (N.of_nat (length a + length b) =? 0)%N eqn:E.
    - apply N.eqb_eq in E. destruct a, b; cbn in E; try lia. reflexivity.
    - apply N.eqb_neq in E. unfold st_ok, st_abs. cbn. rewrite app_length, !rev_length. repeat split; [lia| |].
      + intros E'. apply (f_equal (@length A)) in E'. rewrite app_length, !rev_length in E'. cbn in E'. lia.
      + rewrite rev_app_distr, !rev_involutive. reflexivity.
  Qed.
  Lemma st_insert_mid (a b : list A) x (s : stack A) : st_ok s -> st_abs s = a ++ b ->
    exists s', st_insert s (N.of_nat (length a)) x = Ret s' /\ st_ok s' /\ st_abs s' = a ++ x :: b.
  Proof.
    destruct s as [n l]. unfold st_ok at 1, st_abs at 1. cbn. intros [-> _] E. apply (f_equal (@rev A)) in E.
    rewrite rev_involutive, rev_app_distr in E. subst l. unfold st_insert. cbn [fst snd]. rewrite app_length, !rev_length.
    replace (_ <=? _)%N with true by (symmetry; apply N.leb_le; lia).
    replace (N.to_nat (N.of_nat (length b + length a) - N.of_nat (length a))) with (length (rev b)) by (rewrite rev_length; lia).
    rewrite firstn_app, skipn_app, Nat.sub_diag, firstn_all, skipn_all. cbn [firstn skipn app]. rewrite app_nil_r.
    eexists. split; [reflexivity|]. apply st_mid_ok. lia.
  Qed.
End Stack.
Definition Stack_contract (V : Type) : ListContract (Stack_list V).
Proof.
  refine {| lc_inv := fun s : lty (Stack_list V) => st_ok s; lc_abs := fun s : lty (Stack_list V) => st_abs s |}.
  - intros s [_ H] E. unfold st_abs in E. apply (f_equal (@length V)) in E. rewrite rev_length in E. cbn in E. destruct (snd s); [auto|discriminate].
  - intros v. split; [|reflexivity]. split; [reflexivity|discriminate].
  - intros s [H _]. cbn. unfold st_abs. rewrite rev_length, H. reflexivity.
  - intros s a v b H E. cbn. rewrite (st_shape s a v b H E). unfold st_get. rewrite st_split_mid. reflexivity.
  - intros s a v b H E. cbn. rewrite (st_shape s a v b H E). unfold st_get_mut. rewrite st_split_mid. cbn [fst]. eexists. split; [reflexivity|].
    intros w. apply st_mid_ok. reflexivity.
  - intros s a b v H E. apply st_insert_mid; auto.
  - intros s a v b H E. cbn. rewrite (st_shape s a v b H E). unfold st_remove. rewrite st_split_mid. cbn [fst]. eexists. split; [reflexivity|].
    apply st_left_ok. lia.
Defined.
Definition Stack_tree_contract {Lo V} (Tr : VebOps Lo V) : TreeListContract (Stack_trees Tr).
Proof.
  assert (Hst : forall (a b : list (vt Tr)) x n (ot : option (vt Tr)), n = N.of_nat (length a + S (length b)) ->
    match st_store (n, rev b ++ x :: rev a) (rev b) (rev a) ot with
    | Some (l', gone) => st_ok l' /\ st_abs l' = a ++ spot ot ++ b /\ gone = is_none ot
    | None => a ++ spot ot ++ b = []
    end).
  { intros a b x n ot En. unfold st_store. cbn [fst]. destruct ot as [t'|]; cbn [spot app is_none].
    - destruct (st_mid_ok a t' b n En). auto.
    - assert (H := st_left_ok a b (n - 1)%N ltac:(lia)). destruct (st_left ((n - 1)%N, rev b ++ rev a)); tauto. }
  refine {| tlc_inv := fun s : tlty (Stack_trees Tr) => st_ok s; tlc_abs := fun s : tlty (Stack_trees Tr) => st_abs s |}.
  - intros s [_ H] E. unfold st_abs in E. apply (f_equal (@length _)) in E. rewrite rev_length in E. cbn in E. destruct (snd s); [auto|discriminate].
  - intros v. split; [|reflexivity]. split; [reflexivity|discriminate].
  - intros s a v b H E. cbn. rewrite (st_shape s a v b H E). unfold st_get. rewrite st_split_mid. reflexivity.
  - intros s a v b H E. cbn. rewrite (st_shape s a v b H E). unfold st_get_mut. rewrite st_split_mid. cbn [fst]. eexists. split; [reflexivity|].
    intros w. apply st_mid_ok. reflexivity.
  - intros s a b v H E. apply st_insert_mid; auto.
  - intros s a t b f ot p H E Hf. cbn [tl_remove Stack_trees]. rewrite (st_shape s a t b H E), st_split_mid, Hf. cbn [bind]. eexists. split; [reflexivity|].
    apply Hst. reflexivity.
  - intros s a t b f H E Hf. cbn [tl_remove Stack_trees]. rewrite (st_shape s a t b H E), st_split_mid, Hf. reflexivity.
  - intros s a t b f ot p H E Hf. cbn [tl_maybe_remove Stack_trees]. rewrite (st_shape s a t b H E), st_split_mid, Hf. cbn [bind]. eexists. split; [reflexivity|].
    apply Hst. reflexivity.
  - intros s a t b f t' H E Hf. cbn [tl_maybe_remove Stack_trees]. rewrite (st_shape s a t b H E), st_split_mid, Hf. cbn [bind fst]. eexists. split; [reflexivity|].
    destruct (st_mid_ok a t' b _ eq_refl) as [H1 H2]. split; [exact H1|]. split; [exact H2|]. intros ->. reflexivity.
  - intros s a t b f H E Hf. cbn [tl_maybe_remove Stack_trees]. rewrite (st_shape s a t b H E), st_split_mid, Hf. reflexivity.
Defined.

(** *** Histories *)
Lemma gen_sorted_map {B : Build} {V} {L : ListOps V} cs : ListContract L -> admissible u_cmp adm_any cs [] ->
  exists ot, run (ByteMapOf_ops L) cs None = Ret (ot, snd (sp_run u_cmp cs [])) /\ (ot = None <-> fst (sp_run u_cmp cs []) = []).
Proof.
  intros LC H. destruct (gen_tree_contract (B := B) LC) as [TC]. pose (T := OT_user false _ _ _ _ (u_cmp_laws 8) TC).
  exact (sorted_map (open_ord T) (open_laws T) (open_allowed_covered T adm_any (OA_plain T eq_refl)) cs H).
Qed.
Lemma gen_tree_over {B : Build} (fixed : bool) {V} (LS : ListOps unit) (LV : ListOps V) (LT : TreeListOps (ByteMapOf_ops LV)) cs :
  ListContract LS -> ListContract LV -> TreeListContract LT ->
  admissible u_cmp (if fixed then adm_any else adm_above_min u_cmp) cs [] ->
  exists ot, run (Tree_ops fixed u16_key (ByteMapOf_ops LS) (ByteMapOf_ops LV) (ByteMapOf_coll LT)) cs None = Ret (ot, snd (sp_run u_cmp cs [])) /\
    (ot = None <-> fst (sp_run u_cmp cs []) = []).
Proof.
  intros CS CV CT H. destruct (gen_tree_contract (B := B) CS) as [TS], (gen_tree_contract (B := B) CV) as [TV].
  destruct (gen_coll_contract (B := B) (eqb u_cmp) CT (eqb_eq (u_cmp_laws 8))) as [CC].
  pose (T := OT_Tree fixed _ _ _ _ u16_key u16_laws _ _ _ (OT_user fixed _ _ _ _ (u_cmp_laws 8) TS) (OT_user fixed _ _ _ _ (u_cmp_laws 8) TV)
    (OC_user _ _ _ (eqb u_cmp) (eqb_eq (u_cmp_laws 8)) CC)).
  assert (Ha : open_allowed T (if fixed then adm_any else adm_above_min u_cmp)).
  { destruct fixed; [apply OA_fixed; reflexivity|apply OA_shallow; reflexivity]. }
  exact (sorted_map (open_ord T) (open_laws T) (open_allowed_covered T _ Ha) cs H).
Qed.
