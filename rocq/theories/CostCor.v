(** Proofs about the counted functions of Cost.v: forgetting the counts, and bounds on the counts. *)
From Verif Require Import Base Ints Ops ByteSet ByteMap Coll Boxed BTree SizedT Tree Types Laws Concrete TypesProofs Cost.
From Verif Require CollProofs.

Section AllBuilds.
Context {Bd : Build}.

Lemma outcome_bind {A B} (m : cres A) (f : A -> cres B) :
  outcome (cbind m f) = bind (outcome m) (fun a => outcome (f a)).
Proof. unfold cbind, bind. destruct (outcome m); reflexivity. Qed.
Lemma bind_ext {A B} (m m' : res A) (f f' : A -> res B) :
  m = m' -> (forall a, f a = f' a) -> bind m f = bind m' f'.
Proof. intros -> H. destruct m'; cbn; auto. Qed.
Lemma outcome_map {A B} (f : A -> B) (m : cres A) : outcome (cmap f m) = rmap f (outcome m).
Proof. unfold cmap, rmap. rewrite outcome_bind. reflexivity. Qed.

(** *** Forgetting the counts *)
Record erases {K V} {O : VebOps K V} (CO : CVeb O) : Prop := {
  e_from_monad : forall k v, outcome (cv_from_monad CO k v) = Ret (v_from_monad O k v);
  e_is_monad : forall t, outcome (cv_is_monad CO t) = v_is_monad O t;
  e_into_monad : forall t, outcome (cv_into_monad CO t) = v_into_monad O t;
  e_min_val : forall t, outcome (cv_min_val CO t) = v_min_val O t;
  e_min_val_mut : forall t, outcome (cv_min_val_mut CO t) = v_min_val_mut O t;
  e_max_val : forall t, outcome (cv_max_val CO t) = v_max_val O t;
  e_max_val_mut : forall t, outcome (cv_max_val_mut CO t) = v_max_val_mut O t;
  e_find : forall t k, outcome (cv_find CO t k) = v_find O t k;
  e_find_mut : forall t k, outcome (cv_find_mut CO t k) = v_find_mut O t k;
  e_predecessor : forall t k, outcome (cv_predecessor CO t k) = v_predecessor O t k;
  e_predecessor_mut : forall t k, outcome (cv_predecessor_mut CO t k) = v_predecessor_mut O t k;
  e_successor : forall t k, outcome (cv_successor CO t k) = v_successor O t k;
  e_successor_mut : forall t k, outcome (cv_successor_mut CO t k) = v_successor_mut O t k;
  e_insert : forall t k v, outcome (cv_insert CO t k v) = v_insert O t k v;
  e_remove : forall t k, outcome (cv_remove CO t k) = v_remove O t k;
  e_remove_min : forall t, outcome (cv_remove_min CO t) = v_remove_min O t;
  e_remove_max : forall t, outcome (cv_remove_max CO t) = v_remove_max O t }.
Record cerases {Hi Lo V} {Tr : VebOps Lo V} {C : CollOps Hi Lo V Tr} (CC : CColl C) : Prop := {
  e_create : forall h t, outcome (cc_create CC h t) = c_create C h t;
  e_get : forall c h, outcome (cc_get CC c h) = c_get C c h;
  e_get_mut : forall c h, outcome (cc_get_mut CC c h) = c_get_mut C c h;
  e_insert_key : forall c h lv, outcome (cc_insert_key CC c h lv) = c_insert_key C c h lv;
  e_remove_key : forall c h f g, (forall t, outcome (f t) = g t) ->
    outcome (cc_remove_key CC c h f) = c_remove_key C c h g;
  e_maybe_remove_key : forall c h f g, (forall t, outcome (f t) = g t) ->
    outcome (cc_maybe_remove_key CC c h f) = c_maybe_remove_key C c h g }.

Ltac er := repeat (cbn [outcome tick pay free cret cpanic];
  match goal with
  | |- ?x = ?x => reflexivity
  | |- outcome (cbind _ _) = bind _ _ => rewrite outcome_bind; apply bind_ext; [|intros ?]
  | |- bind _ _ = bind _ _ => apply bind_ext; [|intros ?]
  | |- outcome (cmap _ _) = _ => rewrite outcome_map; unfold rmap
  | |- context [match ?x with _ => _ end] => destruct x
  | _ => solve [eauto]
  end).

Lemma leaf_erases {K V} (O : VebOps K V) : erases (leaf_cost O).
Proof. split; reflexivity. Qed.
Lemma box_erases {K V} {O : VebOps K V} (CO : CVeb O) : erases CO -> erases (box_cost CO).
Proof.
  intros H. split; intros; cbn [box_cost Box_ops cv_from_monad cv_is_monad cv_into_monad cv_min_val cv_min_val_mut
    cv_max_val cv_max_val_mut cv_find cv_find_mut cv_predecessor cv_predecessor_mut cv_successor cv_successor_mut
    cv_insert cv_remove cv_remove_min cv_remove_max v_from_monad v_is_monad v_into_monad v_min_val v_min_val_mut
    v_max_val v_max_val_mut v_find v_find_mut v_predecessor v_predecessor_mut v_successor v_successor_mut
    v_insert v_remove v_remove_min v_remove_max]; destruct H; er.
  rewrite e_from_monad0. reflexivity.
Qed.
Lemma sized_erases {K V} {O : VebOps K V} (CO : CVeb O) : erases CO -> erases (sized_cost CO).
Proof.
  intros H. split; intros; cbn [sized_cost Sized_ops cv_from_monad cv_is_monad cv_into_monad cv_min_val cv_min_val_mut
    cv_max_val cv_max_val_mut cv_find cv_find_mut cv_predecessor cv_predecessor_mut cv_successor cv_successor_mut
    cv_insert cv_remove cv_remove_min cv_remove_max v_from_monad v_is_monad v_into_monad v_min_val v_min_val_mut
    v_max_val v_max_val_mut v_find v_find_mut v_predecessor v_predecessor_mut v_successor v_successor_mut
    v_insert v_remove v_remove_min v_remove_max]; unfold csz_insert, csz_remove, csz_remove_end, sz_insert, sz_remove, sz_remove_end;
    destruct H; er.
  rewrite e_from_monad0. reflexivity.
Qed.

Section Colls.
  Context {Lo V : Type} {Tr : VebOps Lo V} (CT : CVeb Tr) (HT : erases CT).
  Lemma array_erases {Hi} (ix : IdxOps Hi) : cerases (array_cost ix CT).
  Proof.
    split; intros; cbn [array_cost Array_coll cc_create cc_get cc_get_mut cc_insert_key cc_remove_key cc_maybe_remove_key
      c_create c_get c_get_mut c_insert_key c_remove_key c_maybe_remove_key];
      unfold cac_insert_key, cac_remove_key, cac_maybe_remove_key, ac_insert_key, ac_remove_key, ac_maybe_remove_key;
      destruct HT; er.
    rewrite outcome_bind, e_from_monad0. cbn [bind]. er.
  Qed.
  Lemma hash_erases {Hi} (eq : Hi -> Hi -> bool) : cerases (hash_cost eq CT).
  Proof.
    split; intros; cbn [hash_cost Hash_coll cc_create cc_get cc_get_mut cc_insert_key cc_remove_key cc_maybe_remove_key
      c_create c_get c_get_mut c_insert_key c_remove_key c_maybe_remove_key];
      unfold chc_insert_key, chc_remove_key, chc_maybe_remove_key, hc_insert_key, hc_remove_key, hc_maybe_remove_key;
      destruct HT; er.
    rewrite outcome_bind, e_from_monad0. cbn [bind]. er.
  Qed.
  Lemma bytemap_erases : cerases (bytemap_cost CT).
  Proof.
    split; intros; cbn [bytemap_cost ByteMap_coll cc_create cc_get cc_get_mut cc_insert_key cc_remove_key cc_maybe_remove_key
      c_create c_get c_get_mut c_insert_key c_remove_key c_maybe_remove_key];
      unfold cbc_insert_key, cbc_remove_key, cbc_maybe_remove_key, bc_insert_key, bc_remove_key, bc_maybe_remove_key,
        ctl_remove_key, tl_remove_key, ctl_maybe_remove_key, tl_maybe_remove_key;
      destruct HT; er.
    rewrite outcome_bind, e_from_monad0. cbn [bind]. er.
  Qed.
  Lemma boxcoll_erases {Hi} {C : CollOps Hi Lo V Tr} (CC : CColl C) : cerases CC -> cerases (boxcoll_cost CC).
  Proof.
    intros H. split; intros; cbn [boxcoll_cost Box_coll cc_create cc_get cc_get_mut cc_insert_key cc_remove_key
      cc_maybe_remove_key c_create c_get c_get_mut c_insert_key c_remove_key c_maybe_remove_key]; destruct H; er.
  Qed.
End Colls.

Section TreeErases.
  Context (fixed : bool) {K Hi Lo V : Type} (ko : KeyOps K Hi Lo) {S : VebOps Hi unit} {Tr : VebOps Lo V}
    {C : CollOps Hi Lo V Tr} (CS : CVeb S) (CT : CVeb Tr) (CC : CColl C) (HS : erases CS) (HT : erases CT) (HC : cerases CC).

  Lemma push_erases mn mx och k v : outcome (ctr_push ko CS CT CC mn mx och k v) = tr_push ko S Tr C mn mx och k v.
  Proof.
    unfold ctr_push, tr_push. destruct HS, HT, HC. er.
    rewrite outcome_bind, e_from_monad1. cbn [bind]. er. rewrite outcome_bind, e_from_monad0. reflexivity.
  Qed.
  Lemma after_erases s r rm rm' : (forall s, outcome (rm s) = rm' s) ->
    outcome (@cafter_end Hi Lo V S Tr C s r rm) = after_end S Tr C s r rm'.
  Proof. intros H. unfold cafter_end, after_end. er. Qed.
  Lemma rmin_erases t : outcome (ctr_remove_min ko CS CT CC t) = tr_remove_min ko S Tr C t.
  Proof. unfold ctr_remove_min, tr_remove_min. destruct HS, HT, HC. er. apply after_erases. auto. Qed.
  Lemma tree_erases : erases (tree_cost fixed ko CS CT CC).
  Proof.
    split; intros; cbn [tree_cost Tree_ops cv_from_monad cv_is_monad cv_into_monad cv_min_val cv_min_val_mut
    cv_max_val cv_max_val_mut cv_find cv_find_mut cv_predecessor cv_predecessor_mut cv_successor cv_successor_mut
    cv_insert cv_remove cv_remove_min cv_remove_max v_from_monad v_is_monad v_into_monad v_min_val v_min_val_mut
    v_max_val v_max_val_mut v_find v_find_mut v_predecessor v_predecessor_mut v_successor v_successor_mut
    v_insert v_remove v_remove_min v_remove_max]; try reflexivity.
    - unfold ctr_find, tr_find. destruct HS, HT, HC. er.
    - unfold ctr_find_mut, tr_find_mut. destruct HS, HT, HC. er.
    - unfold ctr_predecessor, tr_predecessor, cchild_end, child_end. destruct HS, HT, HC. er.
    - unfold ctr_predecessor_mut, tr_predecessor_mut, cchild_end_mut, child_end_mut. destruct HS, HT, HC. er.
    - unfold ctr_successor, tr_successor, cchild_end, child_end. destruct HS, HT, HC. er.
    - unfold ctr_successor_mut, tr_successor_mut, cchild_end_mut, child_end_mut. destruct HS, HT, HC. er.
    - pose proof push_erases. unfold ctr_insert, tr_insert. er.
    - pose proof rmin_erases. pose proof after_erases. unfold ctr_remove, tr_remove. destruct HS, HT, HC. er.
    - apply rmin_erases.
    - pose proof after_erases. unfold ctr_remove_max, tr_remove_max. destruct HS, HT, HC. er.
  Qed.
End TreeErases.

Lemma coll_erases {Lo V} {Tr : VebOps Lo V} (CT : CVeb Tr) (HT : erases CT) {Hi C} (X : CollType Tr Hi C) :
  cerases (coll_cost CT X).
Proof.
  induction X; cbn [coll_cost]; [apply array_erases|apply hash_erases|apply bytemap_erases|apply boxcoll_erases]; auto.
Qed.
Lemma type_erases {fixed K V cmp O} (T : VebType fixed K V cmp O) : erases (type_cost T).
Proof.
  induction T as [|V|K V cmp OL|K Hi Lo V ko KL S Tr C TS IHS TT IHT CT|K V cmp O T IH|K V cmp O T IH]; cbn [type_cost].
  - apply leaf_erases.
  - apply leaf_erases.
  - apply leaf_erases.
  - apply tree_erases; auto. apply coll_erases. auto.
  - apply box_erases. auto.
  - apply sized_erases. auto.
Qed.

(** *** Bounds *)
Local Open Scope N_scope.
Definition within {A} (m : cres A) (c s : N) : Prop := calls m <= c /\ slots m <= s.

Record bounded {K V} {O : VebOps K V} (CO : CVeb O) (d s : N) : Prop := {
  b_from_monad : forall k v, within (cv_from_monad CO k v) 1 0;
  b_is_monad : forall t, within (cv_is_monad CO t) 1 0;
  b_into_monad : forall t, within (cv_into_monad CO t) 1 0;
  b_min_val : forall t, within (cv_min_val CO t) 1 0;
  b_min_val_mut : forall t, within (cv_min_val_mut CO t) 1 0;
  b_max_val : forall t, within (cv_max_val CO t) 1 0;
  b_max_val_mut : forall t, within (cv_max_val_mut CO t) 1 0;
  b_find : forall t k, within (cv_find CO t k) (2 * d + 1) 0;
  b_find_mut : forall t k, within (cv_find_mut CO t k) (2 * d + 1) 0;
  b_predecessor : forall t k, within (cv_predecessor CO t k) (5 * d + 1) 0;
  b_predecessor_mut : forall t k, within (cv_predecessor_mut CO t k) (5 * d + 1) 0;
  b_successor : forall t k, within (cv_successor CO t k) (5 * d + 1) 0;
  b_successor_mut : forall t k, within (cv_successor_mut CO t k) (5 * d + 1) 0;
  b_insert : forall t k v, within (cv_insert CO t k v) (3 * d + 1) s;
  b_remove : forall t k, within (cv_remove CO t k) (4 * d + 2) 0;
  b_remove_min : forall t, within (cv_remove_min CO t) (4 * d + 1) 0;
  b_remove_max : forall t, within (cv_remove_max CO t) (4 * d + 1) 0;
  n_predecessor : forall t k, outcome (cv_predecessor CO t k) = Ret None -> calls (cv_predecessor CO t k) <= 1;
  n_predecessor_mut : forall t k, outcome (cv_predecessor_mut CO t k) = Ret None -> calls (cv_predecessor_mut CO t k) <= 1;
  n_successor : forall t k, outcome (cv_successor CO t k) = Ret None -> calls (cv_successor CO t k) <= 1;
  n_successor_mut : forall t k, outcome (cv_successor_mut CO t k) = Ret None -> calls (cv_successor_mut CO t k) <= 1;
  n_remove : forall t k p, outcome (cv_remove CO t k) = Ret (Ok (None, p)) -> calls (cv_remove CO t k) <= 2;
  n_remove_min : forall t p, outcome (cv_remove_min CO t) = Ret (None, p) -> calls (cv_remove_min CO t) <= 1;
  n_remove_max : forall t p, outcome (cv_remove_max CO t) = Ret (None, p) -> calls (cv_remove_max CO t) <= 1 }.

Record cbounded {Hi Lo V} {Tr : VebOps Lo V} {C : CollOps Hi Lo V Tr} (CC : CColl C) (CT : CVeb Tr) (a : N) : Prop := {
  b_create : forall h t, within (cc_create CC h t) 1 a;
  b_get : forall c h, within (cc_get CC c h) 1 0;
  b_get_mut : forall c h, within (cc_get_mut CC c h) 1 0;
  b_insert_key : forall c h lv B s, (forall t k v, within (cv_insert CT t k v) B s) -> (forall k v, within (cv_from_monad CT k v) 1 0) ->
    within (cc_insert_key CC c h lv) (1 + N.max 1 B) s;
  n_insert_key : forall c h lv c' h', (forall k v, within (cv_from_monad CT k v) 1 0) ->
    outcome (cc_insert_key CC c h lv) = Ret (c', Ok h') -> within (cc_insert_key CC c h lv) 2 0;
  b_remove_key : forall c h f B, (forall t, within (f t) B 0) -> within (cc_remove_key CC c h f) (1 + B) 0;
  n_remove_key : forall c h f B c' p, (forall t q, outcome (f t) = Ret (None, q) -> calls (f t) <= B) ->
    outcome (cc_remove_key CC c h f) = Ret (Some (c', true), p) -> calls (cc_remove_key CC c h f) <= 1 + B;
  b_maybe_remove_key : forall c h f B, (forall t, within (f t) B 0) -> within (cc_maybe_remove_key CC c h f) (1 + B) 0;
  n_maybe_remove_key : forall c h f B c' p, (forall t q, outcome (f t) = Ret (Ok (None, q)) -> calls (f t) <= B) ->
    outcome (cc_maybe_remove_key CC c h f) = Ret (Ok (Some (c', true), p)) -> calls (cc_maybe_remove_key CC c h f) <= 1 + B }.

Ltac opn := unfold within, cmap, cbind, tick, cret, cpanic, free, pay in *; cbn [outcome calls slots expect is_none] in *.
(** take every test apart, remembering the outcome *)
Ltac brk := repeat (opn; match goal with
  | |- context [match ?x with _ => _ end] => destruct x eqn:?
  | H : context [match ?x with _ => _ end] |- _ => destruct x eqn:?
  end); opn.

Lemma leaf_bounded {K V} (O : VebOps K V) d s : bounded (leaf_cost O) d s.
Proof. split; intros; cbn [leaf_cost cv_from_monad cv_is_monad cv_into_monad cv_min_val cv_min_val_mut
    cv_max_val cv_max_val_mut cv_find cv_find_mut cv_predecessor cv_predecessor_mut cv_successor cv_successor_mut
    cv_insert cv_remove cv_remove_min cv_remove_max]; unfold within, pay; cbn [outcome calls slots]; try split; lia. Qed.

Lemma bounded_le {K V} {O : VebOps K V} (CO : CVeb O) d s d' s' : d <= d' -> s <= s' -> bounded CO d s -> bounded CO d' s'.
Proof.
  intros H1 H2 [B1 B2 B3 B4 B5 B6 B7 B8 B9 B10 B11 B12 B13 B14 B15 B16 B17 N1 N2 N3 N4 N5 N6 N7].
  split; auto; unfold within in *; intros.
  - specialize (B8 t k). lia.
  - specialize (B9 t k). lia.
  - specialize (B10 t k). lia.
  - specialize (B11 t k). lia.
  - specialize (B12 t k). lia.
  - specialize (B13 t k). lia.
  - specialize (B14 t k v). lia.
  - specialize (B15 t k). lia.
  - specialize (B16 t). lia.
  - specialize (B17 t). lia.
Qed.

Lemma within_map {A B} (f : A -> B) m c s : within m c s -> within (cmap f m) c s.
Proof. intros H. brk; lia. Qed.
Lemma none_map {A B} (f : A -> B) m : (outcome m = Ret None -> calls m <= 1) ->
  outcome (cmap (omap f) m) = Ret None -> calls (cmap (omap f) m) <= 1.
Proof. intros H. opn. destruct (outcome m) as [[a|]|] eqn:E; cbn; intros; try discriminate. specialize (H eq_refl). lia. Qed.

Lemma box_bounded {K V} {O : VebOps K V} (CO : CVeb O) d s : bounded CO d s -> bounded (box_cost CO) d s.
Proof.
  intros [B1 B2 B3 B4 B5 B6 B7 B8 B9 B10 B11 B12 B13 B14 B15 B16 B17 N1 N2 N3 N4 N5 N6 N7]. split; intros;
  cbn [box_cost cv_from_monad cv_is_monad cv_into_monad cv_min_val cv_min_val_mut
    cv_max_val cv_max_val_mut cv_find cv_find_mut cv_predecessor cv_predecessor_mut cv_successor cv_successor_mut
    cv_insert cv_remove cv_remove_min cv_remove_max] in *; auto using within_map.
  - specialize (B3 (unbox t)). brk; lia.
  - specialize (B14 (unbox t) k v). brk; lia.
  - specialize (B15 (unbox t) k). brk; lia.
  - revert H. apply none_map. auto.
  - revert H. apply none_map. auto.
  - specialize (N5 (unbox t) k). opn. destruct (outcome (cv_remove CO (unbox t) k)) as [[[[t'|] q]|t']|]; cbn in *; try discriminate.
    specialize (N5 q eq_refl). lia.
  - specialize (N6 (unbox t)). opn. destruct (outcome (cv_remove_min CO (unbox t))) as [[[t'|] q]|]; cbn in *; try discriminate.
    specialize (N6 q eq_refl). lia.
  - specialize (N7 (unbox t)). opn. destruct (outcome (cv_remove_max CO (unbox t))) as [[[t'|] q]|]; cbn in *; try discriminate.
    specialize (N7 q eq_refl). lia.
Qed.
Lemma sized_bounded {K V} {O : VebOps K V} (CO : CVeb O) d s : bounded CO d s -> bounded (sized_cost CO) d s.
Proof.
  intros [B1 B2 B3 B4 B5 B6 B7 B8 B9 B10 B11 B12 B13 B14 B15 B16 B17 N1 N2 N3 N4 N5 N6 N7]. split; intros;
  cbn [sized_cost cv_from_monad cv_is_monad cv_into_monad cv_min_val cv_min_val_mut
    cv_max_val cv_max_val_mut cv_find cv_find_mut cv_predecessor cv_predecessor_mut cv_successor cv_successor_mut
    cv_insert cv_remove cv_remove_min cv_remove_max] in *; auto using within_map.
  - specialize (B2 (sz_tree t)). brk; lia.
  - specialize (B3 (sz_tree t)). brk; lia.
  - unfold csz_insert in *. specialize (B14 (sz_tree t) k v). brk; lia.
  - unfold csz_remove in *. specialize (B15 (sz_tree t) k). brk; lia.
  - unfold csz_remove_end in *. specialize (B16 (sz_tree t)). brk; lia.
  - unfold csz_remove_end in *. specialize (B17 (sz_tree t)). brk; lia.
  - revert H. apply none_map. auto.
  - revert H. apply none_map. auto.
  - unfold csz_remove in *. specialize (N5 (sz_tree t) k). opn.
    destruct (outcome (cv_remove CO (sz_tree t) k)) as [[[[t'|] q]|t']|]; cbn in *; try discriminate.
    + destruct (checked_sub (sz_size t) 1) as [n|]; cbn in *; [|discriminate].
      destruct (nonzero n); cbn in *; discriminate.
    + specialize (N5 q eq_refl). lia.
  - unfold csz_remove_end in *. specialize (N6 (sz_tree t)). opn. destruct (checked_sub (sz_size t) 1) as [n|]; cbn in *; [|discriminate].
    destruct (outcome (cv_remove_min CO (sz_tree t))) as [[[t'|] q]|]; cbn in *; try discriminate.
    + destruct (nonzero n); cbn in *; discriminate.
    + specialize (N6 q eq_refl). lia.
  - unfold csz_remove_end in *. specialize (N7 (sz_tree t)). opn. destruct (checked_sub (sz_size t) 1) as [n|]; cbn in *; [|discriminate].
    destruct (outcome (cv_remove_max CO (sz_tree t))) as [[[t'|] q]|]; cbn in *; try discriminate.
    + destruct (nonzero n); cbn in *; discriminate.
    + specialize (N7 q eq_refl). lia.
Qed.

Section CollBounds.
  Context {Lo V : Type} {Tr : VebOps Lo V} (CT : CVeb Tr).
  Lemma array_bounded {Hi} (ix : IdxOps Hi) : cbounded (array_cost ix CT) CT (i_card ix).
  Proof.
    assert (Hc := CollProofs.card_le (i_card ix)).
    split; intros; cbn [array_cost cc_create cc_get cc_get_mut cc_insert_key cc_remove_key cc_maybe_remove_key] in *;
      unfold cac_insert_key, cac_remove_key, cac_maybe_remove_key in *; try (unfold within, pay; opn; lia).
    - opn. destruct (oa_get _ _) as [[t|]|]; [| |opn; lia].
      + specialize (H t (fst lv) (snd lv)). brk; lia.
      + specialize (H0 (fst lv) (snd lv)). brk; lia.
    - opn. destruct (oa_get _ _) as [[t|]|]; [| |discriminate].
      + exfalso. destruct (outcome (cv_insert CT _ _ _)) as [[t' v]|]; [|discriminate]. opn. destruct (oa_set _ _ _); discriminate.
      + specialize (H (fst lv) (snd lv)). destruct (outcome (cv_from_monad CT _ _)) as [t|]; [|discriminate]. opn.
        destruct (oa_set _ _ _); [|discriminate]. opn. destruct (usize_add _ _); [|discriminate]. opn. lia.
    - opn. destruct (oa_get _ _) as [o|]; opn; [|lia]. destruct (oa_set _ _ _) as [a|]; opn; [|lia].
      destruct o as [t|]; opn; [|lia]. specialize (H t). brk; lia.
    - opn. destruct (oa_get _ _) as [o|]; opn; [|discriminate]. destruct (oa_set _ _ _) as [a|]; opn; [|discriminate].
      destruct o as [t|]; opn; [|discriminate]. destruct (outcome (f t)) as [[ot val]|] eqn:E; opn; [|discriminate].
      destruct ot as [t'|].
      + exfalso. unfold ac_store in H0. cbn in H0. destruct (oa_set _ _ _); cbn in H0; [|discriminate].
        destruct (ac_count c =? 0); cbn in H0; discriminate.
      + specialize (H t val E). destruct (ac_store _ _ _ _ _ _); opn; lia.
    - opn. destruct (oa_get _ _) as [o|]; opn; [|lia]. destruct (oa_set _ _ _) as [a|]; opn; [|lia].
      destruct o as [t|]; opn; [|lia]. specialize (H t). brk; lia.
    - opn. destruct (oa_get _ _) as [o|]; opn; [|discriminate]. destruct (oa_set _ _ _) as [a|]; opn; [|discriminate].
      destruct o as [t|]; opn; [|discriminate]. destruct (outcome (f t)) as [[[ot val]|t']|] eqn:E; opn; [|clear H; exfalso|discriminate].
      + destruct ot as [t'|].
        * exfalso. unfold ac_store in H0. cbn in H0. destruct (oa_set _ _ _); cbn in H0; [|discriminate].
          destruct (ac_count c =? 0); cbn in H0; discriminate.
        * specialize (H t val E). destruct (ac_store _ _ _ _ _ _); opn; lia.
      + destruct (oa_set _ _ _); opn; discriminate.
  Qed.
  Lemma hash_bounded {Hi} (eq : Hi -> Hi -> bool) : cbounded (hash_cost eq CT) CT 0.
  Proof.
    split; intros; cbn [hash_cost cc_create cc_get cc_get_mut cc_insert_key cc_remove_key cc_maybe_remove_key] in *;
      unfold chc_insert_key, chc_remove_key, chc_maybe_remove_key in *; try (unfold within, pay; opn; lia).
    - opn. destruct (hm_get _ _ _) as [t|].
      + specialize (H t (fst lv) (snd lv)). brk; lia.
      + specialize (H0 (fst lv) (snd lv)). brk; lia.
    - opn. destruct (hm_get _ _ _) as [t|].
      + exfalso. destruct (outcome (cv_insert CT _ _ _)) as [[t' v]|]; discriminate.
      + specialize (H (fst lv) (snd lv)). brk; lia.
    - opn. destruct (hm_get _ _ _) as [t|]; opn; [|lia]. specialize (H t). brk; lia.
    - opn. destruct (hm_get _ _ _) as [t|]; opn; [|discriminate].
      destruct (outcome (f t)) as [[ot val]|] eqn:E; opn; [|discriminate].
      destruct ot as [t'|].
      + exfalso. destruct (is_nil _); discriminate.
      + specialize (H t val E). lia.
    - opn. destruct (hm_get _ _ _) as [t|]; opn; [|lia]. specialize (H t). brk; lia.
    - opn. destruct (hm_get _ _ _) as [t|]; opn; [|discriminate].
      destruct (outcome (f t)) as [[[ot val]|t']|] eqn:E; opn; [|exfalso; destruct (is_nil _); discriminate|discriminate].
      destruct ot as [t'|].
      + exfalso. destruct (is_nil _); discriminate.
      + specialize (H t val E). destruct (is_nil _); opn; lia.
  Qed.
  Lemma bytemap_bounded : cbounded (bytemap_cost CT) CT 0.
  Proof.
    split; intros; cbn [bytemap_cost cc_create cc_get cc_get_mut cc_insert_key cc_remove_key cc_maybe_remove_key] in *;
      unfold cbc_insert_key, cbc_remove_key, cbc_maybe_remove_key, ctl_remove_key, ctl_maybe_remove_key in *;
      try (unfold within, pay; opn; lia).
    - opn. destruct (bs_insert _ _ _) as [[s' [r|]]|]; opn; [| |lia].
      + destruct (vd_get_mut _ _) as [[t put]|]; opn; [|lia]. specialize (H t (fst lv) (snd lv)). brk; lia.
      + specialize (H0 (fst lv) (snd lv)). brk; lia.
    - opn. destruct (bs_insert _ _ _) as [[s' [r|]]|]; opn; [| |discriminate].
      + exfalso. destruct (vd_get_mut _ _) as [[t put]|]; opn; [|discriminate]. destruct (outcome (cv_insert CT _ _ _)) as [[t' v]|]; discriminate.
      + specialize (H (fst lv) (snd lv)). brk; lia.
    - opn. destruct (bs_find _ _) as [o|]; opn; [|lia]. destruct (debug_assert _); opn; [|lia].
      destruct (vd_get _ _) as [t|]; opn; [|lia]. specialize (H t). brk; lia.
    - opn. destruct (bs_find _ _) as [o|]; opn; [|discriminate]. destruct (debug_assert _); opn; [|discriminate].
      destruct (vd_get _ _) as [t|]; opn; [|discriminate].
      destruct (outcome (f t)) as [[ot val]|] eqn:E; opn; [|discriminate].
      destruct ot as [t'|].
      + exfalso. cbn in H0. destruct (is_nil _); [destruct (@dbg Bd)|]; cbn in H0; discriminate.
      + specialize (H t val E). brk; lia.
    - opn. destruct (bs_find _ _) as [o|]; opn; [|lia]. destruct (is_none o); opn; [lia|].
      destruct (vd_get _ _) as [t|]; opn; [|lia]. specialize (H t). brk; lia.
    - opn. destruct (bs_find _ _) as [o|]; opn; [|discriminate]. destruct (is_none o); opn; [discriminate|].
      destruct (vd_get _ _) as [t|]; opn; [|discriminate].
      destruct (outcome (f t)) as [[[ot val]|t']|] eqn:E; opn; [|discriminate|discriminate].
      destruct ot as [t'|].
      + exfalso. cbn in H0. destruct (is_nil _); [destruct (@dbg Bd)|]; cbn in H0; discriminate.
      + specialize (H t val E). brk; lia.
  Qed.
  Lemma boxcoll_bounded {Hi} {C : CollOps Hi Lo V Tr} (CC : CColl C) a : cbounded CC CT a -> cbounded (boxcoll_cost CC) CT a.
  Proof.
    intros [B1 B2 B3 B4 N4 B5 N5 B6 N6].
    split; intros; cbn [boxcoll_cost cc_create cc_get cc_get_mut cc_insert_key cc_remove_key cc_maybe_remove_key] in *;
      auto using within_map.
    - specialize (B4 (unbox c) h lv B s H H0). brk; lia.
    - specialize (N4 (unbox c) h lv). opn. destruct (outcome (cc_insert_key CC _ _ _)) as [[c1 r]|]; cbn in *; [|discriminate].
      inversion H0; subst. specialize (N4 c1 h' H eq_refl). lia.
    - specialize (N5 (unbox c) h f B). opn. destruct (outcome (cc_remove_key CC _ _ _)) as [[[[c1 b]|] q]|]; cbn in *; try discriminate.
      inversion H0; subst. specialize (N5 c1 p H eq_refl). lia.
    - specialize (B6 (unbox c) h f B H). brk; lia.
    - specialize (N6 (unbox c) h f B). opn. destruct (outcome (cc_maybe_remove_key CC _ _ _)) as [[[[[c1 b]|] q]|c1]|]; cbn in *; try discriminate.
      inversion H0; subst. specialize (N6 c1 p H eq_refl). lia.
  Qed.
End CollBounds.

Section TreeBounds.
  Context (fixed : bool) {K Hi Lo V : Type} (ko : KeyOps K Hi Lo) {S : VebOps Hi unit} {Tr : VebOps Lo V}
    {C : CollOps Hi Lo V Tr} (CS : CVeb S) (CT : CVeb Tr) (CC : CColl C) (d s a : N).
  Context (HS : bounded CS d s) (HT : bounded CT d s) (HC : cbounded CC CT a).

  (** take one step of a computation: [m] costs at most [c] and [z], the rest is bounded by what is left *)
  Lemma within_bind {A B} (m : cres A) (f : A -> cres B) c z c' z' : within m c z ->
    (forall x, outcome m = Ret x -> within (f x) c' z') -> within (cbind m f) (c + c') (z + z').
  Proof.
    intros [H1 H2] H. unfold cbind, within in *. destruct (outcome m) as [x|]; cbn [calls slots].
    - destruct (H x eq_refl). lia.
    - lia.
  Qed.
  Lemma within_case {A B} (m : cres A) (f : A -> cres B) c z :
    (forall x, outcome m = Ret x -> calls m + calls (f x) <= c /\ slots m + slots (f x) <= z) -> within m c z ->
    within (cbind m f) c z.
  Proof. intros H H0. unfold cbind, within. destruct (outcome m) as [x|]; cbn [calls slots]; [apply (H x eq_refl)|exact H0]. Qed.
  Lemma within_tick {A} (m : cres A) c z : within m c z -> within (tick m) (1 + c) z.
  Proof. unfold within, tick. cbn [calls slots]. lia. Qed.
  Lemma within_ret {A} (x : A) c z : within (cret x) c z.
  Proof. unfold within, cret, free, pay. cbn [calls slots]. lia. Qed.
  Lemma within_panic {A} c z : within (@cpanic A) c z.
  Proof. unfold within, cpanic, free, pay. cbn [calls slots]. lia. Qed.
  Lemma within_free {A} (m : res A) c z : within (free m) c z.
  Proof. unfold within, free, pay. cbn [calls slots]. lia. Qed.
  Lemma within_le {A} (m : cres A) c z c' z' : within m c z -> c <= c' -> z <= z' -> within m c' z'.
  Proof. unfold within. lia. Qed.
  Lemma within_bind0 {A B} (m : cres A) (f : A -> cres B) c c' : within m c 0 ->
    (forall x, outcome m = Ret x -> within (f x) c' 0) -> within (cbind m f) (c + c') 0.
  Proof. apply within_bind. Qed.
  Lemma within_bindf {A B} (m : res A) (f : A -> cres B) c z :
    (forall x, m = Ret x -> within (f x) c z) -> within (cbind (free m) f) c z.
  Proof. intros H. apply (within_bind (free m) f 0 0 c z); [apply within_free|auto]. Qed.

  Let T : Type := @Tree K Hi Lo V S Tr C.
  Lemma find_bounded (t : T) k : within (ctr_find ko CT CC t k) (2 * (1 + d) + 1) 0.
  Proof.
    apply (within_le _ (1 + (1 + (2 * d + 1))) 0); [|lia|lia]. unfold ctr_find. apply within_tick.
    destruct (k_cmp ko k _); try apply within_ret. destruct (t_data t) as [d0|]; [|apply within_ret].
    destruct (eqb _ _ _); [apply within_ret|]. destruct (d_children d0) as [[s0 ch]|]; [|apply within_ret].
    destruct (k_split_ref ko k) as [hi lo]. apply within_bind0; [apply (b_get _ _ _ HC)|]. intros [child|] _; [|apply within_ret].
    rewrite <- (N.add_0_r (2 * d + 1)). apply within_bind0; [apply (b_find _ _ _ HT)|]. intros [[lo' v]|] _; apply within_ret.
  Qed.
  Lemma find_mut_bounded (t : T) k : within (ctr_find_mut ko CT CC t k) (2 * (1 + d) + 1) 0.
  Proof.
    apply (within_le _ (1 + (1 + (2 * d + 1))) 0); [|lia|lia]. unfold ctr_find_mut. apply within_tick.
    destruct (k_cmp ko k _); try apply within_ret. destruct (t_data t) as [d0|]; [|apply within_ret].
    destruct (eqb _ _ _); [apply within_ret|]. destruct (d_children d0) as [[s0 ch]|]; [|apply within_ret].
    destruct (k_split_ref ko k) as [hi lo]. apply within_bind0; [apply (b_get_mut _ _ _ HC)|].
    intros [[child put]|] _; [|apply within_ret].
    rewrite <- (N.add_0_r (2 * d + 1)). apply within_bind0; [apply (b_find_mut _ _ _ HT)|]. intros [[[lo' v] putv]|] _; apply within_ret.
  Qed.
  Lemma child_end_bounded ch hi ext : (forall t, within (ext t) 1 0) -> within (cchild_end ko CC ch hi ext) 2 0.
  Proof.
    intros H. apply (within_bind0 _ _ 1 1); [apply (b_get _ _ _ HC)|]. intros oc _.
    apply within_bindf. intros child _. apply (within_bind0 _ _ 1 0); [apply H|]. intros [lo v] _. apply within_ret.
  Qed.
  Lemma child_end_mut_bounded (t : T) d0 s0 ch hi ext : (forall t, within (ext t) 1 0) ->
    within (cchild_end_mut ko CC t d0 s0 ch hi ext) 2 0.
  Proof.
    intros H. apply (within_bind0 _ _ 1 1); [apply (b_get_mut _ _ _ HC)|]. intros oc _.
    apply within_bindf. intros [child put] _. apply (within_bind0 _ _ 1 0); [apply H|]. intros [[lo v] putv] _. apply within_ret.
  Qed.
  (** the search in a child that may fail, then in the summary *)
  Lemma search_bounded {A B D} (oc : option D) (q : D -> cres (option A)) (rest : option A -> cres B) n :
    (forall t, within (q t) n 0) -> (forall t, outcome (q t) = Ret None -> calls (q t) <= 1) ->
    (forall x, within (rest (Some x)) 0 0) -> within (rest None) (n + 2) 0 ->
    within (o <~ (match oc with Some t => q t | None => cret None end) ;; rest o) (n + 3) 0.
  Proof.
    intros H1 H2 H3 H4. destruct oc as [t|].
    - specialize (H1 t). specialize (H2 t). unfold within, cbind in *. destruct (outcome (q t)) as [[x|]|]; cbn [calls slots].
      + specialize (H3 x). lia.
      + specialize (H2 eq_refl). lia.
      + lia.
    - unfold cbind, cret, free, pay, within in *. cbn [outcome calls slots]. lia.
  Qed.

  Lemma pred_bounded (t : T) k : within (ctr_predecessor ko CS CT CC t k) (5 * (1 + d) + 1) 0.
  Proof.
    apply (within_le _ (1 + (1 + ((5 * d + 1) + 3))) 0); [|lia|lia]. unfold ctr_predecessor. apply within_tick.
    destruct (leb _ _ _); [apply within_ret|]. destruct (t_data t) as [d0|]; [|apply within_ret].
    destruct (k_cmp ko k _); try apply within_ret; destruct (d_children d0) as [[s0 ch]|]; try apply within_ret.
    - apply (within_le _ (1 + 2) 0); [|lia|lia]. apply within_bind0; [apply (b_max_val _ _ _ HS)|]. intros [hi x] _.
      apply child_end_bounded. apply (b_max_val _ _ _ HT).
    - destruct (k_split_ref ko k) as [hi lo]. apply within_bind0; [apply (b_get _ _ _ HC)|]. intros oc _.
      apply (search_bounded oc (fun child => cv_predecessor CT child lo)).
      + intros child. apply (b_predecessor _ _ _ HT).
      + intros child. apply (n_predecessor _ _ _ HT).
      + intros [lo' v]. apply within_ret.
      + apply within_bind0; [apply (b_predecessor _ _ _ HS)|]. intros [[hi' x]|] _; [|apply within_ret].
        apply child_end_bounded. apply (b_max_val _ _ _ HT).
  Qed.
  Lemma succ_bounded (t : T) k : within (ctr_successor ko CS CT CC t k) (5 * (1 + d) + 1) 0.
  Proof.
    apply (within_le _ (1 + (1 + ((5 * d + 1) + 3))) 0); [|lia|lia]. unfold ctr_successor. apply within_tick.
    destruct (ltb _ _ _); [apply within_ret|]. destruct (t_data t) as [d0|]; [|apply within_ret].
    destruct (leb _ _ _); [apply within_ret|]. destruct (d_children d0) as [[s0 ch]|]; [|apply within_ret].
    destruct (eqb _ _ _).
    - apply (within_le _ (1 + 2) 0); [|lia|lia]. apply within_bind0; [apply (b_min_val _ _ _ HS)|]. intros [hi x] _.
      apply child_end_bounded. apply (b_min_val _ _ _ HT).
    - destruct (k_split_ref ko k) as [hi lo]. apply within_bind0; [apply (b_get _ _ _ HC)|]. intros oc _.
      apply (search_bounded oc (fun child => cv_successor CT child lo)).
      + intros child. apply (b_successor _ _ _ HT).
      + intros child. apply (n_successor _ _ _ HT).
      + intros [lo' v]. apply within_ret.
      + apply within_bind0; [apply (b_successor _ _ _ HS)|]. intros [[hi' x]|] _; [|apply within_ret].
        apply child_end_bounded. apply (b_min_val _ _ _ HT).
  Qed.
  Lemma pred_mut_bounded (t : T) k : within (ctr_predecessor_mut ko CS CT CC t k) (5 * (1 + d) + 1) 0.
  Proof.
    apply (within_le _ (1 + (1 + ((5 * d + 1) + 3))) 0); [|lia|lia]. unfold ctr_predecessor_mut. apply within_tick.
    destruct (leb _ _ _); [apply within_ret|]. destruct (t_data t) as [d0|]; [|apply within_ret].
    destruct (k_cmp ko k _); try apply within_ret; destruct (d_children d0) as [[s0 ch]|]; try apply within_ret.
    - apply within_bindf. intros _ _. apply (within_le _ (1 + 2) 0); [|lia|lia]. apply within_bind0; [apply (b_max_val _ _ _ HS)|]. intros [hi x] _.
      apply child_end_mut_bounded. apply (b_max_val_mut _ _ _ HT).
    - destruct (k_split_ref ko k) as [hi lo]. apply within_bind0; [apply (b_get_mut _ _ _ HC)|]. intros oc _.
      match goal with |- within (cbind (match oc with Some p => _ | None => _ end) ?r) _ _ =>
        apply (within_le _ (5 * d + 1 + 3) 0); [|lia|lia]; 
        apply (search_bounded oc (fun '(child, put) => o' <~ cv_predecessor_mut CT child lo ;;
                 cret (match o' with Some x => Some (x, put) | None => None end)) r) end.
      + intros [child put]. rewrite <- (N.add_0_r (5 * d + 1)). apply within_bind0; [apply (b_predecessor_mut _ _ _ HT)|].
        intros; apply within_ret.
      + intros [child put]. pose proof (n_predecessor_mut _ _ _ HT child lo) as Hn. unfold cbind, cret, free, pay.
        destruct (outcome (cv_predecessor_mut CT child lo)) as [[x|]|]; cbn [outcome calls]; intros; try discriminate.
        specialize (Hn eq_refl). lia.
      + intros [[[lo' v] putv] put]. apply within_ret.
      + apply within_bind0; [apply (b_predecessor _ _ _ HS)|]. intros [[hi' x]|] _; [|apply within_ret].
        apply child_end_mut_bounded. apply (b_max_val_mut _ _ _ HT).
  Qed.
  Lemma succ_mut_bounded (t : T) k : within (ctr_successor_mut ko CS CT CC t k) (5 * (1 + d) + 1) 0.
  Proof.
    apply (within_le _ (1 + (1 + ((5 * d + 1) + 3))) 0); [|lia|lia]. unfold ctr_successor_mut. apply within_tick.
    destruct (ltb _ _ _); [apply within_ret|]. destruct (t_data t) as [d0|]; [|apply within_ret].
    destruct (leb _ _ _); [apply within_ret|]. destruct (d_children d0) as [[s0 ch]|]; [|apply within_ret].
    destruct (eqb _ _ _).
    - apply (within_le _ (1 + 2) 0); [|lia|lia]. apply within_bind0; [apply (b_min_val _ _ _ HS)|]. intros [hi x] _.
      apply child_end_mut_bounded. apply (b_min_val_mut _ _ _ HT).
    - destruct (k_split_ref ko k) as [hi lo]. apply within_bind0; [apply (b_get_mut _ _ _ HC)|]. intros oc _.
      match goal with |- within (cbind (match oc with Some p => _ | None => _ end) ?r) _ _ =>
        apply (search_bounded oc (fun '(child, put) => o' <~ cv_successor_mut CT child lo ;;
                 cret (match o' with Some x => Some (x, put) | None => None end)) r) end.
      + intros [child put]. rewrite <- (N.add_0_r (5 * d + 1)). apply within_bind0; [apply (b_successor_mut _ _ _ HT)|].
        intros; apply within_ret.
      + intros [child put]. pose proof (n_successor_mut _ _ _ HT child lo) as Hn. unfold cbind, cret, free, pay.
        destruct (outcome (cv_successor_mut CT child lo)) as [[x|]|]; cbn [outcome calls]; intros; try discriminate.
        specialize (Hn eq_refl). lia.
      + intros [[[lo' v] putv] put]. apply within_ret.
      + apply within_bind0; [apply (b_successor _ _ _ HS)|]. intros [[hi' x]|] _; [|apply within_ret].
        apply child_end_mut_bounded. apply (b_min_val_mut _ _ _ HT).
  Qed.

  Lemma push_bounded mn mx och k v : within (ctr_push ko CS CT CC mn mx och k v) (3 * d + 3) (N.max a s).
  Proof.
    unfold ctr_push. destruct (k_split_val ko k) as [hi lo]. destruct och as [[s0 ch]|].
    - pose proof (b_insert_key _ _ _ HC ch hi (lo, v) _ _ (b_insert _ _ _ HT) (b_from_monad _ _ _ HT)) as [H1 H2].
      pose proof (fun c' h' => n_insert_key _ _ _ HC ch hi (lo, v) c' h' (b_from_monad _ _ _ HT)) as Hn.
      unfold within, cbind at 1 3. destruct (outcome (cc_insert_key CC ch hi (lo, v))) as [[ch' [h'|[h' [[lo' v']|]]]]|]; cbn [calls slots].
      + destruct (Hn ch' h' eq_refl) as [H3 H4]. pose proof (b_insert _ _ _ HS s0 h' tt) as [H5 H6].
        unfold cbind. destruct (outcome (cv_insert CS s0 h' tt)) as [[s1 r]|]; unfold cret, free, pay; cbn [calls slots]; lia.
      + unfold cret, free, pay; cbn [calls slots]; lia.
      + unfold cret, free, pay; cbn [calls slots]; lia.
      + lia.
    - apply (within_le _ (1 + (1 + (1 + 0))) (0 + (a + (0 + 0)))); [|lia|lia].
      apply within_bind; [apply (b_from_monad _ _ _ HT)|]. intros t0 _.
      apply within_bind; [apply (b_create _ _ _ HC)|]. intros c0 _.
      apply within_bind; [apply (b_from_monad _ _ _ HS)|]. intros s0 _. apply within_ret.
  Qed.
  Lemma insert_bounded (t : T) k v : within (ctr_insert fixed ko CS CT CC t k v) (3 * (1 + d) + 1) (N.max a s).
  Proof.
    apply (within_le _ (1 + (3 * d + 3)) (N.max a s)); [|lia|lia]. unfold ctr_insert. apply within_tick.
    destruct (k_cmp ko k _); destruct (t_data t) as [d0|]; try apply within_ret.
    - destruct (t_min t) as [k1 v1]. destruct (k_cmp ko _ k1); [apply within_ret|apply push_bounded|].
      destruct fixed; apply push_bounded.
    - destruct (k_cmp ko k _); [apply within_ret|apply push_bounded|apply push_bounded].
  Qed.

  (** taking an extreme out of the child of an extreme *)
  Lemma take_bounded {B} (s0 : vt S) ch hi (rmT : vt Tr -> cres (option (vt Tr) * (Lo * V))) rmS
    (build : option (vt S * ct C) -> Lo -> V -> B) :
    (forall t, within (rmT t) (4 * d + 1) 0) -> (forall t p, outcome (rmT t) = Ret (None, p) -> calls (rmT t) <= 1) ->
    (forall t, within (rmS t) (4 * d + 1) 0) ->
    within (' (r, (lo, val)) <~ cc_remove_key CC ch hi rmT ;; x <~ cafter_end s0 r rmS ;; cret (build x lo val)) (4 * d + 3) 0.
  Proof.
    intros H1 H2 H3. pose proof (b_remove_key _ _ _ HC ch hi rmT _ H1) as [H4 H5].
    pose proof (fun c' p => n_remove_key _ _ _ HC ch hi rmT 1 c' p H2) as Hn.
    unfold within, cbind at 1 3. destruct (outcome (cc_remove_key CC ch hi rmT)) as [[[[c' [|]]|] [lo v]]|]; cbn [calls slots].
    - specialize (Hn c' (lo, v) eq_refl). destruct (H3 s0) as [H6 H7]. unfold cafter_end, cbind.
      destruct (outcome (rmS s0)) as [[os x]|]; [|cbn [outcome calls slots]; lia].
      destruct os as [s1|]; unfold cret, free, pay; cbn [outcome expect calls slots]; lia.
    - unfold cafter_end, cbind, cret, free, pay. cbn [outcome calls slots]. lia.
    - unfold cafter_end, cbind, cret, free, pay. cbn [outcome calls slots]. lia.
    - lia.
  Qed.
  Lemma remove_min_bounded (t : T) : within (ctr_remove_min ko CS CT CC t) (4 * (1 + d) + 1) 0.
  Proof.
    apply (within_le _ (1 + (1 + (4 * d + 3))) 0); [|lia|lia]. unfold ctr_remove_min. apply within_tick.
    destruct (t_data t) as [d0|]; [|apply within_ret]. destruct (d_children d0) as [[s0 ch]|]; [|apply within_ret].
    apply within_bind0; [apply (b_min_val _ _ _ HS)|]. intros [hi x] _.
    apply (take_bounded s0 ch hi _ _ (fun ch lo val => (Some (TR (k_join ko hi lo, val) (Some (TD (d_max d0) ch))), t_min t))).
    - apply (b_remove_min _ _ _ HT).
    - apply (n_remove_min _ _ _ HT).
    - apply (b_remove_min _ _ _ HS).
  Qed.
  Lemma remove_max_bounded (t : T) : within (ctr_remove_max ko CS CT CC t) (4 * (1 + d) + 1) 0.
  Proof.
    apply (within_le _ (1 + (1 + (4 * d + 3))) 0); [|lia|lia]. unfold ctr_remove_max. apply within_tick.
    destruct (t_data t) as [d0|]; [|apply within_ret]. destruct (d_children d0) as [[s0 ch]|]; [|apply within_ret].
    apply within_bind0; [apply (b_max_val _ _ _ HS)|]. intros [hi x] _.
    apply (take_bounded s0 ch hi _ _ (fun ch lo val => (Some (TR (t_min t) (Some (TD (k_join ko hi lo, val) ch))), d_max d0))).
    - apply (b_remove_max _ _ _ HT).
    - apply (n_remove_max _ _ _ HT).
    - apply (b_remove_max _ _ _ HS).
  Qed.
  Lemma remove_bounded (t : T) k : within (ctr_remove ko CS CT CC t k) (4 * (1 + d) + 2) 0.
  Proof.
    apply (within_le _ (1 + (4 * (1 + d) + 1)) 0); [|lia|lia]. unfold ctr_remove. apply within_tick. destruct (eqb _ _ _).
    - rewrite <- (N.add_0_r (4 * (1 + d) + 1)). apply within_bind0; [apply remove_min_bounded|]. intros. apply within_ret.
    - destruct (t_data t) as [d0|]; [|apply within_ret]. destruct (d_children d0) as [[s0 ch]|].
      2:{ destruct (eqb _ _ _); apply within_ret. }
      destruct (eqb _ _ _).
      + apply (within_le _ (1 + (4 * d + 3)) 0); [|lia|lia]. apply within_bind0; [apply (b_max_val _ _ _ HS)|]. intros [hi x] _.
        apply (take_bounded s0 ch hi _ _ (fun ch lo val => Ok (Some (TR (t_min t) (Some (TD (k_join ko hi lo, val) ch))), d_max d0))).
        * apply (b_remove_max _ _ _ HT).
        * apply (n_remove_max _ _ _ HT).
        * apply (b_remove_max _ _ _ HS).
      + destruct (k_split_ref ko k) as [hi lo].
        pose proof (b_maybe_remove_key _ _ _ HC ch hi (fun c => cv_remove CT c lo) _ (fun t => b_remove _ _ _ HT t lo)) as [H4 H5].
        pose proof (fun c' p => n_maybe_remove_key _ _ _ HC ch hi (fun c => cv_remove CT c lo) 2 c' p (fun t => n_remove _ _ _ HT t lo)) as Hn.
        apply within_case; [|unfold within; lia]. intros [[[[c' [|]]|] [lo' v]]|c'] Ho;
          try (unfold cret, free, pay; cbn [calls slots]; lia).
        specialize (Hn c' (lo', v) Ho). destruct (b_remove _ _ _ HS s0 hi) as [H6 H7]. unfold cbind.
        destruct (outcome (cv_remove CS s0 hi)) as [[[os x]|e]|];
          unfold cret, cpanic, free, pay; cbn [outcome calls slots]; try lia.
        destruct os; cbn [outcome expect calls slots]; lia.
  Qed.

  (** a computation that never returns a result of some kind, and one that returns it after at most [c] calls *)
  Definition never {A} (bad : A -> Prop) (m : cres A) := forall x, outcome m = Ret x -> bad x -> False.
  Definition small {A} (bad : A -> Prop) (m : cres A) (c : N) := forall x, outcome m = Ret x -> bad x -> calls m <= c.
  Lemma never_bind {A B} (bad : B -> Prop) (m : cres A) (f : A -> cres B) : (forall x, never bad (f x)) -> never bad (cbind m f).
  Proof. intros H y. unfold cbind. destruct (outcome m) as [x|]; cbn [outcome]; [apply H|discriminate]. Qed.
  Lemma never_ret {A} (bad : A -> Prop) x : ~ bad x -> never bad (cret x).
  Proof. unfold never, cret, free, pay. cbn [outcome]. intros H y [= <-]. exact H. Qed.
  Lemma never_panic {A} (bad : A -> Prop) : never bad cpanic.
  Proof. intros y. unfold cpanic, free, pay. cbn [outcome]. discriminate. Qed.
  Lemma small_never {A} (bad : A -> Prop) m c : never bad m -> small bad m c.
  Proof. intros H x Hx Hb. destruct (H x Hx Hb). Qed.
  Lemma small_ret {A} (bad : A -> Prop) x c : small bad (cret x) c.
  Proof. intros y _ _. unfold cret, free, pay. cbn [calls]. lia. Qed.
  Lemma small_tick {A} (bad : A -> Prop) m c : small bad m c -> small bad (tick m) (1 + c).
  Proof. intros H x Hx Hb. unfold tick in *. cbn [outcome calls] in *. specialize (H x Hx Hb). lia. Qed.
  Ltac nev := repeat first [ apply never_panic | apply never_ret; discriminate | apply never_bind; intro
    | match goal with |- context [match ?e with _ => _ end] => destruct e end ].
  Ltac sml := repeat first [ apply small_ret | apply small_never; solve [nev]
    | match goal with |- context [match ?e with _ => _ end] => destruct e end ].
  Lemma small_pred (t : T) k : outcome (ctr_predecessor ko CS CT CC t k) = Ret None -> calls (ctr_predecessor ko CS CT CC t k) <= 1.
  Proof.
    intros H. refine (small_tick (fun x => x = None) _ 0 _ _ H eq_refl). unfold cchild_end. sml.
  Qed.
  Lemma small_pred_mut (t : T) k : outcome (ctr_predecessor_mut ko CS CT CC t k) = Ret None ->
    calls (ctr_predecessor_mut ko CS CT CC t k) <= 1.
  Proof.
    intros H. refine (small_tick (fun x => x = None) _ 0 _ _ H eq_refl). unfold cchild_end_mut. sml.
  Qed.
  Lemma small_succ (t : T) k : outcome (ctr_successor ko CS CT CC t k) = Ret None -> calls (ctr_successor ko CS CT CC t k) <= 1.
  Proof.
    intros H. refine (small_tick (fun x => x = None) _ 0 _ _ H eq_refl). unfold cchild_end. sml.
  Qed.
  Lemma small_succ_mut (t : T) k : outcome (ctr_successor_mut ko CS CT CC t k) = Ret None ->
    calls (ctr_successor_mut ko CS CT CC t k) <= 1.
  Proof.
    intros H. refine (small_tick (fun x => x = None) _ 0 _ _ H eq_refl). unfold cchild_end_mut. sml.
  Qed.
  Lemma small_remove_min (t : T) : small (fun x => fst x = None) (ctr_remove_min ko CS CT CC t) 1.
  Proof. apply (small_tick _ _ 0). sml. Qed.
  Lemma small_remove_max (t : T) : small (fun x => fst x = None) (ctr_remove_max ko CS CT CC t) 1.
  Proof. apply (small_tick _ _ 0). sml. Qed.
  Lemma small_remove (t : T) k x : outcome (ctr_remove ko CS CT CC t k) = Ret (Ok x) -> fst x = None ->
    calls (ctr_remove ko CS CT CC t k) <= 2.
  Proof.
    intros H1 H2. refine (small_tick (fun y => match y with Ok x => fst x = None | Err _ => False end) _ 1 _ _ H1 H2).
    destruct (eqb _ _ _).
    - intros y Hy Hb. pose proof (small_remove_min t) as Hm. unfold small, cbind in *.
      destruct (outcome (ctr_remove_min ko CS CT CC t)) as [r|]; cbn [outcome calls] in *; [|discriminate].
      unfold cret, free, pay in *. cbn [outcome calls] in *. injection Hy as <-. specialize (Hm r eq_refl Hb). lia.
    - apply small_never. destruct (t_data t) as [d0|]; [|apply never_ret; tauto]. destruct (d_children d0) as [[s0 ch]|].
      + destruct (eqb _ _ _); nev; try (apply never_ret; tauto).
      + destruct (eqb _ _ _); apply never_ret; [discriminate|tauto].
  Qed.

  Lemma tree_bounded : bounded (tree_cost fixed ko CS CT CC) (1 + d) (N.max a s).
  Proof.
    split; intros; cbn [tree_cost cv_from_monad cv_is_monad cv_into_monad cv_min_val cv_min_val_mut
    cv_max_val cv_max_val_mut cv_find cv_find_mut cv_predecessor cv_predecessor_mut cv_successor cv_successor_mut
    cv_insert cv_remove cv_remove_min cv_remove_max] in *; try (unfold within, pay; cbn [calls slots]; lia).
    - apply find_bounded.
    - apply find_mut_bounded.
    - apply pred_bounded.
    - apply pred_mut_bounded.
    - apply succ_bounded.
    - apply succ_mut_bounded.
    - apply insert_bounded.
    - apply remove_bounded.
    - apply remove_min_bounded.
    - apply remove_max_bounded.
    - apply (small_pred t k); exact H.
    - apply (small_pred_mut t k); exact H.
    - apply (small_succ t k); exact H.
    - apply (small_succ_mut t k); exact H.
    - apply (small_remove t k (None, p)); [exact H|reflexivity].
    - apply (small_remove_min t (None, p)); [exact H|reflexivity].
    - apply (small_remove_max t (None, p)); [exact H|reflexivity].
  Qed.
End TreeBounds.

Lemma coll_bounded {Lo V} {Tr : VebOps Lo V} (CT : CVeb Tr) {Hi C} (X : CollType Tr Hi C) :
  cbounded (coll_cost CT X) CT (coll_array X).
Proof.
  induction X; cbn [coll_cost coll_array]; [apply array_bounded|apply hash_bounded|apply bytemap_bounded|apply boxcoll_bounded; auto].
Qed.
Lemma type_bounded {fixed K V cmp O} (T : VebType fixed K V cmp O) : bounded (type_cost T) (depth T) (largest_array T).
Proof.
  induction T as [|V|K V cmp OL|K Hi Lo V ko KL S Tr C TS IHS TT IHT CT|K V cmp O T IH|K V cmp O T IH]; cbn [type_cost depth largest_array].
  - apply leaf_bounded.
  - apply leaf_bounded.
  - apply leaf_bounded.
  - apply tree_bounded.
    + eapply bounded_le; [| |exact IHS]; lia.
    + eapply bounded_le; [| |exact IHT]; lia.
    + apply coll_bounded.
  - apply box_bounded. auto.
  - apply sized_bounded. auto.
Qed.

(** The third insertion creates the collection of children *)
Lemma create_slots {Lo V} {Tr : VebOps Lo V} (CT : CVeb Tr) {Hi C} (X : CollType Tr Hi C) h t :
  slots (cc_create (coll_cost CT X) h t) = coll_array X.
Proof.
  induction X as [Hi ix IL|Hi eq Heq| |Hi C X IHX]; cbn [coll_cost coll_array]; try reflexivity.
  { cbn [array_cost cc_create pay slots]. apply CollProofs.card_fits, (CollProofs.idx_card IL). }
  cbn [boxcoll_cost cc_create]. unfold cmap, cbind. rewrite <- (IHX h).
  destruct (outcome (cc_create (coll_cost CT X) h t)); unfold cret, free, pay; cbn [slots]; lia.
Qed.
Lemma push_slots fixed {K Hi Lo V} (ko : KeyOps K Hi Lo) {S : VebOps Hi unit} {Tr : VebOps Lo V} {C : CollOps Hi Lo V Tr}
  {c1 c2} (TS : VebType fixed Hi unit c1 S) (TT : VebType fixed Lo V c2 Tr) (X : CollType Tr Hi C) mn mx k v :
  slots (ctr_push ko (type_cost TS) (type_cost TT) (coll_cost (type_cost TT) X) mn mx None k v) = coll_array X.
Proof.
  unfold ctr_push. destruct (k_split_val ko k) as [hi lo].
  pose proof (b_from_monad _ _ _ (type_bounded TT) lo v) as [_ H1]. pose proof (e_from_monad _ (type_erases TT) lo v) as H2.
  unfold cbind at 1. rewrite H2. cbn [slots]. pose proof (create_slots (type_cost TT) X hi (v_from_monad Tr lo v)) as H3.
  unfold cbind at 1. destruct (outcome (cc_create (coll_cost (type_cost TT) X) hi (v_from_monad Tr lo v))) as [ch|]; cbn [slots]; [|lia].
  pose proof (b_from_monad _ _ _ (type_bounded TS) hi tt) as [_ H4]. unfold cbind.
  destruct (outcome (cv_from_monad (type_cost TS) hi tt)); unfold cret, free, pay; cbn [slots]; lia.
Qed.
Lemma third_insert {fixed K V cmp O} (T : VebType fixed K V cmp O) : forall a va b vb c vc t1 r1, a <> b -> a <> c -> b <> c ->
  v_insert O (v_from_monad O a va) b vb = Ret (t1, r1) ->
  slots (cv_insert (type_cost T) (v_from_monad O a va) b vb) = 0 /\ slots (cv_insert (type_cost T) t1 c vc) = first_array T.
Proof.
  induction T as [|V|K V cmp OL|K Hi Lo V ko KL S Tr C TS IHS TT IHT CT|K V cmp O T IH|K V cmp O T IH]; cbn [type_cost first_array];
    intros a va b vb c vc t1 r1 Hab Hac Hbc Hi1; try (split; reflexivity).
  - pose proof (type_ord (VT_Tree fixed K Hi Lo V ko KL S Tr C TS TT CT)) as OL.
    cbn [tree_cost cv_insert Tree_ops v_insert v_from_monad] in *. unfold tr_insert, tr_from_monad in Hi1. cbn [t_min t_data fst] in Hi1.
    unfold ctr_insert at 1, tr_from_monad. cbn [t_min t_data fst].
    assert (Hne : forall x y, x <> y -> k_cmp ko x y <> Eq).
    { intros x y H E. apply H. apply (cmp_eq OL). exact E. }
    assert (Hba := Hne b a (not_eq_sym Hab)). assert (Hca := Hne c a (not_eq_sym Hac)). assert (Hcb := Hne c b (not_eq_sym Hbc)).
    assert (Hab' := Hne a b Hab).
    destruct (k_cmp ko b a) eqn:Eba; [congruence| |]; injection Hi1 as <- <-; (split; [reflexivity|]);
      unfold ctr_insert, tick; cbn [t_min t_data fst snd d_max d_children slots].
    + destruct (k_cmp ko c b); [congruence| |].
      * destruct (k_cmp ko a b); [congruence| |]; [|destruct fixed]; apply push_slots.
      * destruct (k_cmp ko c a); [congruence| |]; apply push_slots.
    + destruct (k_cmp ko c a); [congruence| |].
      * rewrite Eba. destruct fixed; apply push_slots.
      * destruct (k_cmp ko c b); [congruence| |]; apply push_slots.
  - cbn [Box_ops v_insert v_from_monad box_cost cv_insert unbox] in *.
    destruct (v_insert O (v_from_monad O a va) b vb) as [[t2 r2]|] eqn:E; [|discriminate Hi1]. injection Hi1 as <- <-.
    destruct (IH a va b vb c vc t2 r2 Hab Hac Hbc E) as [H1 H2].
    split; unfold cbind; [rewrite <- H1|rewrite <- H2]; cbn [unbox];
      match goal with |- slots (match outcome ?m with _ => _ end) = _ => destruct (outcome m) as [[? ?]|] end;
      unfold cret, free, pay; cbn [slots]; lia.
  - cbn [Sized_ops v_insert v_from_monad sized_cost cv_insert] in *. unfold sz_insert in Hi1. cbn [sz_tree sz_size] in Hi1.
    destruct (v_insert O (v_from_monad O a va) b vb) as [[t2 r2]|] eqn:E; [|discriminate Hi1].
    destruct (IH a va b vb c vc t2 r2 Hab Hac Hbc E) as [H1 H2].
    assert (Ht : sz_tree t1 = t2).
    { cbn [bind] in Hi1. destruct r2; [injection Hi1 as <- <-; reflexivity|].
      destruct (expect (checked_add 1 1)); [|discriminate Hi1]. injection Hi1 as <- <-. reflexivity. }
    split; unfold csz_insert, cbind; [rewrite <- H1|rewrite <- H2]; rewrite ?Ht; cbn [sz_tree sz_size];
      match goal with |- slots (match outcome ?m with _ => _ end) = _ => destruct (outcome m) as [[? [?|]]|] end;
      unfold cret, free, pay; cbn [slots outcome]; try lia;
      match goal with |- context [expect (checked_add ?x ?y)] => destruct (expect (checked_add x y)) end; cbn [slots outcome]; lia.
Qed.

(** *** The theorems *)
Lemma cost_faithful fixed K V cmp (O : VebOps K V) (T : VebType fixed K V cmp O) :
  let CO := type_cost T in
  (forall k v, outcome (cv_from_monad CO k v) = Ret (v_from_monad O k v)) /\
  (forall t, outcome (cv_is_monad CO t) = v_is_monad O t) /\
  (forall t, outcome (cv_into_monad CO t) = v_into_monad O t) /\
  (forall t, outcome (cv_min_val CO t) = v_min_val O t) /\
  (forall t, outcome (cv_min_val_mut CO t) = v_min_val_mut O t) /\
  (forall t, outcome (cv_max_val CO t) = v_max_val O t) /\
  (forall t, outcome (cv_max_val_mut CO t) = v_max_val_mut O t) /\
  (forall t k, outcome (cv_find CO t k) = v_find O t k) /\
  (forall t k, outcome (cv_find_mut CO t k) = v_find_mut O t k) /\
  (forall t k, outcome (cv_predecessor CO t k) = v_predecessor O t k) /\
  (forall t k, outcome (cv_predecessor_mut CO t k) = v_predecessor_mut O t k) /\
  (forall t k, outcome (cv_successor CO t k) = v_successor O t k) /\
  (forall t k, outcome (cv_successor_mut CO t k) = v_successor_mut O t k) /\
  (forall t k v, outcome (cv_insert CO t k v) = v_insert O t k v) /\
  (forall t k, outcome (cv_remove CO t k) = v_remove O t k) /\
  (forall t, outcome (cv_remove_min CO t) = v_remove_min O t) /\
  (forall t, outcome (cv_remove_max CO t) = v_remove_max O t).
Proof. destruct (type_erases T). cbv zeta. repeat (split; [assumption|]). assumption. Qed.
Lemma cost_calls fixed K V cmp (O : VebOps K V) (T : VebType fixed K V cmp O) :
  let CO := type_cost T in
  (forall k v, calls (cv_from_monad CO k v) <= 1) /\
  (forall t, calls (cv_is_monad CO t) <= 1) /\
  (forall t, calls (cv_into_monad CO t) <= 1) /\
  (forall t, calls (cv_min_val CO t) <= 1) /\
  (forall t, calls (cv_min_val_mut CO t) <= 1) /\
  (forall t, calls (cv_max_val CO t) <= 1) /\
  (forall t, calls (cv_max_val_mut CO t) <= 1) /\
  (forall t k, calls (cv_find CO t k) <= 2 * depth T + 1) /\
  (forall t k, calls (cv_find_mut CO t k) <= 2 * depth T + 1) /\
  (forall t k, calls (cv_predecessor CO t k) <= 5 * depth T + 1) /\
  (forall t k, calls (cv_predecessor_mut CO t k) <= 5 * depth T + 1) /\
  (forall t k, calls (cv_successor CO t k) <= 5 * depth T + 1) /\
  (forall t k, calls (cv_successor_mut CO t k) <= 5 * depth T + 1) /\
  (forall t k v, calls (cv_insert CO t k v) <= 3 * depth T + 1) /\
  (forall t k, calls (cv_remove CO t k) <= 4 * depth T + 2) /\
  (forall t, calls (cv_remove_min CO t) <= 4 * depth T + 1) /\
  (forall t, calls (cv_remove_max CO t) <= 4 * depth T + 1).
Proof.
  destruct (type_bounded T) as [B1 B2 B3 B4 B5 B6 B7 B8 B9 B10 B11 B12 B13 B14 B15 B16 B17 _ _ _ _ _ _ _]. cbv zeta.
  unfold within in *. repeat split; intros; first [apply B1|apply B2|apply B3|apply B4|apply B5|apply B6|apply B7|apply B8|apply B9
    |apply B10|apply B11|apply B12|apply B13|apply B14|apply B15|apply B16|apply B17].
Qed.
Lemma cost_slots fixed K V cmp (O : VebOps K V) (T : VebType fixed K V cmp O) :
  let CO := type_cost T in
  (forall k v, slots (cv_from_monad CO k v) = 0) /\
  (forall t, slots (cv_is_monad CO t) = 0) /\
  (forall t, slots (cv_into_monad CO t) = 0) /\
  (forall t, slots (cv_min_val CO t) = 0) /\
  (forall t, slots (cv_min_val_mut CO t) = 0) /\
  (forall t, slots (cv_max_val CO t) = 0) /\
  (forall t, slots (cv_max_val_mut CO t) = 0) /\
  (forall t k, slots (cv_find CO t k) = 0) /\
  (forall t k, slots (cv_find_mut CO t k) = 0) /\
  (forall t k, slots (cv_predecessor CO t k) = 0) /\
  (forall t k, slots (cv_predecessor_mut CO t k) = 0) /\
  (forall t k, slots (cv_successor CO t k) = 0) /\
  (forall t k, slots (cv_successor_mut CO t k) = 0) /\
  (forall t k v, slots (cv_insert CO t k v) <= largest_array T) /\
  (forall t k, slots (cv_remove CO t k) = 0) /\
  (forall t, slots (cv_remove_min CO t) = 0) /\
  (forall t, slots (cv_remove_max CO t) = 0).
Proof.
  destruct (type_bounded T) as [B1 B2 B3 B4 B5 B6 B7 B8 B9 B10 B11 B12 B13 B14 B15 B16 B17 _ _ _ _ _ _ _]. cbv zeta.
  unfold within in *. repeat split; intros; first [apply B14|apply N.le_0_r];
   first [apply B1|apply B2|apply B3|apply B4|apply B5|apply B6|apply B7|apply B8|apply B9
    |apply B10|apply B11|apply B12|apply B13|apply B15|apply B16|apply B17].
Qed.
Lemma depth_markers {W16 : Wide (2 ^ 16)} {W32 : Wide (2 ^ 32)} fixed V :
  (depth (T8E fixed) = N.log2 8 - 3 /\ depth (T16E fixed) = N.log2 16 - 3 /\
   depth (T32E fixed) = N.log2 32 - 3 /\ depth (T64E fixed) = N.log2 64 - 3) /\
  (depth (T8 fixed V) = N.log2 8 - 3 /\ depth (T16 fixed V) = N.log2 16 - 3 /\
   depth (T32 fixed V) = N.log2 32 - 3 /\ depth (T64 fixed V) = N.log2 64 - 3).
Proof. repeat split. Qed.
Lemma arrays_markers {W16 : Wide (2 ^ 16)} {W32 : Wide (2 ^ 32)} fixed V :
  (first_array (T8E fixed) = 0 /\ first_array (T16E fixed) = 2 ^ 8 /\
   first_array (T32E fixed) = 2 ^ 16 /\ first_array (T64E fixed) = 2 ^ 32) /\
  (first_array (T8 fixed V) = 0 /\ first_array (T16 fixed V) = 2 ^ 8 /\
   first_array (T32 fixed V) = 2 ^ 16 /\ first_array (T64 fixed V) = 2 ^ 32) /\
  largest_array (T64 fixed V) = 2 ^ 32.
Proof. repeat split. Qed.
End AllBuilds.
