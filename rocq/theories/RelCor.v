(** A build without checks answers as one with them, wherever the latter answers. *)
From Verif Require Import Base Ints Ops Spec ByteSet ByteMap Coll Boxed BTree SizedT Tree Lists Laws ByteSetProofs ByteMapProofs BTreeProofs CollProofs
  Hist Types HistProofs TypesProofs HistCor Sim TreeSim CollSim LeafSim Core CoreCor Rel Iter IterSpec IterProofs BitSpec BitCor Fits FitsCor.

Section Rel.
  Context (B' : Build) {B : Build} (Hw : (@usize_bits B <= @usize_bits B')%N).
  Lemma recompiled_idx {H} {ix : IdxOps H} (IL : IdxLaws (B := B) ix) : IdxLaws (B := B') ix.
  Proof.
    destruct IL as [f H1 H2 H3]. exists f; auto. eapply N.le_trans; [exact H3|]. apply usize_max_mono. exact Hw.
  Defined.
  Fixpoint recompiled_coll_type {Lo V Tr Hi C} (CT : @CollType B Lo V Tr Hi C) (Tr' : VebOps Lo V) :
    @CollType B' Lo V Tr' Hi (recompiled_coll B' CT Tr') :=
    match CT as CT0 in CollType _ Hi _ return @CollType B' Lo V Tr' Hi (recompiled_coll B' CT0 Tr') with
    | CT_Array _ _ ix IL => CT_Array (B := B') _ _ ix (recompiled_idx IL)
    | CT_Hash _ _ eq Heq => CT_Hash (B := B') _ _ eq Heq
    | CT_ByteMap _ => CT_ByteMap (B := B') _
    | CT_Box _ _ _ CT' => CT_Box (B := B') _ _ _ (recompiled_coll_type CT' Tr')
    end.
  Fixpoint recompiled_type {fixed K V cmp O} (T : @VebType B fixed K V cmp O) : @VebType B' fixed K V cmp (recompiled B' T) :=
    match T as T0 in VebType _ K V cmp _ return @VebType B' fixed K V cmp (recompiled B' T0) with
    | VT_ByteSet _ => VT_ByteSet (B := B') fixed
    | VT_ByteMap _ V => VT_ByteMap (B := B') fixed V
    | VT_BTree _ _ V cmp OL => VT_BTree (B := B') fixed _ V cmp OL
    | VT_Tree _ _ _ _ _ ko KL _ _ _ TS TT CT =>
        VT_Tree (B := B') fixed _ _ _ _ ko KL _ _ _ (recompiled_type TS) (recompiled_type TT) (recompiled_coll_type CT (recompiled B' TT))
    | VT_Box _ _ _ _ _ T' => VT_Box (B := B') fixed _ _ _ _ (recompiled_type T')
    | VT_Sized _ _ _ _ _ T' => VT_Sized (B := B') fixed _ _ _ _ (recompiled_type T')
    end.
  Lemma recompiled_fits {fixed K V cmp O} (T : @VebType B fixed K V cmp O) : fits (recompiled_type T) = fits T.
  Proof. induction T; cbn [fits recompiled_type]; auto. rewrite IHT1, IHT2. reflexivity. Qed.
  Lemma recompiled_allowed {fixed K V cmp O} (T : @VebType B fixed K V cmp O) adm : allowed T adm -> allowed (recompiled_type T) adm.
  Proof. unfold allowed. rewrite recompiled_fits. auto. Qed.
End Rel.

(** [B] has all checks, and pointers that are not wider than those of [B'] *)
Section Same.
  Context (B' : Build) {B : Build} (Hd : @dbg B = true) (Hw : (@usize_bits B <= @usize_bits B')%N).
  Notation HB := (lenient_checked B B' Hd Hw).
  Lemma recompiled_sim {fixed K V cmp O} (T : @VebType B fixed K V cmp O) : exists R, Sim eq O (recompiled B' T) R.
  Proof.
    induction T as [|V|K V cmp OL|K Hi Lo V ko KL S Tr C TS [RS XS] TT [RT XT] CT|K V cmp O T [R X]|K V cmp O T [R X]]; cbn [recompiled].
    - eexists. apply (sorted_sim Hw (u_cmp_laws 8) (ByteSet_laws (B := B)) (ByteSet_laws (B := B'))); try (intros; exact I).
      intros t H1 H2. apply byte_keys_small. apply (L_nodup (ByteSet_laws (B := B))); auto.
    - eexists. apply (sorted_sim Hw (u_cmp_laws 8) (ByteMap_laws (B := B)) (ByteMap_laws (B := B'))); try (intros; exact I).
      intros t H1 H2. apply byte_keys_small. apply (L_nodup (ByteMap_laws (B := B))); auto.
    - eexists. apply btree_sim.
    - eexists. eapply tree_sim; [exact HB|exact XS|exact XT|].
      apply (coll_sim (coll_laws CT) (coll_panics Hd CT) (coll_laws (recompiled_coll_type B' Hw CT (recompiled B' TT))) XT (key_dec (KL_hi KL))).
    - eexists. exact (box_sim (box_sim' X)).
    - eexists. exact (sized2_sim X HB).
  Qed.
  Lemma recompiled_run {fixed K V cmp O} (T : @VebType B fixed K V cmp O) cs ot os : run O cs None = Ret (ot, os) ->
    exists ot', run (recompiled B' T) cs None = Ret (ot', os) /\ (ot = None <-> ot' = None).
  Proof.
    intros E. destruct (recompiled_sim T) as [R X]. destruct (sim_run_eq X cs None ot os None I E) as [ot' [E' H]]. exists ot'. split; auto.
    destruct ot, ot'; cbn in H; try contradiction; split; congruence.
  Qed.
  Lemma same_run {fixed K V cmp O} (T : @VebType B fixed K V cmp O) cs : (N.of_nat (length cs) <= @usize_max B)%N ->
    exists ot ot' os, run O cs None = Ret (ot, os) /\ run (recompiled B' T) cs None = Ret (ot', os) /\ (ot = None <-> ot' = None).
  Proof.
    intros Hl. assert (H := no_panic_run (type_laws T) cs Hl). destruct (run O cs None) as [[ot os]|] eqn:E; [|congruence].
    destruct (recompiled_run T cs ot os E) as [ot' [E' H']]. eauto 6.
  Qed.

  (** *** Iterators *)
  Section Iters.
    Context {K V : Type} {O O' : VebOps K V} {R : vt O -> vt O' -> Prop} (X : Sim eq O O' R) (keq : K -> K -> bool).
    Context (t : vt O) (t' : vt O') (Ht : R t t').
    Notation run1 := (it_run (B := B) O keq t).
    Notation run2 := (it_run (B := B') O' keq t').
    Lemma emit_sim (it : Iter K) d (p : K * V) : rres eq (emit (B := B) it d p) (emit (B := B') it d p).
    Proof.
      unfold emit. eapply rres_bind; [apply rres_add, HB|]. intros n _ <-. apply rres_ret. reflexivity.
    Qed.
    Lemma rp_same (p p' : K * V) : rp eq p p' -> p' = p.
    Proof. destruct p, p'. intros [H1 H2]. cbn in H1, H2. congruence. Qed.
    Lemma call_sim d it : rres eq (it_call (B := B) O keq t d it) (it_call (B := B') O' keq t' d it).
    Proof.
      assert (Hs : forall i : Iter K, rres eq (@stop K V i) (stop i)) by (intros; apply rres_eq; reflexivity).
      assert (Ha : forall i : Iter K, rres eq (_ <- debug_assert (B := B) false ;; @stop K V i) (_ <- debug_assert (B := B') false ;; stop i)).
      { intros i. cbn. rewrite Hd. apply rres_panic. }
      unfold it_call, it_next, it_next_back. destruct d; destruct (it_data it) as [[|k|k|f b]|]; try apply Hs.
      - eapply rres_bind; [apply (s_max X), Ht|]. intros p p' Hp. apply rp_same in Hp. subst p'. apply emit_sim.
      - eapply rres_bind; [apply (s_max X), Ht|]. intros p p' Hp. apply rp_same in Hp. subst p'. destruct (keq k (fst p)); [apply Hs|apply emit_sim].
      - eapply rres_bind; [apply (s_pred X), Ht|]. intros [p|] [p'|] Hp; cbn in Hp; try contradiction; [|apply Hs].
        apply rp_same in Hp. subst p'. apply emit_sim.
      - eapply rres_bind; [apply (s_pred X), Ht|]. intros [p|] [p'|] Hp; cbn in Hp; try contradiction; [|apply Ha].
        apply rp_same in Hp. subst p'. destruct (keq f (fst p)); [apply Hs|apply emit_sim].
      - eapply rres_bind; [apply (s_min X), Ht|]. intros p p' Hp. apply rp_same in Hp. subst p'. apply emit_sim.
      - eapply rres_bind; [apply (s_succ X), Ht|]. intros [p|] [p'|] Hp; cbn in Hp; try contradiction; [|apply Hs].
        apply rp_same in Hp. subst p'. apply emit_sim.
      - eapply rres_bind; [apply (s_min X), Ht|]. intros p p' Hp. apply rp_same in Hp. subst p'. destruct (keq (fst p) k); [apply Hs|apply emit_sim].
      - eapply rres_bind; [apply (s_succ X), Ht|]. intros [p|] [p'|] Hp; cbn in Hp; try contradiction; [|apply Ha].
        apply rp_same in Hp. subst p'. destruct (keq (fst p) b); [apply Hs|apply emit_sim].
    Qed.
    Lemma iter_sim dirs : forall it, rres eq (run1 dirs it) (run2 dirs it).
    Proof.
      induction dirs as [|d ds IH]; intros it; cbn [it_run]; [apply rres_eq; reflexivity|].
      eapply rres_bind; [apply call_sim|]. intros [i o] _ <-. eapply rres_bind; [apply IH|]. intros [i2 os] _ <-. apply rres_eq. reflexivity.
    Qed.
  End Iters.
  Lemma recompiled_iter {fixed K V cmp O} (T : @VebType B fixed K V cmp O) cs t os t' os' dirs it ps keq :
    run O cs None = Ret (Some t, os) -> run (recompiled B' T) cs None = Ret (Some t', os') ->
    it_run (B := B) O keq t dirs it_new = Ret (it, ps) -> it_run (B := B') (recompiled B' T) keq t' dirs it_new = Ret (it, ps).
  Proof.
    intros E E' Hi. destruct (recompiled_sim T) as [R X]. destruct (sim_run_eq X cs None _ _ None I E) as [ot' [E1 H]].
    rewrite E' in E1. injection E1 as <- <-. cbn in H. destruct (iter_sim X keq t t' H dirs it_new _ Hi) as [x [E2 <-]]. exact E2.
  Qed.
End Same.

(** *** Without checks an iterator cannot panic, whatever the tree *)
Section Release.
  Context {B : Build} (Hd : dbg = false) {K V : Type} {cmp : K -> K -> comparison} {O : VebOps K V} (L : VebLaws cmp O).
  Lemma release_emit (it : Iter K) d (p : K * V) : exists r, emit it d p = Ret r.
  Proof. unfold emit, usize_add. rewrite Hd. destruct (it_emitted it + 1 <=? usize_max)%N; cbn [bind]; eauto. Qed.
  Lemma release_call keq t d it : winv L t -> exists r, it_call O keq t d it = Ret r.
  Proof.
    intros Hw. assert (Hs : exists r, @stop K V it = Ret r) by (eexists; reflexivity).
    assert (Ha : exists r, (_ <- debug_assert false ;; @stop K V it) = Ret r) by (cbn; rewrite Hd; eexists; reflexivity).
    destruct (L_min L t Hw) as [p [Ep _]], (L_max L t Hw) as [q [Eq _]].
    unfold it_call, it_next, it_next_back. destruct d; destruct (it_data it) as [[|k|k|f b]|]; try exact Hs; rewrite ?Ep, ?Eq; cbn [bind]; try apply release_emit.
    - destruct (keq k (fst q)); [exact Hs|apply release_emit].
    - destruct (L_pred L t k Hw) as [[x|] [-> _]]; cbn [bind]; [apply release_emit|exact Hs].
    - destruct (L_pred L t b Hw) as [[x|] [-> _]]; cbn [bind]; [|exact Ha]. destruct (keq f (fst x)); [exact Hs|apply release_emit].
    - destruct (L_succ L t k Hw) as [[x|] [-> _]]; cbn [bind]; [apply release_emit|exact Hs].
    - destruct (keq (fst p) k); [exact Hs|apply release_emit].
    - destruct (L_succ L t f Hw) as [[x|] [-> _]]; cbn [bind]; [|exact Ha]. destruct (keq (fst x) b); [exact Hs|apply release_emit].
  Qed.
  Lemma release_iter keq t dirs : winv L t -> forall it, it_run O keq t dirs it <> Panic.
  Proof.
    intros Hw. induction dirs as [|d ds IH]; intros it; cbn [it_run]; [discriminate|].
    destruct (release_call keq t d it Hw) as [[i o] ->]. cbn [bind]. specialize (IH i). destruct (it_run O keq t ds i) as [[i2 os]|]; [|congruence].
    cbn. discriminate.
  Qed.
  Lemma release_hint t it : winv L t -> it_size_hint O t it <> Panic.
  Proof.
    intros Hw. unfold it_size_hint. destruct (it_data it); [|discriminate]. destruct (L_len_hint L t Hw) as [lo [hi [-> _]]]. cbn [bind].
    destruct hi as [h|]; [|discriminate]. unfold checked_sub. rewrite Hd. destruct (it_emitted it <=? h)%N; discriminate.
  Qed.
  Lemma release_reachable keq t dirs it : reachable O t ->
    it_run O keq t dirs it <> Panic /\ it_size_hint O t it <> Panic.
  Proof. intros H. apply (reachable_weak L) in H. split; [apply release_iter|apply release_hint]; auto. Qed.
End Release.

(** *** [ByteMap::remove_key] of an absent key, without checks *)
Section Absent.
  Context {B : Build} (Hd : dbg = false) {Lo V : Type} (Tr : VebOps Lo V).
  Notation C := (ByteMap_coll Tr).
  Lemma count_same s (h g : u 8) : (uval h <= uval g)%N -> (forall n, (uval h <= n)%N -> (n < uval g)%N -> has s n = false) ->
    count_below s h = count_below s g.
  Proof.
    intros Hle H. rewrite !count_below_has. apply how_many_ext. intros n _. destruct (N.ltb_spec n (uval h)) as [H1|H1].
    - assert (E : (n <? uval g)%N = true) by (apply N.ltb_lt; lia). rewrite E. reflexivity.
    - destruct (N.ltb_spec n (uval g)) as [H2|H2]; [|reflexivity]. cbn. symmetry. auto.
  Qed.
  Lemma unset_absent s (h : u 8) : has s (uval h) = false -> unset_bit s h = s.
  Proof.
    intros H. apply has_ext. intros n. rewrite unset_has. destruct (N.eqb_spec n (uval h)) as [->|E]; cbn; auto.
  Qed.
  Lemma absent_next (m : ct C) (h g : u 8) f : (uval h < uval g)%N -> (forall n, (uval h <= n)%N -> (n < uval g)%N -> has (bm_set m) n = false) ->
    has (bm_set m) (uval g) = true ->
    c_remove_key C m h f =
      match c_remove_key C m g f with
      | Ret (Some (m', removed), p) => Ret (Some (BM (bm_set m) (bm_list m'), removed), p)
      | r => r
      end.
  Proof.
    intros Hlt Hb Hg. cbn [c_remove_key ByteMap_coll]. unfold bc_remove_key, bs_find. rewrite !present_has, Hg.
    assert (Hh : has (bm_set m) (uval h) = false) by (apply Hb; lia). rewrite Hh. cbn [bind is_none negb debug_assert]. rewrite ?Hd. cbn [bind].
    rewrite (count_same _ h g) by (auto; lia).
    destruct (tl_remove_key (bm_list m) (count_below (bm_set m) g) f) as [[[[l removed]|] p]|]; cbn [bind]; auto.
    unfold bc_after. destruct removed; cbn [bind]; [|reflexivity]. rewrite !present_has, Hg, Hh. cbn [bind debug_assert]. rewrite ?Hd. cbn [bind].
    rewrite unset_absent by auto. reflexivity.
  Qed.
  Lemma absent_last (m : ct C) (h : u 8) f : (forall n, (uval h <= n)%N -> has (bm_set m) n = false) ->
    N.of_nat (length (bm_list m)) = how_many (has (bm_set m)) -> c_remove_key C m h f = Panic.
  Proof.
    intros Hb Hl. cbn [c_remove_key ByteMap_coll]. unfold bc_remove_key, bs_find. rewrite present_has, (Hb (uval h)) by lia.
    cbn [bind is_none negb debug_assert]. rewrite ?Hd. cbn [bind]. unfold tl_remove_key, vd_get.
    assert (E : count_below (bm_set m) h = N.of_nat (length (bm_list m))).
    { rewrite Hl, count_below_has. apply how_many_ext. intros n _. destruct (N.ltb_spec n (uval h)) as [H1|H1]; cbn; auto. symmetry. auto. }
    rewrite E, Nat2N.id. rewrite (proj2 (nth_error_None (bm_list m) (length (bm_list m)))) by lia. reflexivity.
  Qed.
End Absent.

Lemma build_arith (B : Build) x y : (x <= usize_max)%N -> (y <= usize_max)%N ->
  ((y <= x)%N -> checked_sub x y = Ret (x - y)%N) /\
  ((x < y)%N -> checked_sub x y = if dbg then Panic else Ret (2 ^ usize_bits - (y - x))%N) /\
  ((x + y < 2 ^ usize_bits)%N -> usize_add x y = Ret (x + y)%N) /\
  ((2 ^ usize_bits <= x + y)%N -> usize_add x y = if dbg then Panic else Ret (x + y - 2 ^ usize_bits)%N) /\
  debug_assert true = Ret tt /\ debug_assert false = if dbg then Panic else Ret tt.
Proof.
  assert (P : (0 < 2 ^ usize_bits)%N) by (unfold usize_bits; destruct ptr; reflexivity). intros Hx Hy. unfold checked_sub, usize_add, usize_max in *.
  revert P Hx Hy. generalize (2 ^ usize_bits)%N. intros M P Hx Hy.
  split; [|split; [|split; [|split; [|split; reflexivity]]]]; intros H.
  - replace (y <=? x)%N with true by (symmetry; apply N.leb_le; lia). reflexivity.
  - replace (y <=? x)%N with false by (symmetry; apply N.leb_gt; lia). destruct dbg; [reflexivity|]. f_equal. rewrite N.mod_small by lia. lia.
  - replace (x + y <=? M - 1)%N with true by (symmetry; apply N.leb_le; lia). reflexivity.
  - replace (x + y <=? M - 1)%N with false by (symmetry; apply N.leb_gt; lia). destruct dbg; [reflexivity|]. f_equal.
    replace (x + y)%N with ((x + y - M) + 1 * M)%N at 1 by lia. rewrite N.mod_add by lia. apply N.mod_small. lia.
Qed.
Lemma same_core_builds (B1 B2 : Build) {B : Build} (Hd : @dbg B = true) {fixed K V cmp cmp'} {O O' : VebOps K V}
  (T : @VebType B fixed K V cmp O) (T' : @VebType B fixed K V cmp' O') cs :
  (@usize_bits B <= @usize_bits B1)%N -> (@usize_bits B <= @usize_bits B2)%N ->
  core T = core T' -> (N.of_nat (length cs) <= @usize_max B)%N ->
  exists ot ot' os, run (recompiled B1 T) cs None = Ret (ot, os) /\ run (recompiled B2 T') cs None = Ret (ot', os) /\ (ot = None <-> ot' = None).
Proof.
  intros W1 W2 Hc Hl. destruct (same_core Hd T T' cs Hc Hl) as [ot [ot' [os [E [E' H]]]]].
  destruct (recompiled_run B1 Hd W1 T cs ot os E) as [o1 [E1 H1]]. destruct (recompiled_run B2 Hd W2 T' cs ot' os E') as [o2 [E2 H2]].
  exists o1, o2, os. split; [exact E1|]. split; [exact E2|]. tauto.
Qed.

(** for witnesses too large to write down *)
Lemma panicked {A} (r : res A) : match r with Ret _ => false | Panic => true end = true -> r = Panic.
Proof. destruct r; intros H; [discriminate H|reflexivity]. Qed.
Lemma not_panicked {A} (r : res A) : match r with Ret _ => true | Panic => false end = true -> r <> Panic.
Proof. destruct r; intros H E; [discriminate E|discriminate H]. Qed.
