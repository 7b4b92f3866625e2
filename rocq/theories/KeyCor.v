(** Consequences of a wrong index for trees. *)
From Verif Require Import Base Ints Ops Spec Key KeySpec Coll Tree Lists Laws CollProofs KeyProofs Hist.
(** a tree of pairs of badly indexed integers *)
Lemma array_panics {B : Build} {h} (ix : IdxOps (i h)) (Hs : sized_signed ix) {V} S (Tr : VebOps (i h) V) p q (m : arr2 (i h)) a b c hi lo :
  cmp2 i_cmp p m = Lt -> cmp2 i_cmp m q = Lt -> m = A2 hi lo -> (0 <= ival hi)%Z ->
  run (Tree_ops false (arr2_key i_cmp) S Tr (Array_coll ix Tr)) [Insert p a; Insert q b; Insert m c] None = Panic.
Proof.
  intros H1 H2 -> Hp. assert (OL := cmp2_laws (i_cmp_laws h)). assert (H3 := cmp_trans OL _ _ _ H1 H2).
  assert (E1 : cmp2 i_cmp (A2 hi lo) p = Gt) by (rewrite (cmp_opp OL), H1; reflexivity).
  assert (E3 : cmp2 i_cmp q p = Gt) by (rewrite (cmp_opp OL), H3; reflexivity).
  set (O := Tree_ops false (arr2_key i_cmp) S Tr (Array_coll ix Tr)).
  assert (F : exists t2, v_insert O (v_from_monad O p a) q b = Ret (t2, None) /\ v_insert O t2 (A2 hi lo) c = Panic).
  { exists (TR (p, a) (Some (TD (q, b) None))). split; cbn; unfold tr_insert; cbn [t_min tr_from_monad fst t_data k_cmp arr2_key d_max d_children].
    - rewrite E3. reflexivity.
    - rewrite E1, H2. unfold tr_push. cbn [k_split_val arr2_key c_create Array_coll]. unfold ac_create.
      rewrite oa_out; [reflexivity|]. eapply N.le_trans; [apply card_le|]. apply signed_bad; auto. }
  clearbody O. destruct F as [t2 [F1 F2]]. cbn. rewrite F1. cbn. rewrite F2. reflexivity.
Qed.

(** the associated constant *)
Lemma size_u {w n} : has_size (u w) n -> n = (2 ^ w)%N.
Proof. intros H. apply (has_size_fun _ _ _ H). eexists. apply numbering_u. Qed.
Lemma size_i {h n} : has_size (i h) n -> n = (2 ^ (h + 1))%N.
Proof. intros H. apply (has_size_fun _ _ _ H). eexists. apply numbering_i. Qed.
Lemma CARDINALITY_wrong (B : Build) :
  ~ has_size (u 128) (i_CARDINALITY u128_idx) /\ ~ has_size (i 127) (i_CARDINALITY i128_idx) /\
  ~ has_size (u 64) (i_CARDINALITY u64_idx) /\ ~ has_size (i 63) (i_CARDINALITY i64_idx) /\
  ~ has_size (u 32) (i_CARDINALITY u32_idx) /\ ~ has_size (i 31) (i_CARDINALITY i32_idx) /\
  ~ has_size (u 16) (i_CARDINALITY u16_idx) /\ ~ has_size (i 15) (i_CARDINALITY i16_idx) /\
  ~ has_size (u 8) (i_CARDINALITY u8_idx) /\ ~ has_size (i 7) (i_CARDINALITY i8_idx) /\
  ~ has_size (u 4) (i_CARDINALITY U4_idx) /\ ~ has_size (u 2) (i_CARDINALITY U2_idx).
Proof. destruct B as [d p]. repeat split; intros H; first [apply size_u in H|apply size_i in H]; destruct p; vm_compute in H; discriminate H. Qed.
Lemma CARDINALITY_less (B : Build) :
  i_CARDINALITY unit_idx = i_card unit_idx /\ i_CARDINALITY u128_idx = (i_card u128_idx - 1)%N /\ i_CARDINALITY i128_idx = (i_card i128_idx - 1)%N /\
  i_CARDINALITY u64_idx = (i_card u64_idx - 1)%N /\ i_CARDINALITY i64_idx = (i_card i64_idx - 1)%N /\
  i_CARDINALITY u32_idx = (i_card u32_idx - 1)%N /\ i_CARDINALITY u16_idx = (i_card u16_idx - 1)%N /\ i_CARDINALITY u8_idx = (i_card u8_idx - 1)%N /\
  i_CARDINALITY i8_idx = (i_card i8_idx - 1)%N /\ i_CARDINALITY U4_idx = (i_card U4_idx - 1)%N /\ i_CARDINALITY U2_idx = (i_card U2_idx - 1)%N /\
  i_CARDINALITY i32_idx = usize_max /\ i_CARDINALITY i16_idx = usize_max.
Proof. destruct B as [d p]. repeat split; destruct p; vm_compute; reflexivity. Qed.
