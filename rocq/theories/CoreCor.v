(** Every tree type answers as its core. *)
From Verif Require Import Base Ints Ops Spec ByteSet ByteMap Coll Boxed BTree SizedT Tree Lists Laws ByteSetProofs ByteMapProofs BTreeProofs CollProofs
  Hist Types HistProofs TypesProofs HistCor Sim TreeSim CollSim LeafSim Core.

Lemma bytes_len : length bytes = 256.
Proof.
  Transparent upto bytes. unfold bytes, upto. rewrite !map_length, seq_length. reflexivity. Opaque upto bytes.
Qed.
Lemma byte_keys_small {B : Build} {V} (l : list (u 8 * V)) : NoDup (keys l) -> (N.of_nat (length l) < usize_max)%N.
Proof.
  intros H. assert (Hl : length (keys l) <= length bytes) by (apply NoDup_incl_length; [exact H|intros k _; apply in_bytes]).
  unfold keys in Hl. rewrite map_length, bytes_len in Hl. eapply N.le_lt_trans with 256%N; [lia|]. unfold usize_max, usize_bits. destruct ptr; reflexivity.
Qed.

Section Core.
  Context {B : Build} (Hd : dbg = true).
  Lemma core_sim {fixed K V cmp O} (T : VebType fixed K V cmp O) : exists R, Sim eq O (core T) R.
  Proof.
    induction T as [|V|K V cmp OL|K Hi Lo V ko KL S Tr C TS [RS XS] TT [RT XT] CT|K V cmp O T [R X]|K V cmp O T [R X]]; cbn [core].
    - eexists. apply (sorted_sim (N.le_refl _) (u_cmp_laws 8) ByteSet_laws (BTree_laws (u_cmp_laws 8))); try (intros; exact I).
      intros t H1 H2. apply byte_keys_small. apply (L_nodup ByteSet_laws); auto.
    - eexists. apply (sorted_sim (N.le_refl _) (u_cmp_laws 8) ByteMap_laws (BTree_laws (u_cmp_laws 8))); try (intros; exact I).
      intros t H1 H2. apply byte_keys_small. apply (L_nodup ByteMap_laws); auto.
    - eexists. apply btree_sim.
    - eexists. eapply tree_sim; [apply lenient_refl|exact XS|exact XT|].
      apply (coll_sim (coll_laws CT) (coll_panics Hd CT) (Hash_coll_laws (eqb (hi_cmp ko)) (eqb_eq (KL_hi KL)) (core TT)) XT (key_dec (KL_hi KL))).
    - eexists. apply (box_sim X).
    - eexists. apply (sized_sim X).
  Qed.
  Lemma core_run {fixed K V cmp O} (T : VebType fixed K V cmp O) cs ot os : run O cs None = Ret (ot, os) ->
    exists ot', run (core T) cs None = Ret (ot', os) /\ (ot = None <-> ot' = None).
  Proof.
    intros E. destruct (core_sim T) as [R X]. destruct (sim_run_eq X cs None ot os None I E) as [ot' [E' H]]. exists ot'. split; auto.
    destruct ot, ot'; cbn in H; try contradiction; split; congruence.
  Qed.
  Lemma same_core {fixed K V cmp cmp' O O'} (T : VebType fixed K V cmp O) (T' : VebType fixed K V cmp' O') cs : core T = core T' ->
    (N.of_nat (length cs) <= usize_max)%N ->
    exists ot ot' os, run O cs None = Ret (ot, os) /\ run O' cs None = Ret (ot', os) /\ (ot = None <-> ot' = None).
  Proof.
    intros E Hl. assert (H := no_panic_run (type_laws T) cs Hl). assert (H' := no_panic_run (type_laws T') cs Hl).
    destruct (run O cs None) as [[ot os]|] eqn:Er; [|congruence]. destruct (run O' cs None) as [[ot' os']|] eqn:Er'; [|congruence].
    assert (X := core_run T cs ot os Er). assert (X' := core_run T' cs ot' os' Er'). rewrite E in X.
    destruct X as [o [E1 H1]], X' as [o' [E1' H1']].
    assert (E2 : Ret (o, os) = Ret (o', os')) by congruence. injection E2 as -> ->. exists ot, ot', os'. split; auto. split; auto. tauto.
  Qed.
End Core.
