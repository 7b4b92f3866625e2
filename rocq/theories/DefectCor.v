(** What [Tree::insert] does below the minimum. *)
From Verif Require Import Base Spec Ops Boxed Lists Laws Tree TreeChildren TreeUpd TreeProofs Hist HistProofs HistCor.

Section Defect.
  Context {Bd : Build}.
  Context {K Hi Lo V : Type} {ko : KeyOps K Hi Lo} (KL : KeyLaws ko).
  Context {S : VebOps Hi unit} {Tr : VebOps Lo V} {C : CollOps Hi Lo V Tr}.
  Context (LS : VebLaws (hi_cmp ko) S) (LT : VebLaws (lo_cmp ko) Tr) (LC : CollLaws C).
  Notation O := (Tree_ops false ko S Tr C).
  Notation L := (Tree_laws false KL LS LT LC).

  Lemma below_min (t : vt O) d k v p q : reachable O t -> contents O t d -> (N.of_nat (length d) < usize_max)%N ->
    v_min_val O t = Ret p -> v_max_val O t = Ret q -> k_cmp ko (fst p) (fst q) = Lt -> k_cmp ko k (fst p) = Lt ->
    exists t' r d', v_insert O t k v = Ret (t', r) /\ v_min_val O t' = Ret (k, v) /\ v_max_val O t' = Ret p /\
      v_successor O t' (fst p) = Ret None /\ contents O t' d' /\ In q d'.
  Proof.
    intros Hr Hc Hl Hp Hq Hpq Hk. assert (Hw := reachable_weak L t Hr). assert (HP := contents_perm L t d Hw Hc).
    apply Permutation_length in HP. rewrite HP in Hl. clear HP Hc Hr d.
    assert (OL := KL_k KL). change (tr_winv LS LT LC t) in Hw. change (N.of_nat (length (tr_ents (ko := ko) LT LC t)) < usize_max)%N in Hl.
    cbn in Hp, Hq. unfold tr_min_val in Hp. unfold tr_max_val in Hq. injection Hp as Hp. injection Hq as Hq.
    destruct t as [mn [[mx ch]|]]; cbn [t_min t_data d_max d_children] in *; subst mn.
    2:{ subst q. rewrite (cmp_refl OL) in Hpq. discriminate. }
    subst mx. assert (Hqp : k_cmp ko (fst q) (fst p) = Gt) by (apply (cmp_gt_lt OL); auto).
    destruct (push_ok KL LS LT LC (k, v) p ch (fst q) (snd q)) as [x' [r [E [Hx [Hr _]]]]].
    { exact Hw. }
    { unfold tr_ents in Hl. cbn [t_data d_max d_children length] in Hl. lia. }
    set (t' := TR (k, v) (Some (TD p (Some x'))) : vt O).
    assert (Hw' : winv L t') by exact Hx.
    destruct (contents_ents L t' Hw') as [d' [Hd' HP']]. exists t', r, d'. split.
    { cbn. unfold tr_insert. cbn [t_min t_data d_max d_children]. rewrite Hk. destruct p as [k1 v1]. cbn [fst] in *. rewrite Hqp. exact E. }
    split; [reflexivity|]. split; [reflexivity|]. split.
    { cbn. unfold tr_successor. cbn [t_min t_data d_max d_children t' fst]. unfold ltb, leb. assert (E1 : k_cmp ko (fst p) k = Gt) by (apply (cmp_gt_lt OL); auto).
      rewrite E1, (cmp_refl OL). reflexivity. }
    split; auto. apply Permutation_sym in HP'. apply (Permutation_in _ HP'). change (In q (tr_ents (ko := ko) LT LC t')).
    unfold tr_ents. cbn [t' t_min t_data d_max d_children och_ents]. right. right.
    destruct r as [q'|].
    - destruct Hr as [rest [_ Hr]]. apply Permutation_sym in Hr. apply (Permutation_in _ Hr). left. symmetry. apply surjective_pairing.
    - apply Permutation_sym in Hr. apply (Permutation_in _ Hr). left. symmetry. apply surjective_pairing.
  Qed.
End Defect.
