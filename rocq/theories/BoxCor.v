(** A boxed tree runs as the tree, a boxed collection as the collection. *)
From Verif Require Import Base Ops Boxed Hist CollSpec.

Section BoxRun.
  Context {K V : Type} (O : VebOps K V).
  Definition boxed {X} (p : option (vt O) * X) : option (box (vt O)) * X := (omap mkbox (fst p), snd p).

  Lemma box_write (m : vt O -> res (option (K * V * (V -> vt O)))) w t :
    write (Box_ops O) (fun b => rmap (omap (box_lens O)) (m (unbox b))) w (mkbox t) = rmap boxed (write O m w t).
  Proof. unfold write, rmap. cbn [unbox]. destruct (m t) as [[[p put]|]|]; reflexivity. Qed.
  Lemma box_write1 (m : vt O -> res (K * V * (V -> vt O))) w t :
    write1 (Box_ops O) (fun b => rmap (box_lens O) (m (unbox b))) w (mkbox t) = rmap boxed (write1 O m w t).
  Proof. unfold write1, rmap. cbn [unbox]. destruct (m t) as [[p put]|]; reflexivity. Qed.
  Lemma box_step c ot : step (Box_ops O) c (omap mkbox ot) = rmap boxed (step O c ot).
  Proof.
    destruct ot as [t|]; [|destruct c; reflexivity]. cbn [omap].
    destruct c; cbn [step]; try apply box_write1; unfold query, query1, rmap; cbn [Box_ops unbox v_insert v_remove v_remove_min v_remove_max
      v_into_monad v_is_monad v_min_val v_max_val v_find v_predecessor v_successor].
    - destruct (v_insert O t k v) as [[t' r]|]; reflexivity.
    - destruct (v_remove O t k) as [[[ot p]|t']|]; reflexivity.
    - unfold rmap. destruct (v_remove_min O t) as [[ot p]|]; reflexivity.
    - unfold rmap. destruct (v_remove_max O t) as [[ot p]|]; reflexivity.
    - destruct (v_into_monad O t) as [[p|t']|]; reflexivity.
    - destruct (v_is_monad O t) as [b|]; reflexivity.
    - destruct (v_min_val O t) as [b|]; reflexivity.
    - destruct (v_max_val O t) as [b|]; reflexivity.
    - destruct (v_find O t k) as [b|]; reflexivity.
    - destruct (v_predecessor O t k) as [b|]; reflexivity.
    - destruct (v_successor O t k) as [b|]; reflexivity.
    - apply (box_write (fun t => v_find_mut O t k)).
    - apply (box_write (fun t => v_predecessor_mut O t k)).
    - apply (box_write (fun t => v_successor_mut O t k)).
  Qed.
  Lemma box_run cs : forall ot, run (Box_ops O) cs (omap mkbox ot) = rmap boxed (run O cs ot).
  Proof.
    induction cs as [|c cs IH]; intros ot; [reflexivity|]. cbn [run]. rewrite box_step.
    destruct (step O c ot) as [[ot1 o]|]; [|reflexivity]. unfold rmap at 1. cbn [bind boxed fst snd].
    change (run (Box_ops O) cs (omap mkbox ot1)) with (run (Box_ops O) cs (omap mkbox ot1)). rewrite IH.
    destruct (run O cs ot1) as [[ot2 os]|]; reflexivity.
  Qed.
End BoxRun.

Section BoxCollRun.
  Context {Hi Lo V : Type} {Tr : VebOps Lo V} (C : CollOps Hi Lo V Tr).
  Definition cboxed {X} (p : option (ct C) * X) : option (box (ct C)) * X := (omap mkbox (fst p), snd p).
  Lemma box_cstep x oc : c_step (Box_coll C) x (omap mkbox oc) = rmap cboxed (c_step C x oc).
  Proof.
    destruct x as [h t|h|h t|h lv|h f|h f].
    - destruct oc; cbn; unfold rmap; destruct (c_create C h t); reflexivity.
    - destruct oc as [c|]; [|reflexivity]. cbn. destruct (c_get C c h); reflexivity.
    - destruct oc as [c|]; [|reflexivity]. cbn. unfold rmap. destruct (c_get_mut C c h) as [[[t0 put]|]|]; reflexivity.
    - destruct oc as [c|]; [|reflexivity]. cbn. destruct (c_insert_key C c h lv) as [[c' r]|]; reflexivity.
    - destruct oc as [c|]; [|reflexivity]. cbn. unfold rmap. destruct (c_remove_key C c h f) as [[[[c' b]|] p]|]; reflexivity.
    - destruct oc as [c|]; [|reflexivity]. cbn. destruct (c_maybe_remove_key C c h f) as [[[[[c' b]|] p]|c']|]; reflexivity.
  Qed.
  Lemma box_crun xs : forall oc, c_run (Box_coll C) xs (omap mkbox oc) = rmap cboxed (c_run C xs oc).
  Proof.
    induction xs as [|x xs IH]; intros oc; [reflexivity|]. cbn [c_run]. rewrite box_cstep.
    destruct (c_step C x oc) as [[oc1 o]|]; [|reflexivity]. unfold rmap at 1. cbn [bind cboxed fst snd].
    rewrite IH. destruct (c_run C xs oc1) as [[oc2 os]|]; reflexivity.
  Qed.
End BoxCollRun.
