(** The ring inside a [ByteMap]: one call on it for each call on the map, and never more than 256 slots. *)
From Verif Require Import Base Ints Ops Spec ByteSet ByteMap Coll Lists Laws ByteSetProofs ByteMapProofs Hist HistProofs HistCor RoomCor CoreCor GenMap GenMapProofs
  GenMapCor DequeGen DequeGenCor RingMoves RingMovesCor.
From Coq Require Import Lia.

Section Bytes.
  Context {B : Build} {V : Type}.
  Notation O := (ByteMapOf_ops (DequeList (std_ring V))).
  Implicit Types (m : vt O) (l : list (u 8 * V)) (r : Ring V).
  Definition touch r r' : Prop :=
    r' = r \/ (exists i v, d_insert (std_ring V) r i v = Ret r') \/ (exists i v, d_remove (std_ring V) r i = (r', Some v)) \/ exists i v, r' = rg_set r i v.
  Lemma mut_touch r i v put : d_index_mut (std_ring V) r i = Ret (v, put) -> forall w, touch r (put w).
  Proof. cbn [d_index_mut std_ring Ring_deque]. destruct (rg_get r (N.to_nat i)); [|discriminate]. cbn. intros E w. injection E as <- <-. right. right. right. eauto. Qed.
  Lemma rem_touch r i r' v : do_remove_value (std_ring V) r i = Ret (Some r', v) -> touch r r'.
  Proof.
    unfold do_remove_value. destruct (d_remove (std_ring V) r i) as [d' [x|]] eqn:E; [|discriminate]. cbn [expect bind]. destruct (d_is_empty _ _); [discriminate|].
    intros E'. injection E' as <- <-. right. right. left. eauto.
  Qed.
  Lemma at_mut_touch m o p put : gm_at_mut (DequeList (std_ring V)) m o = Ret (Some (p, put)) -> forall w, touch (bm_list m) (bm_list (put w)).
  Proof.
    unfold gm_at_mut. destruct o as [[k []]|]; [|discriminate]. cbn [l_get_mut DequeList]. destruct (d_index_mut _ _ _) as [[v pt]|] eqn:E; [|discriminate].
    cbn [bind]. intros E' w. injection E' as <- <-. apply (mut_touch _ _ _ _ E).
  Qed.
  Ltac peel := repeat (first [discriminate | progress cbn [bind] in * | match goal with
    | E : bind ?x _ = Ret _ |- _ => destruct x eqn:?
    | E : match ?x with _ => _ end = Ret _ |- _ => destruct x eqn:?
    | E : Ret _ = Ret _ |- _ => injection E; clear E; intros; subst
    end]).
  Lemma step_touch c m m' o : step O c (Some m) = Ret (Some m', o) -> touch (bm_list m) (bm_list m').
  Proof.
    destruct c as [k v|k| | | | | | |k|k|k|w|w|k w|k w|k w]; cbn [step]; unfold query, query1, write, write1;
      cbn [v_insert v_remove v_remove_min v_remove_max v_into_monad v_is_monad v_min_val v_max_val v_find v_predecessor v_successor
        v_min_val_mut v_max_val_mut v_find_mut v_predecessor_mut v_successor_mut ByteMapOf_ops]; intros E.
    - unfold gm_insert in E. cbn [l_get_mut l_insert_value DequeList] in E. peel; cbn [bm_list].
      + eapply mut_touch; eauto.
      + right. left. eauto.
    - unfold gm_remove in E. cbn [l_remove_value DequeList] in E. unfold expect in E. peel; cbn [bm_list]; try (left; reflexivity). eapply rem_touch; eauto.
    - unfold gm_remove_min, gm_rebuild in E. cbn [l_remove_value DequeList] in E. peel; cbn [bm_list]. eapply rem_touch; eauto.
    - unfold gm_remove_max, gm_rebuild in E. cbn [l_remove_value DequeList] in E. peel; cbn [bm_list]. eapply rem_touch; eauto.
    - unfold gm_into_monad in E. peel; left; reflexivity.
    - peel; left; reflexivity.
    - peel; left; reflexivity.
    - peel; left; reflexivity.
    - peel; left; reflexivity.
    - peel; left; reflexivity.
    - peel; left; reflexivity.
    - unfold gm_min_val_mut, gm_put in E. cbn [l_get_mut DequeList] in E. peel; cbn [bm_list]. eapply mut_touch; eauto.
    - unfold gm_max_val_mut, gm_put in E. cbn [l_get_mut l_len DequeList] in E. peel; cbn [bm_list]. eapply mut_touch; eauto.
    - unfold gm_find_mut in E. peel; try (left; reflexivity). eapply at_mut_touch; eauto.
    - unfold gm_predecessor_mut in E. peel; try (left; reflexivity). eapply at_mut_touch; eauto.
    - unfold gm_successor_mut in E. peel; try (left; reflexivity). eapply at_mut_touch; eauto.
  Qed.

  Lemma bytes_room l : ascending u_cmp l -> length l <= 256.
  Proof.
    intros H. rewrite <- bytes_len. unfold ascending in H. rewrite <- (map_length fst). apply NoDup_incl_length; [apply (asc_nodup (u_cmp_laws 8) l H)|]. intros k _. apply in_bytes.
  Qed.
  Lemma run_asc (cs : list (op (u 8) V)) : forall l, ascending u_cmp l -> ascending u_cmp (fst (sp_run u_cmp cs l)) /\ admissible u_cmp (@adm_any (u 8) V) cs l.
  Proof.
    induction cs as [|c cs IH]; intros l H; [split; [exact H|exact I]|]. assert (H1 := sp_step_asc (u_cmp_laws 8) c l H). destruct (IH _ H1) as [H2 H3].
    split; [rewrite sp_run_cons; exact H2|]. cbn [admissible]. split; [|exact H3]. destruct c; auto. split; [exact I|]. apply byte_keys_small, (asc_nodup (u_cmp_laws 8)), H.
  Qed.
  Lemma map_holds cs : exists ot os, run O cs None = Ret (ot, os) /\
    match ot with Some m => exists l : list V, holds (bm_list m) l /\ l = map snd (fst (sp_run u_cmp cs [])) /\ length l <= 256 | None => True end.
  Proof.
    destruct (run_asc cs [] asc_nil) as [Ha Hc].
    destruct (deque_history (D := std_ring V) (Ring_contract std_plan (fun _ => (0, 0)) (fun r i => rg_len r - i <? i) (fun r i => rg_len r - i - 1 <? i)) cs Hc) as [ot [E Hm]].
    exists ot, (snd (sp_run u_cmp cs [])). split; [exact E|]. destruct ot as [m|]; auto. destruct Hm as [[l Hl] [Hm _]]. exists l. split; auto.
    assert (El : l = map snd (fst (sp_run u_cmp cs []))) by (rewrite <- Hm; symmetry; apply holds_list, Hl). split; auto. rewrite El, map_length. apply bytes_room, Ha.
  Qed.
  Definition sizes : list nat := [1; 4; 8; 16; 32; 64; 128; 256].
  Lemma sizes_next n : In n sizes -> n < 256 -> In (Nat.max 4 (2 * n)) sizes.
  Proof. unfold sizes. intros H Hn. repeat (destruct H as [<-|H]; [cbn; tauto || (exfalso; revert Hn; apply Nat.lt_irrefl)|]). destruct H. Qed.
  Lemma touch_slots r (l : list V) r' (l' : list V) : holds r l -> length l <= 256 -> holds r' l' -> length l' <= 256 -> touch r r' ->
    (exists ss, length ss <= 128 /\ only_in ss (rg_buf r) (rg_buf r')) \/
    (rg_len r = length (rg_buf r) /\ rg_len r < 256 /\ length (rg_buf r') = Nat.max 4 (2 * length (rg_buf r))).
  Proof.
    intros H Hl H' Hl' [->|[[i [v E]]|[[i [v E]]|[i [v ->]]]]].
    - left. exists []. split; [cbn; lia|apply same_only].
    - assert (El := proj1 (proj2 H)). assert (Ec := proj1 (proj2 (proj2 H))). assert (El' := proj1 (proj2 H')).
      assert (Es : rg_len r' = S (rg_len r)).
      { cbn [d_insert std_ring Ring_deque] in E. destruct (_ <=? _)%N; [|discriminate]. injection E as <-.
        assert (Er : rg_len (rg_room std_plan r) = rg_len r) by (rewrite El; apply (proj1 (proj2 (proj1 (room_holds std_plan r l H))))).
        unfold rg_insert. destruct (_ <? _); cbn [rg_len]; rewrite Er; reflexivity. }
      destruct (Nat.eq_dec (rg_len r) (length (rg_buf r))) as [Ef|Ef].
      + right. split; auto. split; [lia|]. apply (grown _ _ _ _ _ H Ef E).
      + left. apply (insert_bytes r i v r'); auto; lia.
    - left. destruct (remove_bytes r i v r') as [ss [H1 H2]]; auto; [rewrite (proj1 (proj2 H)); exact Hl|]. exists ss. split; [lia|exact H2].
    - left. exists [rg_slot r i]. split; [cbn; lia|]. split; [apply set_len|]. intros s Hn. apply set_other. cbn in Hn. tauto.
  Qed.
  Lemma map_sizes cs : forall m os, run O cs None = Ret (Some m, os) -> In (length (rg_buf (bm_list m))) sizes.
  Proof.
    induction cs as [|c cs IH] using rev_ind; intros m os E; [discriminate|].
    destruct (map_holds cs) as [ot [os1 [E1 H1]]]. destruct (map_holds (cs ++ [c])) as [ot2 [os2 [E2 H2]]]. rewrite E in E2. injection E2 as <- <-.
    rewrite (run_app cs [c] None ot os1 E1) in E. cbn [run] in E. destruct (step O c ot) as [[ot' o]|] eqn:Es; [|discriminate]. cbn [bind] in E. injection E as -> _.
    destruct ot as [m1|].
    - destruct H1 as [l1 [H1 [_ N1]]]. destruct H2 as [l2 [H2 [_ N2]]]. assert (Hs := IH _ _ E1).
      destruct (touch_slots _ _ _ _ H1 N1 H2 N2 (step_touch _ _ _ _ Es)) as [[ss [_ [-> _]]]|[Hf [Hn ->]]]; auto. apply sizes_next; auto. lia.
    - destruct c; try discriminate. cbn [step] in Es. injection Es as <- _. left. reflexivity.
  Qed.
  Lemma map_slots cs m os c m' o : run O cs None = Ret (Some m, os) -> step O c (Some m) = Ret (Some m', o) -> let r := bm_list m in let r' := bm_list m' in
    rg_list r = map snd (fst (sp_run u_cmp cs [])) /\ rg_len r <= length (rg_buf r) /\ In (length (rg_buf r)) sizes /\
    ((exists ss, length ss <= 128 /\ only_in ss (rg_buf r) (rg_buf r')) \/
     (rg_len r = length (rg_buf r) /\ rg_len r < 256 /\ length (rg_buf r') = Nat.max 4 (2 * length (rg_buf r)))).
  Proof.
    cbv zeta. intros E Es. destruct (map_holds cs) as [ot [os1 [E1 H1]]]. rewrite E in E1. injection E1 as <- <-. destruct H1 as [l [H [El Hn]]].
    destruct (map_holds (cs ++ [c])) as [ot2 [os2 [E2 H2]]]. rewrite (run_app cs [c] None _ _ E) in E2. cbn [run] in E2. rewrite Es in E2. cbn [bind] in E2. injection E2 as <- _.
    destruct H2 as [l' [H' [_ Hn']]]. split; [rewrite <- El; apply holds_list, H|]. split; [rewrite (proj1 (proj2 H)); apply H|]. split; [apply (map_sizes _ _ _ E)|].
    eapply touch_slots; eauto. eapply step_touch; eauto.
  Qed.
End Bytes.

(** The collection of trees *)
Section Trees.
  Context {B : Build} {Lo V : Type} {Tr : VebOps Lo V}.
  Notation T := (vt Tr).
  Notation D := (std_ring T).
  Notation C := (ByteMapOf_coll (DequeTrees Tr D)).
  Lemma touch_writes (r r' : Ring T) l : holds r l -> touch r r' -> writes r r'.
  Proof.
    intros H [->|[[i [v E]]|[[i [v E]]|[i [v ->]]]]].
    - left. exists []. split; [cbn; lia|apply same_only].
    - assert (El := proj1 (proj2 H)). assert (Ec := proj1 (proj2 (proj2 H))). destruct (Nat.eq_dec (rg_len r) (length (rg_buf r))) as [Ef|Ef].
      + right. split; auto. apply (grown _ _ _ _ _ H Ef E).
      + left. assert (Hf : rg_len r < length (rg_buf r)) by lia. destruct (insert_slots _ _ _ _ Hf E) as [ss [Hs Ho]]. exists ss. split; auto. lia.
    - left. destruct (remove_slots _ _ _ _ E) as [ss [Hs Ho]]. exists ss. split; auto. lia.
    - left. exists [rg_slot r i]. split; [cbn; lia|]. split; [apply set_len|]. intros s Hn. apply set_other. cbn in Hn. tauto.
  Qed.
  Lemma entry_touch (r : Ring T) i t put : d_entry D r i = Some (t, put) -> forall o, touch r (put o).
  Proof.
    cbn [d_entry std_ring Ring_deque]. destruct (rg_get r (N.to_nat i)) as [y|] eqn:Eg; [|discriminate]. intros E o. injection E as <- <-. destruct o as [w|].
    - right. right. right. eauto.
    - right. right. left. exists i, y. cbn [d_remove std_ring Ring_deque]. rewrite Eg. reflexivity.
  Qed.
  Lemma after_list (m : ct C) k (r : Ring T) b m' b' : gc_after (DequeTrees Tr D) m k r b = Ret (m', b') -> bm_list m' = r.
  Proof. unfold gc_after. destruct b; [destruct (debug_assert _)|]; try discriminate; cbn [bind]; intros E; injection E as <- <-; reflexivity. Qed.
  Lemma coll_get_mut (m : ct C) h t put : c_get_mut C m h = Ret (Some (t, put)) -> exists s, forall t', only_in [s] (rg_buf (bm_list m)) (rg_buf (bm_list (put t'))).
  Proof.
    cbn [c_get_mut ByteMapOf_coll]. unfold gc_get_mut, gc_put. destruct (negb _); [discriminate|]. cbn [tl_get_mut DequeTrees d_index_mut std_ring Ring_deque].
    destruct (rg_get _ _); [|discriminate]. cbn [expect bind]. intros E. injection E as <- <-. exists (rg_slot (bm_list m) (N.to_nat (count_below (bm_set m) h))). intros t'.
    cbn [bm_list]. split; [apply set_len|]. intros s Hn. apply set_other. cbn in Hn. tauto.
  Qed.
  Lemma coll_insert (m : ct C) h lv m' x : c_insert_key C m h lv = Ret (m', x) -> touch (bm_list m) (bm_list m').
  Proof.
    cbn [c_insert_key ByteMapOf_coll]. unfold gc_insert_key. cbn [tl_get_mut tl_insert_tree DequeTrees]. destruct (bs_insert _ _ _) as [[set [p|]]|]; [| |discriminate]; cbn [bind].
    - destruct (d_index_mut D _ _) as [[t put]|] eqn:E; [|discriminate]. cbn [bind]. destruct (v_insert Tr _ _ _) as [[t' o]|]; [|discriminate]. cbn [bind]. intros E'.
      injection E' as <- <-. cbn [bm_list]. apply (mut_touch _ _ _ _ E).
    - destruct (d_insert D _ _ _) as [r'|] eqn:E; [|discriminate]. cbn [bind]. intros E'. injection E' as <- <-. cbn [bm_list]. right. left. eauto.
  Qed.
  Lemma coll_remove (m : ct C) h f m' b x : c_remove_key C m h f = Ret (Some (m', b), x) -> touch (bm_list m) (bm_list m').
  Proof.
    cbn [c_remove_key ByteMapOf_coll]. unfold gc_remove_key. cbn [tl_remove DequeTrees]. destruct (bs_find _ _); [|discriminate]. cbn [bind]. destruct (debug_assert _); [|discriminate].
    cbn [bind]. unfold do_remove. destruct (d_entry D _ _) as [[t put]|] eqn:E; [|discriminate]. destruct (f t) as [[t' val]|]; [|discriminate]. cbn [bind].
    destruct (d_is_empty D (put t')). { destruct (debug_assert _); discriminate. } cbn [bind]. destruct (gc_after _ _ _ _ _) as [[m1 b1]|] eqn:Ea; [|discriminate]. cbn [bind].
    intros E'. injection E' as <- <- <-. rewrite (after_list _ _ _ _ _ _ Ea). apply (entry_touch _ _ _ _ E).
  Qed.
  Lemma coll_maybe (m : ct C) h f y : c_maybe_remove_key C m h f = Ret y ->
    match y with Ok (Some (m', _), _) | Err m' => touch (bm_list m) (bm_list m') | _ => True end.
  Proof.
    cbn [c_maybe_remove_key ByteMapOf_coll]. unfold gc_maybe_remove_key. cbn [tl_maybe_remove DequeTrees]. destruct (bs_find _ _) as [o|]; [|discriminate]. cbn [bind].
    destruct (is_none o). { intros E. injection E as <-. left. reflexivity. }
    unfold do_maybe_remove. destruct (d_entry D _ _) as [[t put]|] eqn:E; [|discriminate]. destruct (f t) as [[[t' val]|t']|]; [| |discriminate]; cbn [bind].
    - destruct (d_is_empty D (put t')). { destruct (debug_assert _); [|discriminate]. cbn [bind]. intros E'. injection E' as <-. exact I. }
      cbn [bind]. destruct (gc_after _ _ _ _ _) as [[m1 b1]|] eqn:Ea; [|discriminate]. cbn [bind]. intros E'. injection E' as <-.
      rewrite (after_list _ _ _ _ _ _ Ea). apply (entry_touch _ _ _ _ E).
    - intros E'. injection E' as <-. cbn [bm_list]. apply (entry_touch _ _ _ _ E).
  Qed.
  Lemma coll_writes (m : ct C) l h : holds (bm_list m) l ->
    (forall t put, c_get_mut C m h = Ret (Some (t, put)) -> exists s, forall t', only_in [s] (rg_buf (bm_list m)) (rg_buf (bm_list (put t')))) /\
    (forall lv m' x, c_insert_key C m h lv = Ret (m', x) -> writes (bm_list m) (bm_list m')) /\
    (forall f m' b x, c_remove_key C m h f = Ret (Some (m', b), x) -> writes (bm_list m) (bm_list m')) /\
    (forall f m' b x, c_maybe_remove_key C m h f = Ret (Ok (Some (m', b), x)) -> writes (bm_list m) (bm_list m')) /\
    (forall f m', c_maybe_remove_key C m h f = Ret (Err m') -> writes (bm_list m) (bm_list m')).
  Proof.
    intros H. split; [intros; eapply coll_get_mut; eauto|]. split; [|split; [|split]]; intros; apply (touch_writes _ _ _ H).
    - eapply coll_insert; eauto.
    - eapply coll_remove; eauto.
    - exact (coll_maybe m h f _ H0).
    - exact (coll_maybe m h f _ H0).
  Qed.
End Trees.
