(** The moves of Amort.v are at most two for each insertion, and no table is much larger than its pairs ever needed. *)
From Verif Require Import Base Ints Ops ByteMap Coll HashGen HashGenCor Probe ProbeCor Amort.
From Coq Require Import Lia.

Lemma pow_ge2 b : 0 < b -> exists n, 2 ^ b = 2 * n /\ 0 < n.
Proof. destruct b as [|b]; [lia|]. intros _. exists (2 ^ b). cbn [Nat.pow]. assert (2 ^ b <> 0) by (apply Nat.pow_nonzero; lia). lia. Qed.
Lemma room_eight b : 3 < b -> exists n, 2 ^ b = 8 * n /\ 1 < n.
Proof. destruct b as [|[|[|[|b]]]]; try lia. intros _. exists (2 * 2 ^ b). cbn [Nat.pow]. assert (2 ^ b <> 0) by (apply Nat.pow_nonzero; lia). lia. Qed.
Lemma room_value b : room (2 ^ b) = if b <=? 3 then 2 ^ b - 1 else 7 * (2 ^ b / 8).
Proof.
  destruct (Nat.leb_spec b 3) as [H|H].
  - destruct b as [|[|[|[|b]]]]; try lia; reflexivity.
  - destruct (room_eight b H) as [n [E Hn]]. rewrite E. unfold room. destruct (Nat.leb_spec (8 * n) 8); lia.
Qed.
Lemma room_twice b : 0 < b -> 2 * room (2 ^ b) <= room (2 ^ S b).
Proof.
  intros Hb. rewrite !room_value. destruct (Nat.leb_spec b 3) as [H|H].
  - destruct b as [|[|[|[|b]]]]; try lia; vm_compute; lia.
  - destruct (Nat.leb_spec (S b) 3); [lia|]. destruct (room_eight b H) as [n [E Hn]]. cbn [Nat.pow]. rewrite E.
    replace (2 * (8 * n)) with (2 * n * 8) by lia. rewrite (Nat.mul_comm 8 n), !Nat.div_mul by lia. lia.
Qed.
Lemma room_half b : 0 < b -> 2 ^ b <= 2 * room (2 ^ b).
Proof.
  intros Hb. rewrite room_value. destruct (Nat.leb_spec b 3) as [H|H].
  - destruct (pow_ge2 b Hb) as [n [E Hn]]. lia.
  - destruct (room_eight b H) as [n [E Hn]]. rewrite E, (Nat.mul_comm 8 n), Nat.div_mul by lia. lia.
Qed.

Section Proofs.
  Context {Seed Hi T : Type} (w : nat) (eq : Hi -> Hi -> bool) (eq_spec : forall a b, eq a b = true <-> a = b)
    (hash : Seed -> Hi -> N) (tag : N -> N) (draw : Hi -> T -> Seed) (bits0 : nat).
  Notation M := (Swiss Seed Hi T).
  Notation inv := (sw_inv (T := T) w hash tag).
  Notation ok := (sw_ok (T := T) w hash tag).
  Implicit Types m : M.
  Lemma place_bits m p : sw_bits (sw_place w hash tag m p) = sw_bits m.
  Proof. unfold sw_place. destruct (sw_free w hash m (fst p)); reflexivity. Qed.
  Lemma places_bits l : forall m, sw_bits (fold_left (sw_place w hash tag) l m) = sw_bits m.
  Proof. induction l as [|p l IH]; intros m; auto. cbn [fold_left]. rewrite IH. apply place_bits. Qed.
  Lemma places_left l : forall m, ok m -> length l < sw_left m -> sw_left m <= length l + sw_left (fold_left (sw_place w hash tag) l m).
  Proof.
    induction l as [|p l IH]; intros m Hm Hl; cbn [fold_left length] in *; [lia|].
    destruct (place_ok w hash tag m p Hm ltac:(lia)) as [H1 [_ H3]]. specialize (IH _ H1 ltac:(lia)). lia.
  Qed.
  (** a rebuilding to a size with room for the pairs *)
  Lemma rebuild_at policy m b : ok m -> sw_left m = 0 -> (if sw_items m <? room (2 ^ policy m) then policy m else S (sw_bits m)) = b -> 0 < b -> sw_items m < room (2 ^ b) ->
    sw_bits (sw_rebuild w hash tag policy m) = b /\ room (2 ^ b) <= sw_items m + sw_left (sw_rebuild w hash tag policy m).
  Proof.
    intros Hm _ E Hb Hr. unfold sw_rebuild. cbv zeta. rewrite E, places_bits. split; [reflexivity|].
    destruct (fresh_ok (T := T) w hash tag (sw_seed m) b Hb) as [F1 _]. rewrite (ok_items _ _ _ m Hm) in *. apply (places_left _ _ F1). exact Hr.
  Qed.
  Lemma insert_costs m h t : ok m -> let m' := sw_insert w hash tag std_policy m h t in
    (sw_moves w hash m h = 0 /\ sw_bits m' = sw_bits m /\ sw_left m <= S (sw_left m')) \/
    (sw_left m = 0 /\ sw_moves w hash m h = sw_items m /\ room (2 ^ sw_bits m') <= S (sw_items m + sw_left m') /\
     3 * sw_items m <= room (2 ^ sw_bits m) + room (2 ^ sw_bits m') /\
     (sw_bits m' = sw_bits m \/ sw_bits m' = S (sw_bits m) /\ room (2 ^ sw_bits m) < 2 * S (sw_items m))).
  Proof.
    intros Hm. cbv zeta. unfold sw_moves, sw_insert. destruct (free_spec w hash tag m h Hm) as [i [-> [H1 [H2 H3]]]].
    destruct (Nat.eqb_spec (sw_left m) 0) as [E0|E0]; cbn [andb].
    2:{ left. split; auto. split; [reflexivity|]. cbn [sw_left sw_fill]. destruct (is_empty_slot (slot m i)); lia. }
    destruct (is_empty_slot (slot m i)) eqn:Ee.
    2:{ left. split; auto. split; [reflexivity|]. cbn [sw_left sw_fill]. rewrite Ee. lia. }
    right. split; auto. split; auto. assert (Hr := items_room w hash tag m Hm). unfold buckets in Hr. assert (Hb := ok_bits _ _ _ m Hm).
    assert (Hd := room_twice _ Hb). assert (Hp : 0 < room (2 ^ sw_bits m)). { assert (G := room_half _ Hb). assert (2 ^ sw_bits m <> 0) by (apply Nat.pow_nonzero; lia). lia. }
    assert (Hx : exists b, (if sw_items m <? room (2 ^ std_policy m) then std_policy m else S (sw_bits m)) = b /\ 0 < b /\ sw_items m < room (2 ^ b) /\
      3 * sw_items m <= room (2 ^ sw_bits m) + room (2 ^ b) /\ (b = sw_bits m \/ b = S (sw_bits m) /\ room (2 ^ sw_bits m) < 2 * S (sw_items m))).
    { unfold std_policy. destruct (Nat.leb_spec (2 * S (sw_items m)) (room (2 ^ sw_bits m))) as [G|G].
      - exists (sw_bits m). destruct (Nat.ltb_spec (sw_items m) (room (2 ^ sw_bits m))); [|lia]. repeat split; auto; lia.
      - exists (S (sw_bits m)). destruct (sw_items m <? room (2 ^ S (sw_bits m))); repeat split; auto; lia. }
    destruct Hx as [b [Eb [B1 [B2 [B3 B4]]]]]. destruct (rebuild_at std_policy m b Hm E0 Eb B1 B2) as [R1 R2].
    rewrite place_bits, R1. destruct (rebuild_ok w hash tag std_policy m Hm) as [Q1 [_ Q3]]. destruct (place_ok w hash tag _ (h, t) Q1 Q3) as [_ [_ P3]].
    repeat split; auto. lia.
  Qed.
  Lemma put_fields m i t : sw_bits (sw_put m i t) = sw_bits m /\ sw_left (sw_put m i t) = sw_left m /\ sw_items (sw_put m i t) = sw_items m.
  Proof. unfold sw_put. destruct (slot m i); auto. Qed.
  Lemma erase_left m i : sw_bits (fst (sw_replace w m i None)) = sw_bits m /\ sw_left m <= sw_left (fst (sw_replace w m i None)).
  Proof. unfold sw_replace, sw_erase. cbv zeta. cbn [fst]. destruct (_ <=? _); cbn; auto. Qed.

  Notation grun := (lg_run w eq hash tag draw bits0 std_policy).
  Notation gstep := (lg_step w eq hash tag std_policy).
  Lemma run_snoc policy h t os o : lg_run w eq hash tag draw bits0 policy h t (os ++ [o]) = lg_step w eq hash tag policy (lg_run w eq hash tag draw bits0 policy h t os) o.
  Proof. unfold lg_run. rewrite fold_left_app. reflexivity. Qed.
  Lemma step_inv policy (l : Ledger Seed Hi T) o : inv (lg_table l) -> inv (lg_table (lg_step w eq hash tag policy l o)).
  Proof.
    intros Hm. destruct o as [h t|h]; cbn [lg_step]; destruct (sw_lookup w eq hash tag (lg_table l) h) as [[i t0]|] eqn:E; cbn [lg_table]; auto.
    - destruct (at_ok w eq eq_spec hash tag _ h i t0 Hm E) as [rest [_ [G _]]]. apply G.
    - apply sw_insert_inv; auto. assert (G := proj2 (lookup_spec w eq eq_spec hash tag _ h Hm)). rewrite E in G. exact G.
    - destruct (at_ok w eq eq_spec hash tag _ h i t0 Hm E) as [rest [_ [_ [_ [_ [_ [G _]]]]]]]. exact G.
  Qed.
  Lemma run_inv policy h t os : inv (lg_table (lg_run w eq hash tag draw bits0 policy h t os)).
  Proof.
    induction os as [|o os IH] using rev_ind; [apply one_ok|]. rewrite run_snoc. apply step_inv, IH.
  Qed.
  Lemma first_fields policy h t : sw_bits (h_one (Swiss_hash w eq hash tag draw bits0 policy) h t) = S bits0 /\
    room (2 ^ S bits0) <= S (sw_left (h_one (Swiss_hash w eq hash tag draw bits0 policy) h t)).
  Proof.
    cbn [h_one Swiss_hash]. unfold sw_insert. destruct (fresh_ok (T := T) w hash tag (draw h t) (S bits0) ltac:(lia)) as [F1 _].
    destruct (free_spec w hash tag _ h F1) as [i [-> _]]. assert (G := room_half (S bits0) ltac:(lia)). assert (2 ^ S bits0 <> 0) by (apply Nat.pow_nonzero; lia).
    cbn [sw_left fresh]. destruct (Nat.eqb_spec (room (2 ^ S bits0)) 0); [lia|]. cbn [andb sw_fill sw_bits sw_left fresh]. split; auto. destruct (is_empty_slot _); lia.
  Qed.
  Lemma ledger h t os : let l := grun h t os in
    lg_moved l <= 2 * lg_calls l /\ lg_moved l + room (2 ^ sw_bits (lg_table l)) <= 2 * lg_calls l + 2 * sw_left (lg_table l).
  Proof.
    cbv zeta. induction os as [|o os IH] using rev_ind.
    - unfold lg_run. cbn [fold_left lg_table lg_calls lg_moved]. destruct (first_fields std_policy h t) as [-> G]. split; [lia|].
      destruct (room (2 ^ S bits0)); lia.
    - rewrite run_snoc. assert (Hm := run_inv std_policy h t os). set (l := grun h t os) in *. destruct IH as [I1 I2].
      destruct o as [k v|k]; cbn [lg_step]; destruct (sw_lookup w eq hash tag (lg_table l) k) as [[i t0]|] eqn:E; cbn [lg_table lg_calls lg_moved]; auto.
      + destruct (put_fields (lg_table l) i v) as [-> [-> _]]. auto.
      + destruct (insert_costs (lg_table l) k v (proj1 Hm)) as [[-> [-> G]]|[E0 [-> [G1 [G2 _]]]]]; [lia|].
        assert (Hr := items_room w hash tag _ (proj1 Hm)). unfold buckets in Hr. lia.
      + destruct (erase_left (lg_table l) i) as [-> G]. lia.
  Qed.
  Lemma sizes h t os p : (forall os1 os2, os = os1 ++ os2 -> sw_items (lg_table (grun h t os1)) <= p) ->
    sw_bits (lg_table (grun h t os)) = S bits0 \/ 2 ^ sw_bits (lg_table (grun h t os)) + 4 <= 8 * p.
  Proof.
    induction os as [|o os IH] using rev_ind; intros Hp; [left; apply first_fields|].
    assert (Hp' : forall os1 os2, os = os1 ++ os2 -> sw_items (lg_table (grun h t os1)) <= p) by (intros os1 os2 E; apply (Hp os1 (os2 ++ [o])); rewrite E, app_assoc; auto).
    specialize (IH Hp'). assert (Ho := Hp (os ++ [o]) [] ltac:(rewrite app_nil_r; auto)). rewrite run_snoc in *. assert (Hm := run_inv std_policy h t os). set (l := grun h t os) in *.
    destruct o as [k v|k]; cbn [lg_step] in *; destruct (sw_lookup w eq hash tag (lg_table l) k) as [[i t0]|] eqn:E; cbn [lg_table] in *; auto.
    - destruct (put_fields (lg_table l) i v) as [-> _]. auto.
    - destruct (insert_costs (lg_table l) k v (proj1 Hm)) as [[_ [-> _]]|[_ [_ [_ [_ [->|[-> G]]]]]]]; auto. right.
      assert (Hb := ok_bits _ _ _ _ (proj1 Hm)). assert (H2 := room_half _ Hb).
      destruct (sw_insert_ok w hash tag std_policy (lg_table l) k v (proj1 Hm)) as [O1 O2]. apply Permutation_length in O2. cbn [length] in O2.
      rewrite <- (ok_items _ _ _ _ O1), <- (ok_items _ _ _ _ (proj1 Hm)) in O2. cbn [Nat.pow]. lia.
    - destruct (erase_left (lg_table l) i) as [-> _]. auto.
  Qed.
  Lemma tables policy m : sw_made w eq hash tag draw bits0 policy m <-> exists h t os, lg_table (lg_run w eq hash tag draw bits0 policy h t os) = m.
  Proof.
    split.
    - induction 1 as [h t|m h t Hm IH El|m h i t t' Hm IH El|m h i t ot Hm IH El].
      + exists h, t, []. reflexivity.
      + destruct IH as [h0 [t0 [os <-]]]. exists h0, t0, (os ++ [HPut h t]). rewrite run_snoc. cbn [lg_step]. rewrite El. reflexivity.
      + destruct IH as [h0 [t0 [os <-]]]. exists h0, t0, (os ++ [HPut h t']). rewrite run_snoc. cbn [lg_step]. rewrite El. reflexivity.
      + destruct IH as [h0 [t0 [os <-]]]. destruct ot as [t'|].
        * exists h0, t0, (os ++ [HPut h t']). rewrite run_snoc. cbn [lg_step]. rewrite El. cbn [lg_table].
          destruct (at_ok w eq eq_spec hash tag _ h i t (run_inv policy h0 t0 os) El) as [rest [_ [_ [_ [G _]]]]]. rewrite G. reflexivity.
        * exists h0, t0, (os ++ [HDel h]). rewrite run_snoc. cbn [lg_step]. rewrite El. reflexivity.
    - intros [h [t [os <-]]]. induction os as [|o os IH] using rev_ind; [apply SM_one|]. rewrite run_snoc. set (l := lg_run w eq hash tag draw bits0 policy h t os) in *.
      destruct o as [k v|k]; cbn [lg_step]; destruct (sw_lookup w eq hash tag (lg_table l) k) as [[i t0]|] eqn:E; cbn [lg_table]; auto.
      + eapply SM_put; eauto.
      + eapply SM_insert; eauto.
      + eapply SM_replace; eauto.
  Qed.
  (** what is counted *)
  Notation has := (fun (m : M) => map fst (pairs_of (sw_slots m))).
  Lemma has_eq m h : inv m -> sw_lookup w eq hash tag m h = None <-> ~ In h (has m).
  Proof.
    intros Hm. assert (G := proj2 (lookup_spec w eq eq_spec hash tag m h Hm)). destruct (sw_lookup w eq hash tag m h) as [[i t]|]; [|tauto].
    destruct G as [g E]. split; [discriminate|]. intros Hn. elim Hn. apply (in_map fst (pairs_of (sw_slots m)) (h, t)). apply pairs_in. exists i, g. exact E.
  Qed.
  Lemma absent_app os1 : forall os2 ks, absent_puts eq ks (os1 ++ os2) = absent_puts eq ks os1 + absent_puts eq (keys_after eq ks os1) (os2 : list (hop Hi T)).
  Proof.
    induction os1 as [|[h t|h] os1 IH]; intros os2 ks; auto; cbn [app absent_puts keys_after].
    - destruct (existsb (eq h) ks); rewrite IH; auto.
    - apply IH.
  Qed.
  Lemma keys_app os1 : forall os2 ks, keys_after eq ks (os1 ++ os2) = keys_after eq (keys_after eq ks os1) (os2 : list (hop Hi T)).
  Proof. induction os1 as [|[h t|h] os1 IH]; intros os2 ks; auto; cbn [app keys_after]; [destruct (existsb (eq h) ks)|]; apply IH. Qed.
  Lemma mem_spec h ks : existsb (eq h) ks = true <-> In h ks.
  Proof. rewrite existsb_exists. split; [intros [x [H1 H2]]; apply eq_spec in H2; subst; auto|]. intros H. exists h. split; auto. apply eq_spec. auto. Qed.
  Lemma counted policy h t os : let l := lg_run w eq hash tag draw bits0 policy h t os in
    lg_calls l = S (absent_puts eq [h] os) /\ forall k, In k (has (lg_table l)) <-> In k (keys_after eq [h] os).
  Proof.
    cbv zeta. induction os as [|o os [I1 I2]] using rev_ind.
    - split; [reflexivity|]. intros k. unfold lg_run. cbn [fold_left lg_table h_one Swiss_hash keys_after]. rewrite (proj2 (one_ok w hash tag draw bits0 policy h t)). reflexivity.
    - rewrite run_snoc, absent_app, keys_app. assert (Hm := run_inv policy h t os). set (l := lg_run w eq hash tag draw bits0 policy h t os) in *. set (ks := keys_after eq [h] os) in *.
      destruct o as [k v|k]; cbn [lg_step absent_puts keys_after].
      + assert (E := has_eq (lg_table l) k Hm). rewrite I2, <- mem_spec in E. destruct (sw_lookup w eq hash tag (lg_table l) k) as [[i t0]|] eqn:El; cbn [lg_table lg_calls].
        * destruct (existsb (eq k) ks) eqn:Ee; [|exfalso; destruct E as [_ E]; discriminate (E ltac:(discriminate))]. split; [lia|]. intros j. rewrite <- I2.
          destruct (at_ok w eq eq_spec hash tag _ k i t0 Hm El) as [rest [P1 [P2 _]]]. destruct (P2 v) as [_ P3].
          split; intros Hj; [apply (Permutation_in _ (Permutation_map fst P3)) in Hj; apply (Permutation_in _ (Permutation_sym (Permutation_map fst P1)))|
            apply (Permutation_in _ (Permutation_map fst P1)) in Hj; apply (Permutation_in _ (Permutation_sym (Permutation_map fst P3)))]; exact Hj.
        * destruct (existsb (eq k) ks) eqn:Ee; [exfalso; destruct E as [E _]; exact (E Logic.eq_refl Logic.eq_refl)|]. split; [lia|]. intros j. cbn [In]. rewrite <- I2.
          destruct (sw_insert_ok w hash tag policy (lg_table l) k v (proj1 Hm)) as [_ P]. apply (Permutation_map fst) in P.
          split; intros Hj; [apply (Permutation_in _ P) in Hj; exact Hj|apply (Permutation_in _ (Permutation_sym P)); exact Hj].
      + rewrite Nat.add_0_r. assert (F : forall j, In j (filter (fun k' => negb (eq k k')) ks) <-> In j ks /\ k <> j).
        { intros j. rewrite filter_In. assert (Es := eq_spec k j). destruct (eq k j); cbn [negb].
          - split; [intros [_ G]; discriminate|]. intros [_ G]. elim G. apply Es. reflexivity.
          - split; intros [G _]; split; auto. intros G'. apply Es in G'. discriminate. }
        assert (E := has_eq (lg_table l) k Hm). destruct (sw_lookup w eq hash tag (lg_table l) k) as [[i t0]|] eqn:El; cbn [lg_table lg_calls]; (split; [lia|]); intros j; rewrite F, <- I2.
        * destruct (at_ok w eq eq_spec hash tag _ k i t0 Hm El) as [rest [P1 [_ [_ [_ [_ [_ P3]]]]]]]. assert (Hn := proj2 Hm). apply (Permutation_NoDup (Permutation_map fst P1)) in Hn.
          cbn [map fst] in Hn. inversion Hn as [|x y N1 N2]; subst. split.
          -- intros Hj. apply (Permutation_in _ (Permutation_map fst P3)) in Hj. split; [|intros ->; auto]. apply (Permutation_in _ (Permutation_sym (Permutation_map fst P1))). right. exact Hj.
          -- intros [Hj Hne]. apply (Permutation_in _ (Permutation_map fst P1)) in Hj. destruct Hj as [Hj|Hj]; [elim Hne; exact Hj|]. apply (Permutation_in _ (Permutation_sym (Permutation_map fst P3))). exact Hj.
        * split; [|tauto]. intros Hj. split; auto. intros ->. apply E in Hj; auto.
  Qed.
  Lemma moved_counted policy h t os o : let l := lg_run w eq hash tag draw bits0 policy h t os in let l' := lg_run w eq hash tag draw bits0 policy h t (os ++ [o]) in
    (lg_moved l' = lg_moved l /\ exists i s, sw_slots (lg_table l') = list_set (sw_slots (lg_table l)) i s) \/
    lg_moved l' = lg_moved l + length (pairs_of (sw_slots (lg_table l))).
  Proof.
    cbv zeta. rewrite run_snoc. assert (Hm := run_inv policy h t os). set (l := lg_run w eq hash tag draw bits0 policy h t os) in *.
    assert (Same : forall i : nat, sw_slots (lg_table l) = list_set (sw_slots (lg_table l)) i (nth i (sw_slots (lg_table l)) SEmpty)) by (intros i; symmetry; apply set_back).
    destruct o as [k v|k]; cbn [lg_step]; destruct (sw_lookup w eq hash tag (lg_table l) k) as [[i t0]|] eqn:El; cbn [lg_table lg_moved].
    - left. split; auto. unfold sw_put. destruct (slot (lg_table l) i); cbn [sw_slots]; unfold set_slot; first [exists i; eexists; reflexivity|exists i, (nth i (sw_slots (lg_table l)) SEmpty); apply Same].
    - unfold sw_moves, sw_insert. destruct (free_spec w hash tag (lg_table l) k (proj1 Hm)) as [i [-> _]].
      destruct ((sw_left (lg_table l) =? 0) && is_empty_slot (slot (lg_table l) i)); [right; rewrite (ok_items _ _ _ _ (proj1 Hm)); reflexivity|].
      left. split; [lia|]. cbn [sw_fill sw_slots]. unfold set_slot. exists i. eexists. reflexivity.
    - left. split; auto. unfold sw_replace. cbn [fst]. destruct (erase_fields w (lg_table l) i) as [_ [_ [_ [s E]]]]. exists i, s. exact E.
    - left. split; auto. exists 0, (nth 0 (sw_slots (lg_table l)) SEmpty). apply Same.
  Qed.
End Proofs.
Lemma slots_sizes w {Seed Hi T : Type} (eq : Hi -> Hi -> bool) (Heq : forall a b, eq a b = true <-> a = b) (hash : Seed -> Hi -> N) tag (draw : Hi -> T -> Seed) bits0 h t os p :
  (forall os1 os2, os = os1 ++ os2 -> length (pairs_of (sw_slots (lg_table (lg_run w eq hash tag draw bits0 std_policy h t os1)))) <= p) ->
  let m := lg_table (lg_run w eq hash tag draw bits0 std_policy h t os) in
  length (sw_slots m) = 2 ^ S bits0 \/ length (sw_slots m) + 4 <= 8 * p.
Proof.
  intros Hp. cbv zeta. assert (G := fun o => proj1 (run_inv w eq Heq hash tag draw bits0 std_policy h t o)). rewrite (ok_len _ _ _ _ (G os)). unfold buckets.
  destruct (sizes w eq Heq hash tag draw bits0 h t os p) as [->|E]; auto. intros os1 os2 E. rewrite (ok_items _ _ _ _ (G os1)). eauto.
Qed.
