(** The probed table of Probe.v keeps the contract of a hash map. *)
From Verif Require Import Base Ints Ops ByteMap Coll HashGen Lists CollProofs GenMapProofs HashGenCor Probe.
Local Open Scope nat_scope.

(** *** Triangular numbers run through all residues of a power of two *)
Fixpoint tri (i : nat) : nat := match i with O => O | S i => S i + tri i end.
Lemma tri_double i : 2 * tri i = i * S i.
Proof. induction i as [|i IH]; cbn [tri]; [reflexivity|]. rewrite Nat.mul_add_distr_l, IH. lia. Qed.
Lemma pow_divide_odd a b c : Nat.divide (2 ^ c) (a * b) -> Nat.Odd a -> Nat.divide (2 ^ c) b.
Proof.
  intros Hd [q ->]. revert b Hd. induction c as [|c IH]; intros b Hd; [apply Nat.divide_1_l|]. cbn [Nat.pow] in *.
  destruct Hd as [z Hz].
  destruct (Nat.Even_or_Odd b) as [[b' Hb]|[b' Hb]].
  - subst b. apply Nat.mul_divide_mono_l. apply IH. exists z. nia.
  - exfalso. nia.
Qed.
Lemma tri_inj c a b : a < 2 ^ c -> b < a -> tri a mod 2 ^ c = tri b mod 2 ^ c -> False.
Proof.
  intros Ha Hb E. assert (Hp : 2 ^ c <> 0) by (apply Nat.pow_nonzero; lia).
  assert (Hd : Nat.divide (2 ^ S c) ((a - b) * (a + b + 1))).
  { exists (tri a / 2 ^ c - tri b / 2 ^ c). cbn [Nat.pow]. assert (A := Nat.div_mod (tri a) (2 ^ c) Hp). assert (B := Nat.div_mod (tri b) (2 ^ c) Hp).
    assert (A2 := tri_double a). assert (B2 := tri_double b). rewrite E in A. set (r := tri b mod 2 ^ c) in *. set (qa := tri a / 2 ^ c) in *. set (qb := tri b / 2 ^ c) in *.
    set (n := 2 ^ c) in *.
    assert (Ed : (a - b) * (a + b + 1) = a * S a - b * S b) by nia. rewrite Ed, <- A2, <- B2, A, B. clear. nia. }
  destruct (Nat.Even_or_Odd (a - b)) as [He|Ho].
  - assert (Ho : Nat.Odd (a + b + 1)). { destruct He as [x Hx]. exists (b + x). lia. }
    rewrite Nat.mul_comm in Hd. apply (pow_divide_odd _ _ _ Hd) in Ho. apply Nat.divide_pos_le in Ho; [|lia]. cbn [Nat.pow] in Ho. lia.
  - apply (pow_divide_odd _ _ _ Hd) in Ho. apply Nat.divide_pos_le in Ho; [|lia]. cbn [Nat.pow] in Ho. lia.
Qed.
Lemma tri_onto c q : q < 2 ^ c -> exists i, i < 2 ^ c /\ tri i mod 2 ^ c = q.
Proof.
  intros Hq. assert (Hp : 2 ^ c <> 0) by lia.
  set (l := map (fun i => tri i mod 2 ^ c) (seq 0 (2 ^ c))).
  assert (Hn : NoDup l).
  { apply NoDup_nth with (d := 0). intros i j Hi Hj E. unfold l in *. rewrite map_length, seq_length in *.
    assert (En : forall x, x < 2 ^ c -> nth x (map (fun i => tri i mod 2 ^ c) (seq 0 (2 ^ c))) 0 = tri x mod 2 ^ c).
    { intros x Hx. rewrite (nth_indep _ 0 (tri 0 mod 2 ^ c)) by (rewrite map_length, seq_length; auto).
      rewrite (map_nth (fun i => tri i mod 2 ^ c)), seq_nth by auto. reflexivity. }
    rewrite !En in E by auto. destruct (Nat.lt_trichotomy i j) as [L|[L|L]]; auto; exfalso; [apply (tri_inj c j i)|apply (tri_inj c i j)]; auto. }
  assert (Hi : incl l (seq 0 (2 ^ c))).
  { intros x Hx. unfold l in Hx. apply in_map_iff in Hx. destruct Hx as [i [<- _]]. apply in_seq. assert (H := Nat.mod_upper_bound (tri i) (2 ^ c) Hp). lia. }
  assert (Hx : incl (seq 0 (2 ^ c)) l). { apply NoDup_length_incl; auto. unfold l. rewrite map_length, !seq_length. lia. }
  assert (H : In q l) by (apply Hx, in_seq; lia). unfold l in H. apply in_map_iff in H. destruct H as [i [E H]]. apply in_seq in H. exists i. split; auto. lia.
Qed.

(** *** Searches within a group *)
Lemma first_of_some p k : forall j x, first_of p k j = Some x -> j <= x < j + k /\ p x = true /\ forall y, j <= y < x -> p y = false.
Proof.
  induction k as [|k IH]; cbn; intros j x E; [discriminate|]. destruct (p j) eqn:Ep.
  - injection E as <-. split; [lia|]. split; auto. intros; lia.
  - destruct (IH _ _ E) as [H1 [H2 H3]]. split; [lia|]. split; auto. intros y Hy. destruct (Nat.eq_dec y j) as [->|]; auto. apply H3. lia.
Qed.
Lemma first_of_none p k : forall j, first_of p k j = None <-> forall x, j <= x < j + k -> p x = false.
Proof.
  induction k as [|k IH]; cbn; intros j; [split; auto; intros; lia|]. destruct (p j) eqn:Ep.
  - split; [discriminate|]. intros H. rewrite H in Ep by lia. discriminate.
  - rewrite IH. split; intros H x Hx; [|apply H; lia]. destruct (Nat.eq_dec x j) as [->|]; auto. apply H. lia.
Qed.
Lemma first_of_ex p k x : x < k -> p x = true -> exists y, first_of p k 0 = Some y.
Proof.
  intros Hx Hp. destruct (first_of p k 0) as [y|] eqn:E; eauto. rewrite first_of_none in E. rewrite E in Hp by lia. discriminate.
Qed.
Lemma zeros_spec p k : forall j, zeros p k j <= k /\ (zeros p k j < k -> p (j + zeros p k j) = true).
Proof.
  induction k as [|k IH]; cbn; intros j; [split; auto; lia|]. destruct (p j) eqn:Ep.
  - split; [lia|]. rewrite Nat.add_0_r. auto.
  - destruct (IH (S j)) as [H1 H2]. split; [lia|]. intros H. rewrite Nat.add_succ_r. apply H2. lia.
Qed.
Lemma mod2 x n : x < 2 * n -> x mod n = if x <? n then x else x - n.
Proof.
  intros H. destruct (Nat.ltb_spec x n); [apply Nat.mod_small; auto|]. assert (n <> 0) by lia.
  replace x with (x - n + 1 * n) at 1 by lia. rewrite Nat.mod_add by auto. apply Nat.mod_small. lia.
Qed.

(** *** Which slots a group shows *)
Section Groups.
  Context (w : nat).
  Notation W := (width w).
  Notation at_ := (slot_at w).
  Lemma W_pos : 0 < W.
  Proof. unfold width. assert (2 ^ w <> 0) by (apply Nat.pow_nonzero; lia). lia. Qed.
  Definition gpos (n p i : nat) : nat := (p + W * tri i) mod n.
  Lemma gpos_0 n p : p < n -> gpos n p 0 = p.
  Proof. intros H. unfold gpos. cbn [tri]. rewrite Nat.mul_0_r, Nat.add_0_r. apply Nat.mod_small, H. Qed.
  Lemma gpos_next n p i : n <> 0 -> (gpos n p i + (W * i + W)) mod n = gpos n p (S i).
  Proof. intros H. unfold gpos. rewrite Nat.add_mod_idemp_l by auto. f_equal. cbn [tri]. nia. Qed.
  Lemma gpos_lt n p i : n <> 0 -> gpos n p i < n.
  Proof. intros H. apply Nat.mod_upper_bound, H. Qed.
  Lemma at_lt n p i : n <> 0 -> p < n + W -> at_ n p = Some i -> i < n.
  Proof.
    intros Hn Hp. unfold slot_at. destruct (n <? W); [|intros E; injection E as <-; apply Nat.mod_upper_bound; auto].
    destruct (Nat.ltb_spec p n); [intros E; injection E as <-; auto|]. destruct (Nat.ltb_spec p W); [discriminate|]. intros E. injection E as <-. lia.
  Qed.
  Lemma at_mod b p i : p < 2 ^ b + W -> at_ (2 ^ b) p = Some i -> p mod 2 ^ b = i.
  Proof.
    intros Hp. assert (Hn : 2 ^ b <> 0) by (apply Nat.pow_nonzero; lia). unfold slot_at. destruct (Nat.ltb_spec (2 ^ b) W) as [Hl|Hl]; [|congruence].
    destruct (Nat.ltb_spec p (2 ^ b)); [intros E; injection E as <-; apply Nat.mod_small; auto|]. destruct (Nat.ltb_spec p W); [discriminate|].
    intros E. injection E as <-. unfold width in *.
    assert (Hbw : b < w). { apply (Nat.pow_lt_mono_r_iff 2); lia. }
    assert (Ew : 2 ^ w = 2 ^ (w - b) * 2 ^ b) by (rewrite <- Nat.pow_add_r; f_equal; lia).
    replace p with (p - 2 ^ w + 2 ^ (w - b) * 2 ^ b) at 1 by lia. rewrite Nat.mod_add by auto. apply Nat.mod_small. lia.
  Qed.
  Lemma see_small n p i : n < W -> p < n -> i < n -> exists j, j < W /\ at_ n (p + j) = Some i.
  Proof.
    intros Hn Hp Hi. unfold slot_at. rewrite (proj2 (Nat.ltb_lt _ _) Hn). destruct (Nat.le_gt_cases p i) as [L|L].
    - exists (i - p). split; [lia|]. replace (p + (i - p)) with i by lia. rewrite (proj2 (Nat.ltb_lt _ _) Hi). reflexivity.
    - exists (W - p + i). split; [lia|]. replace (p + (W - p + i)) with (W + i) by lia.
      rewrite (proj2 (Nat.ltb_ge _ _)), (proj2 (Nat.ltb_ge _ _)) by lia. f_equal. lia.
  Qed.
  Lemma pad n p : n < W -> p < n -> exists j, j < W /\ at_ n (p + j) = None.
  Proof.
    intros Hn Hp. exists (n - p). split; [lia|]. unfold slot_at. rewrite (proj2 (Nat.ltb_lt _ _) Hn). replace (p + (n - p)) with n by lia.
    rewrite Nat.ltb_irrefl, (proj2 (Nat.ltb_lt _ _) Hn). reflexivity.
  Qed.
  (** every slot is shown by one of the first groups *)
  Lemma see_all b p i : p < 2 ^ b -> i < 2 ^ b -> exists k j, k < 2 ^ b /\ j < W /\ at_ (2 ^ b) (gpos (2 ^ b) p k + j) = Some i.
  Proof.
    intros Hp Hi. assert (HW := W_pos). destruct (Nat.lt_ge_cases (2 ^ b) W) as [Hl|Hl].
    { destruct (see_small (2 ^ b) p i Hl Hp Hi) as [j [H1 H2]]. exists 0, j. rewrite gpos_0 by auto. split; [lia|auto]. }
    assert (Hn : 2 ^ b <> 0) by lia.
    assert (Hwb : w <= b). { unfold width in Hl. apply (Nat.pow_le_mono_r_iff 2) in Hl; lia. }
    assert (Eb : 2 ^ b = W * 2 ^ (b - w)) by (unfold width; rewrite <- Nat.pow_add_r; f_equal; lia).
    set (d := (i + (2 ^ b - p)) mod 2 ^ b).
    assert (Hd : d < 2 ^ b) by (apply Nat.mod_upper_bound; auto).
    assert (Hq : d / W < 2 ^ (b - w)) by (apply Nat.div_lt_upper_bound; [lia|]; rewrite <- Eb; auto).
    destruct (tri_onto (b - w) _ Hq) as [k [Hk Ek]]. exists k, (d mod W).
    split. { assert (2 ^ (b - w) <= 2 ^ b) by (apply Nat.pow_le_mono_r; lia). lia. }
    split; [apply Nat.mod_upper_bound; lia|].
    unfold slot_at. rewrite (proj2 (Nat.ltb_ge _ _) Hl). f_equal. unfold gpos. rewrite Nat.add_mod_idemp_l by auto.
    assert (Et : W * tri k = W * (d / W) + 2 ^ b * (tri k / 2 ^ (b - w))).
    { rewrite Eb, <- Nat.mul_assoc, <- Nat.mul_add_distr_l. f_equal. rewrite <- Ek, Nat.add_comm. apply Nat.div_mod. lia. }
    rewrite Et. replace (p + (W * (d / W) + 2 ^ b * (tri k / 2 ^ (b - w))) + d mod W) with (p + (W * (d / W) + d mod W) + (tri k / 2 ^ (b - w)) * 2 ^ b) by lia.
    rewrite Nat.mod_add by auto. rewrite <- Nat.div_mod by lia. unfold d. rewrite Nat.add_mod_idemp_r by auto.
    replace (p + (i + (2 ^ b - p))) with (i + 1 * 2 ^ b) by lia. rewrite Nat.mod_add by auto. apply Nat.mod_small, Hi.
  Qed.
End Groups.

(** *** Room *)
Lemma room_lt b : 0 < b -> room (2 ^ b) < 2 ^ b.
Proof.
  intros Hb. assert (2 ^ b <> 0) by (apply Nat.pow_nonzero; lia). unfold room. destruct (Nat.leb_spec (2 ^ b) 8); [lia|].
  assert (E := Nat.div_mod (2 ^ b) 8 ltac:(lia)). assert (L := Nat.mod_upper_bound (2 ^ b) 8 ltac:(lia)). lia.
Qed.
Lemma room_double b : 0 < b -> room (2 ^ b) < room (2 ^ S b).
Proof.
  intros Hb. assert (2 ^ b <> 0) by (apply Nat.pow_nonzero; lia). cbn [Nat.pow]. set (n := 2 ^ b) in *.
  assert (E := Nat.div_mod n 8 ltac:(lia)). assert (L := Nat.mod_upper_bound n 8 ltac:(lia)).
  assert (E' := Nat.div_mod (2 * n) 8 ltac:(lia)). assert (L' := Nat.mod_upper_bound (2 * n) 8 ltac:(lia)). unfold room.
  destruct (Nat.leb_spec n 8), (Nat.leb_spec (2 * n) 8); lia.
Qed.

(** *** Lists of slots *)
Section Slots.
  Context {Hi T : Type}.
  Implicit Types l : list (Slot Hi T).
  Definition empties l : nat := length (filter is_empty_slot l).
  Definition one (s : Slot Hi T) : nat := if is_empty_slot s then 1 else 0.
  Lemma empties_mid (A C : list (Slot Hi T)) s : empties (A ++ s :: C) = empties A + one s + empties C.
  Proof. unfold empties, one. rewrite filter_app, app_length. cbn. destruct (is_empty_slot s); cbn; lia. Qed.
  Lemma pairs_mid (A C : list (Slot Hi T)) s : pairs_of (A ++ s :: C) = pairs_of A ++ pairs_of [s] ++ pairs_of C.
  Proof. unfold pairs_of. rewrite flat_map_app. cbn. rewrite app_nil_r. reflexivity. Qed.
  Lemma set_split l i d : i < length l -> exists A C, l = A ++ nth i l d :: C /\ forall x, list_set l i x = A ++ x :: C.
  Proof.
    intros H. destruct (nth_split l d H) as [A [C [E1 E2]]]. exists A, C. split; auto. intros x. rewrite E1 at 1. rewrite <- E2. apply list_set_mid.
  Qed.
  Lemma set_length l i x : length (list_set l i x) = length l.
  Proof. revert i. induction l as [|y l IH]; intros [|i]; cbn; auto. Qed.
  Lemma set_nth l i x k d : i < length l -> nth k (list_set l i x) d = if i =? k then x else nth k l d.
  Proof.
    revert i k. induction l as [|y l IH]; intros [|i] [|k] H; cbn in *; try lia; auto. apply IH. lia.
  Qed.
  Lemma set_twice l i x y : list_set (list_set l i x) i y = list_set l i y.
  Proof. revert i. induction l as [|z l IH]; intros [|i]; cbn; auto. rewrite IH. reflexivity. Qed.
  Lemma set_back l i d : list_set l i (nth i l d) = l.
  Proof. revert i. induction l as [|z l IH]; intros [|i]; cbn; auto. rewrite IH. reflexivity. Qed.
  Lemma count_le l : length (pairs_of l) + empties l <= length l.
  Proof.
    unfold empties, pairs_of in *. induction l as [|s l IH]; [cbn; lia|]. destruct s; cbn [flat_map app filter is_empty_slot length]; lia.
  Qed.
  Lemma count_all l : length (pairs_of l) + empties l + length (filter is_tomb l) = length l.
  Proof.
    unfold empties, pairs_of in *. induction l as [|s l IH]; [reflexivity|]. destruct s; cbn [flat_map app filter is_empty_slot is_tomb length]; lia.
  Qed.
  Lemma empty_in l : 0 < empties l -> exists i, i < length l /\ nth i l SEmpty = SEmpty.
  Proof.
    unfold empties. intros H. destruct (filter is_empty_slot l) as [|s r] eqn:E; [cbn in H; lia|].
    assert (Hs : In s (filter is_empty_slot l)) by (rewrite E; left; reflexivity). apply filter_In in Hs. destruct Hs as [H1 H2].
    destruct s; try discriminate. apply In_nth with (d := SEmpty) in H1. exact H1.
  Qed.
  Lemma pairs_in l h t : In (h, t) (pairs_of l) <-> exists i g, nth i l SEmpty = SFull g h t.
  Proof.
    unfold pairs_of. rewrite in_flat_map. split.
    - intros [s [H1 H2]]. destruct s as [| |g h' t']; [destruct H2|destruct H2|]. destruct H2 as [E|[]]. injection E as -> ->.
      apply In_nth with (d := SEmpty) in H1. destruct H1 as [i [_ H1]]. eauto.
    - intros [i [g E]]. exists (SFull g h t). split; [|left; reflexivity]. rewrite <- E. apply nth_In.
      destruct (Nat.lt_ge_cases i (length l)); auto. rewrite nth_overflow in E by auto. discriminate.
  Qed.
  Lemma pairs_uniq l i k g g' h t t' : NoDup (map fst (pairs_of l)) -> nth i l SEmpty = SFull g h t -> nth k l SEmpty = SFull g' h t' -> i = k.
  Proof.
    revert i k. induction l as [|s l IH]; intros [|i] [|k] Hn E1 E2; cbn in E1, E2; try discriminate; auto.
    - subst s. exfalso. cbn in Hn. inversion Hn as [|x y H1 H2]; subst. apply H1. apply (in_map fst (pairs_of l) (h, t')). apply pairs_in. eauto.
    - subst s. exfalso. cbn in Hn. inversion Hn as [|x y H1 H2]; subst. apply H1. apply (in_map fst (pairs_of l) (h, t)). apply pairs_in. eauto.
    - f_equal. apply (IH i k); auto. destruct s; cbn in Hn; [exact Hn|exact Hn|]. inversion Hn. assumption.
  Qed.
End Slots.

(** *** The table *)
Section SwissProofs.
  Context {Seed Hi T : Type} (w : nat) (eq : Hi -> Hi -> bool) (eq_spec : forall a b, eq a b = true <-> a = b)
    (hash : Seed -> Hi -> N) (tag : N -> N) (draw : Hi -> T -> Seed) (bits0 : nat) (policy : Swiss Seed Hi T -> nat).
  Notation M := (Swiss Seed Hi T).
  Notation W := (width w).
  Implicit Types m : M.
  Definition gp m (h : Hi) (k : nat) : nat := gpos w (buckets m) (start hash m h) k.
  Definition quiet m (pos : nat) : Prop := forall j, j < W -> ctrl w m (pos + j) <> SEmpty.
  Definition loud m (pos : nat) : Prop := exists j, j < W /\ ctrl w m (pos + j) = SEmpty.
  Definition sees m (pos i : nat) : Prop := exists j, j < W /\ slot_at w (buckets m) (pos + j) = Some i.
  Definition reach m (h : Hi) (i : nat) : Prop := exists k, sees m (gp m h k) i /\ forall k', k' < k -> quiet m (gp m h k').
  Record sw_ok m : Prop := {
    ok_len : length (sw_slots m) = buckets m;
    ok_bits : 0 < sw_bits m;
    ok_items : sw_items m = length (pairs_of (sw_slots m));
    ok_left : empties (sw_slots m) + room (buckets m) = buckets m + sw_left m;
    ok_reach : forall i g h t, slot m i = SFull g h t -> g = tag_of hash tag m h /\ reach m h i
  }.
  Definition sw_inv m : Prop := sw_ok m /\ NoDup (map fst (pairs_of (sw_slots m))).
  Lemma n_pos m : buckets m <> 0.
  Proof. apply Nat.pow_nonzero. lia. Qed.
  Lemma start_lt m h : start hash m h < buckets m.
  Proof. unfold start. assert (H := n_pos m). assert (L := N.mod_lt (hash (sw_seed m) h) (N.of_nat (buckets m)) ltac:(lia)). lia. Qed.
  Lemma gp_lt m h k : gp m h k < buckets m.
  Proof. apply gpos_lt, n_pos. Qed.
  Lemma gp_next m h k : (gp m h k + (W * k + W)) mod buckets m = gp m h (S k).
  Proof. apply gpos_next, n_pos. Qed.
  Lemma full_lt m i g h t : sw_ok m -> slot m i = SFull g h t -> i < buckets m.
  Proof. intros Hm E. rewrite <- (ok_len m Hm). destruct (Nat.lt_ge_cases i (length (sw_slots m))); auto. unfold slot in E. rewrite nth_overflow in E by auto. discriminate. Qed.
  Lemma has_empty m : sw_ok m -> exists i, i < buckets m /\ slot m i = SEmpty.
  Proof.
    intros Hm. destruct (empty_in (sw_slots m)) as [i [H1 H2]].
    - assert (L := ok_left m Hm). assert (R := room_lt (sw_bits m) (ok_bits m Hm)). fold (buckets m) in R. lia.
    - rewrite (ok_len m Hm) in H1. eauto.
  Qed.
  Lemma ctrl_at m p i : slot_at w (buckets m) p = Some i -> ctrl w m p = slot m i.
  Proof. intros E. unfold ctrl. rewrite E. reflexivity. Qed.
  Lemma has_loud m h : sw_ok m -> exists k, k < buckets m /\ loud m (gp m h k).
  Proof.
    intros Hm. destruct (has_empty m Hm) as [i [H1 H2]]. destruct (see_all w (sw_bits m) (start hash m h) i (start_lt m h) H1) as [k [j [Hk [Hj E]]]].
    exists k. split; [exact Hk|]. exists j. split; auto. etransitivity; [exact (ctrl_at m _ i E)|exact H2].
  Qed.
  Lemma loud_quiet m pos : loud m pos -> quiet m pos -> False.
  Proof. intros [j [H1 H2]] H. exact (H j H1 H2). Qed.
  Lemma no_match_quiet m pos : first_of (match_empty w m pos) W 0 = None -> quiet m pos.
  Proof. intros E j Hj Ej. rewrite first_of_none in E. assert (H := E j ltac:(lia)). unfold match_empty in H. rewrite Ej in H. discriminate. Qed.
  Lemma quiet_no_match m pos : quiet m pos -> first_of (match_empty w m pos) W 0 = None.
  Proof.
    intros H. apply first_of_none. intros j Hj. unfold match_empty. assert (Q := H j ltac:(lia)). destruct (ctrl w m (pos + j)); auto. congruence.
  Qed.
  Lemma no_free_quiet m pos : first_of (match_free w m pos) W 0 = None -> quiet m pos.
  Proof. intros E j Hj Ej. rewrite first_of_none in E. assert (H := E j ltac:(lia)). unfold match_free in H. rewrite Ej in H. discriminate. Qed.
  Lemma hit_sound m h pos j : hit w eq hash tag m h pos j = true -> exists g t, slot m ((pos + j) mod buckets m) = SFull g h t.
  Proof.
    unfold hit. destruct (ctrl w m (pos + j)); try discriminate. rewrite Bool.andb_true_iff. intros [_ H].
    destruct (slot m ((pos + j) mod buckets m)) as [| |g h' t']; try discriminate. apply eq_spec in H. subst h'. eauto.
  Qed.
  Lemma hit_complete m h pos j i t : pos < buckets m -> j < W -> slot_at w (buckets m) (pos + j) = Some i -> slot m i = SFull (tag_of hash tag m h) h t ->
    hit w eq hash tag m h pos j = true.
  Proof.
    intros Hp Hj Ea Es. unfold hit. rewrite (ctrl_at m _ i Ea), Es.
    assert (Em : (pos + j) mod buckets m = i) by (apply at_mod with (w := w); [unfold buckets in *; lia|exact Ea]).
    rewrite Em, Es, N.eqb_refl. cbn. apply eq_spec. reflexivity.
  Qed.
  Lemma find_present_from m h i t : sw_ok m -> NoDup (map fst (pairs_of (sw_slots m))) -> slot m i = SFull (tag_of hash tag m h) h t ->
    forall d fuel k, d < fuel -> sees m (gp m h (k + d)) i -> (forall k', k <= k' < k + d -> quiet m (gp m h k')) ->
    find_from w eq hash tag m h fuel (gp m h k) (W * k) = Some (Some i).
  Proof.
    intros Hm Hn Es. induction d as [|d IH]; intros [|fuel] k Hd Hs Hq; try lia; cbn [find_from].
    - rewrite Nat.add_0_r in Hs. destruct Hs as [j [Hj Ea]].
      destruct (first_of_ex (hit w eq hash tag m h (gp m h k)) W j Hj) as [y Ey]; [eapply hit_complete; eauto; apply gp_lt|].
      rewrite Ey. do 2 f_equal. apply first_of_some in Ey. destruct Ey as [_ [Ey _]]. apply hit_sound in Ey. destruct Ey as [g [t' Ey]].
      eapply pairs_uniq; [exact Hn|exact Ey|exact Es].
    - destruct (first_of (hit w eq hash tag m h (gp m h k)) W 0) as [y|] eqn:Ey.
      + do 2 f_equal. apply first_of_some in Ey. destruct Ey as [_ [Ey _]]. apply hit_sound in Ey. destruct Ey as [g [t' Ey]].
        eapply pairs_uniq; [exact Hn|exact Ey|exact Es].
      + rewrite quiet_no_match by (apply Hq; lia). rewrite gp_next. replace (W * k + W) with (W * S k) by lia.
        apply IH; [lia| |]. { replace (S k + d) with (k + S d) by lia. exact Hs. } intros k' Hk. apply Hq. lia.
  Qed.
  Lemma find_present m h g i t : sw_inv m -> slot m i = SFull g h t -> sw_find w eq hash tag m h = Some (Some i).
  Proof.
    intros [Hm Hn] Es. destruct (ok_reach m Hm i g h t Es) as [-> [k [Hs Hq]]]. destruct (has_loud m h Hm) as [k0 [Hk0 Hl]].
    assert (Hk : k <= k0). { destruct (Nat.le_gt_cases k k0); auto. exfalso. eapply loud_quiet; eauto. }
    unfold sw_find. rewrite <- (gpos_0 w (buckets m) (start hash m h) (start_lt m h)). fold (gp m h 0). replace 0 with (W * 0) at 2 by lia.
    eapply find_present_from with (d := k); eauto; [lia|]. intros k' Hk'. apply Hq. lia.
  Qed.
  Lemma find_absent m h : sw_ok m -> ~ In h (map fst (pairs_of (sw_slots m))) -> sw_find w eq hash tag m h = Some None.
  Proof.
    intros Hm Hni. destruct (has_loud m h Hm) as [k0 [Hk0 Hl]].
    assert (G : forall d fuel k, d < fuel -> loud m (gp m h (k + d)) -> find_from w eq hash tag m h fuel (gp m h k) (W * k) = Some None).
    { induction d as [|d IH]; intros [|fuel] k Hd Hld; try lia; cbn [find_from].
      all: destruct (first_of (hit w eq hash tag m h (gp m h k)) W 0) as [y|] eqn:Ey;
        [exfalso; apply first_of_some in Ey; destruct Ey as [_ [Ey _]]; apply hit_sound in Ey; destruct Ey as [g [t' Ey]];
         apply Hni; apply (in_map fst (pairs_of (sw_slots m)) (h, t')); apply pairs_in; eexists; eexists; exact Ey|].
      all: destruct (first_of (match_empty w m (gp m h k)) W 0) eqn:Ee; [reflexivity|].
      - exfalso. rewrite Nat.add_0_r in Hld. eapply loud_quiet; [exact Hld|]. apply no_match_quiet, Ee.
      - rewrite gp_next. replace (W * k + W) with (W * S k) by lia. apply IH; [lia|]. replace (S k + d) with (k + S d) by lia. exact Hld. }
    unfold sw_find. rewrite <- (gpos_0 w (buckets m) (start hash m h) (start_lt m h)). fold (gp m h 0). replace 0 with (W * 0) at 2 by lia.
    apply (G k0); auto.
  Qed.
  Lemma at_none n p : slot_at w n p = None -> n < W.
  Proof. unfold slot_at. destruct (Nat.ltb_spec n W); auto. discriminate. Qed.
  Lemma reach_small m h i : buckets m < W -> i < buckets m -> reach m h i.
  Proof.
    intros Hn Hi'. destruct (see_small w (buckets m) (start hash m h) i Hn (start_lt m h) Hi') as [j [Hj E]]. exists 0. split; [|intros; lia].
    exists j. split; auto. unfold gp. rewrite gpos_0 by apply start_lt. exact E.
  Qed.
  Lemma free_spec m h : sw_ok m -> exists i, sw_free w hash m h = Some i /\ i < buckets m /\ is_full_slot (slot m i) = false /\ reach m h i.
  Proof.
    intros Hm. destruct (has_loud m h Hm) as [k0 [Hk0 Hl]].
    assert (G : forall d fuel k, d < fuel -> loud m (gp m h (k + d)) -> (forall k', k' < k -> quiet m (gp m h k')) ->
      exists i, free_from w m fuel (gp m h k) (W * k) = Some i /\ i < buckets m /\ is_full_slot (slot m i) = false /\ reach m h i).
    { induction d as [|d IH]; intros [|fuel] k Hd Hld Hq; try lia; cbn [free_from].
      all: destruct (first_of (match_free w m (gp m h k)) W 0) as [j|] eqn:Ej.
      1,3: apply first_of_some in Ej; destruct Ej as [Hj [Ej _]]; unfold match_free in Ej; set (p := gp m h k) in *;
        set (i := (p + j) mod buckets m); assert (Hi' : i < buckets m) by (apply Nat.mod_upper_bound, n_pos);
        assert (Hp : p < buckets m) by apply gp_lt;
        (destruct (slot_at w (buckets m) (p + j)) as [i'|] eqn:Ea;
          [assert (Ei : i = i') by (apply at_mod with (w := w); [unfold buckets in *; lia|exact Ea]);
           rewrite (ctrl_at m _ _ Ea), <- Ei in Ej; apply Bool.negb_true_iff in Ej; rewrite Ej;
           exists i; split; [reflexivity|]; split; [exact Hi'|]; split; [exact Ej|]; exists k; split; [exists j; split; [lia|]; fold p; rewrite Ea, Ei; reflexivity|exact Hq]
          |apply at_none in Ea; destruct (is_full_slot (slot m i)) eqn:Ef;
           [destruct (has_empty m Hm) as [e [He1 He2]];
            assert (Ae : forall y, y < buckets m -> ctrl w m (0 + y) = slot m y)
              by (intros y Hy; apply ctrl_at; unfold slot_at; rewrite (proj2 (Nat.ltb_lt _ _) Ea); cbn [plus]; rewrite (proj2 (Nat.ltb_lt _ _) Hy); reflexivity);
            assert (Fe : match_free w m 0 e = true) by (unfold match_free; rewrite Ae, He2 by auto; reflexivity);
            destruct (first_of_ex (match_free w m 0) W e ltac:(lia) Fe) as [y Ey]; rewrite Ey; exists y; split; [reflexivity|];
            apply first_of_some in Ey; destruct Ey as [_ [Ey My]];
            assert (Hy : y < buckets m) by (destruct (Nat.le_gt_cases y e); [lia|]; rewrite My in Fe by lia; discriminate);
            split; [exact Hy|]; split; [unfold match_free in Ey; rewrite Ae in Ey by auto; apply Bool.negb_true_iff in Ey; exact Ey|apply reach_small; auto]
           |exists i; split; [reflexivity|]; split; [exact Hi'|]; split; [exact Ef|apply reach_small; auto]]]).
      - exfalso. rewrite Nat.add_0_r in Hld. eapply loud_quiet; [exact Hld|]. apply no_free_quiet, Ej.
      - rewrite gp_next. replace (W * k + W) with (W * S k) by lia. apply IH; [lia| |]. { replace (S k + d) with (k + S d) by lia. exact Hld. }
        intros k' Hk'. destruct (Nat.eq_dec k' k) as [->|]; [apply no_free_quiet, Ej|apply Hq; lia]. }
    destruct (G k0 (buckets m) 0 Hk0 Hl) as [i [E R]]; [intros; lia|]. exists i. split; [|exact R]. rewrite Nat.mul_0_r in E.
    unfold gp in E. rewrite gpos_0 in E by apply start_lt. exact E.
  Qed.

  (** *** Changing one slot *)
  Lemma set_ok m i (s' : Slot Hi T) a b : sw_ok m -> i < buckets m ->
    (s' = SEmpty -> forall pos, pos < buckets m -> quiet m pos -> ~ sees m pos i) ->
    (forall g h t, s' = SFull g h t -> g = tag_of hash tag m h /\ reach m h i) ->
    a = length (pairs_of (list_set (sw_slots m) i s')) ->
    b + one (slot m i) = sw_left m + one s' ->
    sw_ok (SW (sw_seed m) (sw_bits m) (list_set (sw_slots m) i s') a b).
  Proof.
    intros Hm Hi' Hs Hf Ha Hb. set (m' := SW (sw_seed m) (sw_bits m) (list_set (sw_slots m) i s') a b).
    assert (Hlen : i < length (sw_slots m)) by (rewrite (ok_len m Hm); auto).
    assert (Eslot : forall k, slot m' k = if i =? k then s' else slot m k) by (intros k; apply set_nth; auto).
    assert (Hq : forall pos, pos < buckets m -> quiet m pos -> quiet m' pos).
    { intros pos Hp Q j Hj E. assert (Q' := Q j Hj). unfold ctrl in E, Q'. change (buckets m') with (buckets m) in E.
      destruct (slot_at w (buckets m) (pos + j)) as [x|] eqn:Ea; [|congruence]. rewrite Eslot in E. destruct (Nat.eqb_spec i x) as [->|]; [|auto].
      apply (Hs E pos Hp Q). exists j. auto. }
    assert (Hr : forall h k, reach m h k -> reach m' h k).
    { intros h k [x [H1 H2]]. exists x. split; [exact H1|]. intros x' Hx. change (gp m' h x') with (gp m h x'). apply Hq; [apply (gp_lt m)|]. apply H2, Hx. }
    split.
    - cbn [sw_slots m']. rewrite set_length. apply (ok_len m Hm).
    - apply (ok_bits m Hm).
    - exact Ha.
    - cbn [sw_slots sw_left m']. change (buckets m') with (buckets m). assert (L := ok_left m Hm).
      destruct (set_split (sw_slots m) i SEmpty Hlen) as [A [C [E1 E2]]]. rewrite E2. rewrite E1 in L. rewrite empties_mid in *.
      fold (slot m i) in L. lia.
    - intros k g h t E. rewrite Eslot in E. change (tag_of hash tag m' h) with (tag_of hash tag m h). destruct (Nat.eqb_spec i k) as [->|].
      + destruct (Hf g h t E) as [H1 H2]. auto.
      + destruct (ok_reach m Hm k g h t E) as [H1 H2]. auto.
  Qed.
  Lemma fill_ok m i h t : sw_ok m -> i < buckets m -> is_full_slot (slot m i) = false -> reach m h i -> (slot m i = SEmpty -> 0 < sw_left m) ->
    sw_ok (sw_fill hash tag m i h t) /\ Permutation (pairs_of (sw_slots (sw_fill hash tag m i h t))) ((h, t) :: pairs_of (sw_slots m)).
  Proof.
    intros Hm Hi' Hf Hr Hl. assert (Hlen : i < length (sw_slots m)) by (rewrite (ok_len m Hm); auto).
    destruct (set_split (sw_slots m) i SEmpty Hlen) as [A [C [E1 E2]]]. fold (slot m i) in E1.
    assert (Ep : pairs_of (sw_slots m) = pairs_of A ++ pairs_of C).
    { rewrite E1, pairs_mid. destruct (slot m i); try discriminate; reflexivity. }
    assert (P : Permutation (pairs_of (set_slot m i (SFull (tag_of hash tag m h) h t))) ((h, t) :: pairs_of (sw_slots m))).
    { unfold set_slot. rewrite E2, pairs_mid, Ep. cbn [pairs_of flat_map app]. apply Permutation_sym, Permutation_middle. }
    split; [|exact P]. apply set_ok; auto.
    - discriminate.
    - intros g h' t' E. injection E as <- <- <-. auto.
    - apply Permutation_length in P. unfold set_slot in P. rewrite P. cbn [length]. f_equal. apply (ok_items m Hm).
    - unfold one. destruct (slot m i); try discriminate; cbn; [|lia]. assert (0 < sw_left m) by auto. lia.
  Qed.
  Lemma fresh_ok s b : 0 < b -> sw_ok (fresh s b : M) /\ pairs_of (sw_slots (fresh s b : M)) = [].
  Proof.
    intros Hb. assert (Ep : forall k, pairs_of (repeat (SEmpty : Slot Hi T) k) = []) by (induction k; cbn; auto).
    assert (Ee : forall k, empties (repeat (SEmpty : Slot Hi T) k) = k) by (unfold empties; induction k; cbn; auto).
    split; [|apply Ep]. split.
    - cbn [sw_slots fresh]. apply repeat_length.
    - exact Hb.
    - cbn [sw_slots sw_items fresh]. rewrite Ep. reflexivity.
    - cbn [sw_slots sw_left fresh]. rewrite Ee. reflexivity.
    - intros i g h t E. unfold slot in E. cbn [sw_slots fresh] in E. exfalso. clear Ep Ee Hb. revert i E. induction (2 ^ b) as [|k IH]; intros [|i] E; cbn in E; try discriminate. exact (IH i E).
  Qed.
  Lemma place_ok m p : sw_ok m -> 0 < sw_left m -> sw_ok (sw_place w hash tag m p) /\
    Permutation (pairs_of (sw_slots (sw_place w hash tag m p))) (p :: pairs_of (sw_slots m)) /\ sw_left m <= S (sw_left (sw_place w hash tag m p)).
  Proof.
    intros Hm Hl. destruct p as [h t]. unfold sw_place. cbn [fst snd]. destruct (free_spec m h Hm) as [i [-> [H1 [H2 H3]]]].
    destruct (fill_ok m i h t Hm H1 H2 H3 (fun _ => Hl)) as [H4 H5]. split; [exact H4|]. split; [exact H5|]. cbn [sw_left sw_fill]. destruct (is_empty_slot (slot m i)); lia.
  Qed.
  Lemma places_ok l : forall m, sw_ok m -> length l < sw_left m -> let m' := fold_left (sw_place w hash tag) l m in
    sw_ok m' /\ Permutation (pairs_of (sw_slots m')) (l ++ pairs_of (sw_slots m)) /\ 0 < sw_left m'.
  Proof.
    induction l as [|p l IH]; intros m Hm Hl; cbn [fold_left app length] in *; [auto|].
    destruct (place_ok m p Hm ltac:(lia)) as [H1 [H2 H3]]. destruct (IH _ H1 ltac:(lia)) as [H4 [H5 H6]]. split; [exact H4|]. split; [|exact H6].
    rewrite H5, H2. apply Permutation_sym, Permutation_middle.
  Qed.
  Lemma items_room m : sw_ok m -> sw_items m + sw_left m <= room (buckets m).
  Proof.
    intros Hm. assert (L := ok_left m Hm). assert (C := count_le (sw_slots m)). rewrite <- (ok_items m Hm), (ok_len m Hm) in C. lia.
  Qed.
  Lemma rebuild_ok m : sw_ok m -> let m' := sw_rebuild w hash tag policy m in
    sw_ok m' /\ Permutation (pairs_of (sw_slots m')) (pairs_of (sw_slots m)) /\ 0 < sw_left m'.
  Proof.
    intros Hm. unfold sw_rebuild. cbv zeta. set (b := if sw_items m <? room (2 ^ policy m) then policy m else S (sw_bits m)).
    assert (Hb : 0 < b /\ sw_items m < room (2 ^ b)).
    { subst b. destruct (Nat.ltb_spec (sw_items m) (room (2 ^ policy m))) as [L|L].
      - split; auto. destruct (policy m); [cbn in L; lia|lia].
      - split; [lia|]. assert (H1 := items_room m Hm). assert (H2 := room_double (sw_bits m) (ok_bits m Hm)). unfold buckets in H1. lia. }
    destruct Hb as [Hb1 Hb2]. destruct (fresh_ok (sw_seed m) b Hb1) as [F1 F2].
    destruct (places_ok (pairs_of (sw_slots m)) (fresh (sw_seed m) b) F1) as [H1 [H2 H3]].
    { cbn [sw_left fresh]. rewrite <- (ok_items m Hm). exact Hb2. }
    rewrite F2, app_nil_r in H2. auto.
  Qed.
  Lemma sw_insert_ok m h t : sw_ok m -> let m' := sw_insert w hash tag policy m h t in
    sw_ok m' /\ Permutation (pairs_of (sw_slots m')) ((h, t) :: pairs_of (sw_slots m)).
  Proof.
    intros Hm. cbv zeta. unfold sw_insert. destruct (free_spec m h Hm) as [i [-> [H1 [H2 H3]]]].
    destruct (Nat.eqb_spec (sw_left m) 0) as [E0|E0]; cbn [andb].
    - destruct (is_empty_slot (slot m i)) eqn:Ee.
      + destruct (rebuild_ok m Hm) as [R1 [R2 R3]]. destruct (place_ok _ (h, t) R1 R3) as [P1 [P2 _]]. split; auto. rewrite P2, R2. apply Permutation_refl.
      + apply fill_ok; auto. intros E. rewrite E in Ee. discriminate.
    - apply fill_ok; auto. intros _. lia.
  Qed.
  Lemma inv_perm m m' h t : sw_inv m -> sw_ok m' -> ~ In h (map fst (pairs_of (sw_slots m))) ->
    Permutation (pairs_of (sw_slots m')) ((h, t) :: pairs_of (sw_slots m)) -> sw_inv m'.
  Proof.
    intros [_ Hn] H1 Hni P. split; auto. apply (Permutation_NoDup (Permutation_map fst (Permutation_sym P))). cbn. constructor; auto.
  Qed.

  (** *** Erasing *)
  Lemma erase_safe m i : i < buckets m ->
    zeros (fun j => match_empty w m (before w m i) (W - 1 - j)) W 0 + zeros (match_empty w m i) W 0 < W ->
    forall pos, pos < buckets m -> quiet m pos -> ~ sees m pos i.
  Proof.
    intros Hi' Hz pos Hp Q [j [Hj Ea]]. assert (Hn := n_pos m).
    destruct (Nat.lt_ge_cases (buckets m) W) as [Hl|Hl].
    { destruct (pad w (buckets m) pos Hl Hp) as [x [Hx Ex]]. apply (Q x Hx). unfold ctrl. rewrite Ex. reflexivity. }
    assert (Eat : forall p, slot_at w (buckets m) p = Some (p mod buckets m)).
    { intros p. unfold slot_at. rewrite (proj2 (Nat.ltb_ge _ _) Hl). reflexivity. }
    assert (Ec : forall p q, p mod buckets m = q mod buckets m -> ctrl w m p = ctrl w m q). { intros p q E. unfold ctrl. rewrite !Eat, E. reflexivity. }
    rewrite Eat in Ea. injection Ea as Ea.
    destruct (zeros_spec (fun j => match_empty w m (before w m i) (W - 1 - j)) W 0) as [_ L].
    destruct (zeros_spec (match_empty w m i) W 0) as [_ R].
    set (lead := zeros (fun j => match_empty w m (before w m i) (W - 1 - j)) W 0) in *. set (trail := zeros (match_empty w m i) W 0) in *.
    assert (L' := L ltac:(lia)). assert (R' := R ltac:(lia)). cbn [plus] in L', R'. unfold match_empty in L', R'.
    destruct (Nat.le_gt_cases (lead + 1) j) as [Hc|Hc].
    - apply (Q (j - 1 - lead) ltac:(lia)). rewrite (Ec _ (before w m i + (W - 1 - lead))).
      + destruct (ctrl w m (before w m i + (W - 1 - lead))); try discriminate. reflexivity.
      + unfold before. rewrite Nat.add_mod_idemp_l by auto. rewrite <- Ea. rewrite <- Nat.add_assoc, Nat.add_mod_idemp_l by auto.
        replace (pos + j + (W * (buckets m - 1) + (W - 1 - lead))) with (pos + (j - 1 - lead) + W * buckets m) by nia. rewrite Nat.mod_add by auto. reflexivity.
    - apply (Q (j + trail) ltac:(lia)). rewrite (Ec _ (i + trail)).
      + destruct (ctrl w m (i + trail)); try discriminate. reflexivity.
      + rewrite <- Ea, Nat.add_mod_idemp_l by auto. f_equal. lia.
  Qed.
  Lemma erase_ok m i g h t : sw_ok m -> slot m i = SFull g h t -> exists A C, sw_slots m = A ++ SFull g h t :: C /\
    (forall s, set_slot m i s = A ++ s :: C) /\ sw_ok (sw_erase w m i) /\ pairs_of (sw_slots (sw_erase w m i)) = pairs_of A ++ pairs_of C.
  Proof.
    intros Hm Es. assert (Hi' := full_lt m i g h t Hm Es). assert (Hlen : i < length (sw_slots m)) by (rewrite (ok_len m Hm); auto).
    destruct (set_split (sw_slots m) i SEmpty Hlen) as [A [C [E1 E2]]]. fold (slot m i) in E1. rewrite Es in E1. exists A, C. split; [exact E1|]. split; [exact E2|].
    assert (Ei : sw_items m - 1 = length (pairs_of A ++ pairs_of C)).
    { rewrite (ok_items m Hm), E1, pairs_mid. cbn [pairs_of flat_map app]. rewrite !app_length. cbn [length]. lia. }
    unfold sw_erase. cbv zeta. destruct (Nat.leb_spec W (zeros (fun j => match_empty w m (before w m i) (W - 1 - j)) W 0 + zeros (match_empty w m i) W 0)) as [L|L].
    - split; [|cbn [sw_slots]; unfold set_slot; rewrite E2, pairs_mid; reflexivity]. apply set_ok; auto; try discriminate.
      + rewrite E2, pairs_mid. exact Ei.
      + rewrite Es. reflexivity.
    - split; [|cbn [sw_slots]; unfold set_slot; rewrite E2, pairs_mid; reflexivity]. apply set_ok; auto; try discriminate.
      + intros _. apply erase_safe; auto.
      + rewrite E2, pairs_mid. exact Ei.
      + rewrite Es. cbn. lia.
  Qed.
  Lemma put_ok m i g h t t' : sw_ok m -> slot m i = SFull g h t -> sw_ok (sw_put m i t').
  Proof.
    intros Hm Es. assert (Hi' := full_lt m i g h t Hm Es). unfold sw_put. rewrite Es.
    destruct (erase_ok m i g h t Hm Es) as [A [C [E1 [E2 _]]]]. apply set_ok; auto; try discriminate.
    - intros g' h' t2 E. injection E as <- <- <-. apply (ok_reach m Hm i g h t Es).
    - fold (set_slot m i (SFull g h t')). rewrite E2, pairs_mid, (ok_items m Hm), E1, pairs_mid. cbn [pairs_of flat_map app]. rewrite !app_length. reflexivity.
    - rewrite Es. reflexivity.
  Qed.
  Lemma erase_fields m i : sw_seed (sw_erase w m i) = sw_seed m /\ sw_bits (sw_erase w m i) = sw_bits m /\ sw_items (sw_erase w m i) = sw_items m - 1 /\
    exists s, sw_slots (sw_erase w m i) = set_slot m i s.
  Proof. unfold sw_erase. cbv zeta. destruct (_ <=? _); cbn; eauto. Qed.
  Lemma replace_put m i g h t t' : sw_ok m -> slot m i = SFull g h t -> sw_replace w m i (Some t') = (sw_put m i t', false).
  Proof.
    intros Hm Es. unfold sw_replace, sw_put. cbv zeta. rewrite Es. destruct (erase_fields m i) as [-> [-> [-> [s E]]]]. unfold set_slot in *. rewrite E, set_twice.
    do 2 f_equal. destruct (erase_ok m i g h t Hm Es) as [A [C [E1 _]]]. assert (L := ok_items m Hm). rewrite E1, pairs_mid in L. cbn [pairs_of flat_map app] in L.
    rewrite app_length in L. cbn [length] in L. lia.
  Qed.
  Lemma put_same m i g h t : slot m i = SFull g h t -> sw_put m i t = m.
  Proof. intros Es. unfold sw_put. rewrite Es, <- Es. unfold set_slot, slot. rewrite set_back. destruct m. reflexivity. Qed.
  Lemma key_dec_eq (a b : Hi) : {a = b} + {a <> b}.
  Proof. destruct (eq a b) eqn:E; [left; apply eq_spec; exact E|right; intros H; apply eq_spec in H; congruence]. Qed.
  Lemma lookup_spec m h : sw_inv m -> sw_find w eq hash tag m h <> None /\
    match sw_lookup w eq hash tag m h with
    | Some (i, t) => exists g, slot m i = SFull g h t
    | None => ~ In h (map fst (pairs_of (sw_slots m)))
    end.
  Proof.
    intros Hm. unfold sw_lookup. destruct (in_dec key_dec_eq h (map fst (pairs_of (sw_slots m)))) as [Hin|Hni].
    - apply in_map_iff in Hin. destruct Hin as [[h' t] [E Hin]]. cbn in E. subst h'. apply pairs_in in Hin. destruct Hin as [i [g E]].
      fold (slot m i) in E. rewrite (find_present m h g i t Hm E), E. split; [discriminate|eauto].
    - rewrite (find_absent m h (proj1 Hm) Hni). split; [discriminate|exact Hni].
  Qed.
  Lemma at_ok m h i t : sw_inv m -> sw_lookup w eq hash tag m h = Some (i, t) -> exists rest, Permutation (pairs_of (sw_slots m)) ((h, t) :: rest) /\
    (forall t', sw_inv (sw_put m i t') /\ Permutation (pairs_of (sw_slots (sw_put m i t'))) ((h, t') :: rest)) /\
    sw_put m i t = m /\ (forall t', sw_replace w m i (Some t') = (sw_put m i t', false)) /\
    snd (sw_replace w m i None) = true /\ sw_inv (fst (sw_replace w m i None)) /\ Permutation (pairs_of (sw_slots (fst (sw_replace w m i None)))) rest.
  Proof.
    intros Hm El. assert (S := proj2 (lookup_spec m h Hm)). rewrite El in S. destruct S as [g Es]. destruct Hm as [Hm Hn].
    destruct (erase_ok m i g h t Hm Es) as [A [C [E1 [E2 [E3 E4]]]]]. exists (pairs_of A ++ pairs_of C).
    assert (P : forall t', Permutation (pairs_of (A ++ SFull g h t' :: C)) ((h, t') :: pairs_of A ++ pairs_of C)).
    { intros t'. rewrite pairs_mid. cbn [pairs_of flat_map app]. apply Permutation_sym, Permutation_middle. }
    assert (P0 : Permutation (pairs_of (sw_slots m)) ((h, t) :: pairs_of A ++ pairs_of C)) by (rewrite E1; apply P).
    assert (Ep : forall t', sw_slots (sw_put m i t') = A ++ SFull g h t' :: C) by (intros t'; unfold sw_put; rewrite Es; cbn [sw_slots]; apply E2).
    split; [exact P0|]. split.
    { intros t'. split; [|rewrite Ep; apply P]. split; [eapply put_ok; eauto|]. rewrite Ep.
      apply (Permutation_NoDup (Permutation_map fst P0)) in Hn. apply (Permutation_NoDup (Permutation_map fst (Permutation_sym (P t')))). exact Hn. }
    split; [eapply put_same; eauto|]. split; [intros t'; eapply replace_put; eauto|].
    assert (Er : sw_replace w m i None = (sw_erase w m i, true)) by (unfold sw_replace; reflexivity). rewrite Er. cbn [fst snd]. split; [reflexivity|].
    rewrite E4. split; [|apply Permutation_refl]. split; [exact E3|]. rewrite E4.
    apply (Permutation_NoDup (Permutation_map fst P0)) in Hn. cbn in Hn. inversion Hn. auto.
  Qed.
  Lemma one_ok h t : sw_inv (sw_insert w hash tag policy (fresh (draw h t) (S bits0)) h t) /\
    pairs_of (sw_slots (sw_insert w hash tag policy (fresh (draw h t) (S bits0)) h t)) = [(h, t)].
  Proof.
    destruct (fresh_ok (draw h t) (S bits0) ltac:(lia)) as [H1 H2]. destruct (sw_insert_ok _ h t H1) as [H3 H4]. rewrite H2 in H4.
    apply Permutation_sym, Permutation_length_1_inv in H4. split; [|exact H4]. split; auto. rewrite H4. constructor; [intros []|constructor].
  Qed.
  Lemma sw_insert_inv m h t : sw_inv m -> ~ In h (map fst (pairs_of (sw_slots m))) -> sw_inv (sw_insert w hash tag policy m h t).
  Proof. intros Hm Hni. destruct (sw_insert_ok m h t (proj1 Hm)) as [H1 H2]. eapply inv_perm; eauto. Qed.
  Definition Swiss_contract : HashContract (Swiss_hash w eq hash tag draw bits0 policy).
  Proof.
    refine (Build_HashContract Hi T (Swiss_hash w eq hash tag draw bits0 policy) sw_inv (fun m : M => pairs_of (sw_slots m)) _ _ _ _ _ _ _ _).
    - intros m Hm. apply Hm.
    - intros h t. apply one_ok.
    - intros m Hm. cbn [h_len Swiss_hash]. f_equal. apply ok_items, Hm.
    - intros m h Hm. cbn [h_contains Swiss_hash]. destruct (lookup_spec m h Hm) as [_ H]. destruct (sw_lookup w eq hash tag m h) as [[i t]|]; cbn; split; try congruence; auto.
      + intros _. destruct H as [g H]. apply (in_map fst (pairs_of (sw_slots m)) (h, t)). apply pairs_in. exists i, g. exact H.
    - intros m Hm. cbn [h_is_empty Swiss_hash]. rewrite (ok_items m (proj1 Hm)), Nat.eqb_eq. destruct (pairs_of (sw_slots m)); cbn; split; congruence.
    - intros m h t Hm. cbn [h_get Swiss_hash]. destruct (lookup_spec m h Hm) as [_ H]. destruct (sw_lookup w eq hash tag m h) as [[i t']|]; split; intros E.
      + injection E as <-. destruct H as [g H]. apply pairs_in. exists i, g. exact H.
      + f_equal. destruct H as [g H]. eapply nodup_keys_inj; [apply Hm| |exact E]. apply pairs_in. exists i, g. exact H.
      + discriminate.
      + elim H. apply (in_map fst) in E. exact E.
    - intros m h Hm. cbn [h_get_mut Swiss_hash]. destruct (lookup_spec m h Hm) as [_ H]. destruct (sw_lookup w eq hash tag m h) as [[i t]|] eqn:El; auto.
      destruct (at_ok m h i t Hm El) as [rest [P [E _]]]. eauto.
    - intros m h Hm. cbn [h_entry Swiss_hash]. destruct (lookup_spec m h Hm) as [_ H]. destruct (sw_lookup w eq hash tag m h) as [[i t]|] eqn:El.
      + destruct (at_ok m h i t Hm El) as [rest [P [E [Es [Er [N1 [N2 N3]]]]]]]. exists rest. split; auto. split; auto. split; [rewrite Er; exact Es|].
        intros [t'|]; [rewrite Er; cbn [fst snd]; destruct (E t'); auto|auto].
      + split; auto. intros t. cbn [fst snd]. split; auto. destruct (sw_insert_ok m h t (proj1 Hm)) as [H1 H2]. split; [|exact H2]. eapply inv_perm; eauto.
  Defined.

  (** *** What is true of every table a program comes to *)
  Lemma made_inv m : sw_made w eq hash tag draw bits0 policy m -> sw_inv m.
  Proof.
    induction 1 as [h t|m h t Hm IH El|m h i t t' Hm IH El|m h i t ot Hm IH El].
    - apply one_ok.
    - apply sw_insert_inv; auto. assert (L := proj2 (lookup_spec m h IH)). rewrite El in L. exact L.
    - destruct (at_ok m h i t IH El) as [rest [_ [E _]]]. apply E.
    - destruct (at_ok m h i t IH El) as [rest [_ [E [_ [Er [_ [E2 _]]]]]]]. destruct ot as [t'|]; [rewrite Er; apply E|exact E2].
  Qed.
  Lemma made_ends m h : sw_made w eq hash tag draw bits0 policy m -> sw_find w eq hash tag m h <> None /\ sw_free w hash m h <> None.
  Proof.
    intros Hm. apply made_inv in Hm. split; [apply lookup_spec, Hm|]. destruct (free_spec m h (proj1 Hm)) as [i [E _]]. rewrite E. discriminate.
  Qed.
  Lemma made_load m : sw_made w eq hash tag draw bits0 policy m -> length (sw_slots m) = 2 ^ sw_bits m /\ sw_items m + sw_left m + length (filter is_tomb (sw_slots m)) = room (2 ^ sw_bits m) /\
    room (2 ^ sw_bits m) < 2 ^ sw_bits m /\ sw_items m = length (pairs_of (sw_slots m)) /\
    In SEmpty (sw_slots m).
  Proof.
    intros Hm. apply made_inv in Hm. destruct Hm as [Hm _]. split; [apply (ok_len m Hm)|]. split.
    { assert (L := ok_left m Hm). assert (C := count_all (sw_slots m)). rewrite <- (ok_items m Hm), (ok_len m Hm) in C. unfold buckets in *. lia. }
    
    split; [apply room_lt, (ok_bits m Hm)|]. split; [apply (ok_items m Hm)|]. destruct (has_empty m Hm) as [i [H1 H2]]. rewrite <- H2. apply nth_In. rewrite (ok_len m Hm). exact H1.
  Qed.
End SwissProofs.

(** *** Families, for the types with their hash maps exchanged *)
Lemma tri_half i : tri i = i * (i + 1) / 2.
Proof. replace (i * (i + 1)) with (tri i * 2) by (rewrite Nat.mul_comm, tri_double; f_equal; lia). rewrite Nat.div_mul; lia. Qed.
Lemma triangular c q : q < 2 ^ c -> exists i, i < 2 ^ c /\ (i * (i + 1) / 2) mod 2 ^ c = q.
Proof. intros H. destruct (tri_onto c q H) as [i [H1 H2]]. exists i. rewrite <- tri_half. auto. Qed.
Lemma swiss_family (w : nat) {Seed : Type -> Type -> Type} (hash : forall Hi T, (Hi -> Hi -> bool) -> Seed Hi T -> Hi -> N) (tag : N -> N)
  (draw : forall Hi T, Hi -> T -> Seed Hi T) (bits0 : nat) (policy : forall Hi T, Swiss (Seed Hi T) Hi T -> nat) :
  forall Hi T eq, (forall a b : Hi, eq a b = true <-> a = b) ->
    HashContract (Swiss_hash w eq (hash Hi T eq) tag (draw Hi T) bits0 (policy Hi T)).
Proof. intros Hi T eq Heq. apply Swiss_contract. exact Heq. Qed.
