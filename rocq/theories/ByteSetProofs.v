(** ByteSet: bit-level facts and the laws. *)
From Verif Require Import Base Spec Ops Ints Boxed Lists Laws ByteSet.

(** *** Counting and searching bits *)
Definition upto (w : nat) : list N := map N.of_nat (seq 0 w).

Lemma upto_S w : upto (S w) = 0%N :: map N.succ (upto w).
Proof.
  unfold upto. cbn [seq map]. f_equal. rewrite <- seq_shift, !map_map. apply map_ext. intros n. lia.
Qed.
Lemma in_upto n w : In n (upto w) <-> (n < N.of_nat w)%N.
Proof.
  unfold upto. rewrite in_map_iff. split.
  - intros [m [<- H]]. apply in_seq in H. lia.
  - intros H. exists (N.to_nat n). split; [lia|]. apply in_seq. lia.
Qed.
Lemma upto_app a b : upto (a + b) = upto a ++ map (N.add (N.of_nat a)) (upto b).
Proof.
  unfold upto. rewrite seq_app, map_app. f_equal. cbn [Nat.add].
  rewrite map_map.
  assert (H : forall n, map N.of_nat (seq (a + n) b) = map (fun x => (N.of_nat a + N.of_nat x)%N) (seq n b)).
  { induction b as [|b IH]; intros n; cbn [seq map]; auto. f_equal; [lia|]. rewrite <- Nat.add_succ_r. apply IH. }
  specialize (H 0). rewrite Nat.add_0_r in H. exact H.
Qed.
Lemma filter_map_comm {A B} (f : A -> B) (g : B -> bool) l :
  filter g (map f l) = map f (filter (fun a => g (f a)) l).
Proof. induction l as [|a l IH]; cbn; auto. destruct (g (f a)); cbn; rewrite IH; auto. Qed.

Lemma count_ones_spec w : forall n, (n < 2 ^ N.of_nat w)%N ->
  count_ones n = N.of_nat (length (filter (N.testbit n) (upto w))).
Proof.
  induction w as [|w IH]; intros n Hn.
  - cbn in Hn. assert (n = 0%N) as -> by lia. reflexivity.
  - rewrite upto_S. cbn [filter]. rewrite filter_map_comm, (filter_ext _ (N.testbit (N.div2 n))).
    2:{ intros a. apply N.testbit_succ_r_div2. lia. }
    assert (Hd : (N.div2 n < 2 ^ N.of_nat w)%N).
    { rewrite Nat2N.inj_succ, N.pow_succ_r' in Hn. rewrite N.div2_div.
      apply N.div_lt_upper_bound; lia. }
    apply IH in Hd. destruct (N.testbit n 0) eqn:E; cbn [length]; rewrite map_length.
    + rewrite Nat2N.inj_succ, <- Hd. destruct n as [|[p|p|]]; try discriminate E; cbn [N.div2 Pos.div2 count_ones pos_ones]; lia.
    + rewrite <- Hd. destruct n as [|[p|p|]]; try discriminate E; reflexivity.
Qed.

Lemma pos_tz_bit p : N.testbit (N.pos p) (pos_tz p) = true.
Proof.
  induction p as [p IH|p IH|]; try reflexivity. cbn [pos_tz].
  rewrite N.add_1_l. change (N.pos p~0) with (2 * N.pos p)%N. rewrite N.testbit_even_succ by lia. exact IH.
Qed.
Lemma pos_tz_low p n : (n < pos_tz p)%N -> N.testbit (N.pos p) n = false.
Proof.
  revert n. induction p as [p IH|p IH|]; cbn [pos_tz]; intros n Hn; try lia.
  change (N.pos p~0) with (2 * N.pos p)%N. destruct (N.zero_or_succ n) as [->|[m ->]].
  - apply N.testbit_even_0.
  - rewrite N.testbit_even_succ by lia. apply IH. lia.
Qed.
Lemma tz_bit n : n <> 0%N -> N.testbit n (trailing_zeros n) = true.
Proof. destruct n; [congruence|]. intros _. apply pos_tz_bit. Qed.
Lemma tz_low n m : n <> 0%N -> (m < trailing_zeros n)%N -> N.testbit n m = false.
Proof. destruct n; [congruence|]. intros _. apply pos_tz_low. Qed.
Lemma bit_lt n m w : (n < 2 ^ w)%N -> N.testbit n m = true -> (m < w)%N.
Proof.
  intros Hn Hb. destruct (N.lt_ge_cases m w) as [H|H]; auto. exfalso.
  destruct (N.eq_dec n 0) as [->|Hz]; [rewrite N.bits_0 in Hb; discriminate|].
  rewrite N.bits_above_log2 in Hb; [discriminate|]. apply N.lt_le_trans with w; auto.
  apply N.log2_lt_pow2; lia.
Qed.
Lemma tz_lt n w : n <> 0%N -> (n < 2 ^ w)%N -> (trailing_zeros n < w)%N.
Proof. intros Hz Hn. apply bit_lt with n; auto. apply tz_bit; auto. Qed.
Lemma lz_spec n : n <> 0%N -> (n < 2 ^ 128)%N ->
  (leading_zeros n = 127 - N.log2 n)%N /\ (N.log2 n <= 127)%N.
Proof.
  intros Hz Hn. unfold leading_zeros. rewrite N.size_log2 by auto.
  apply N.log2_lt_pow2 in Hn; lia.
Qed.

(** *** The 256 bits of a pair of words *)
Definition bits (a : N * N) (n : N) : bool :=
  if (n <? 128)%N then N.testbit (fst a) n else N.testbit (snd a) (n - 128).
Definition in_range (a : N * N) : Prop := (fst a < 2 ^ 128)%N /\ (snd a < 2 ^ 128)%N.

Lemma words_range s : in_range (words s).
Proof. split; apply uval_lt. Qed.
Lemma words_of a : in_range a -> words (of_words a) = a.
Proof.
  intros [H1 H2]. unfold words, of_words. cbn [w0 w1]. rewrite !wrap_small by auto.
  symmetry. apply surjective_pairing.
Qed.
Lemma words_inj s t : words s = words t -> s = t.
Proof.
  destruct s as [a b], t as [c d]. unfold words. cbn. intros H. injection H as H1 H2.
  f_equal; apply u_eq; auto.
Qed.
Lemma small_bits n : (forall m, (128 <= m)%N -> N.testbit n m = false) -> (n < 2 ^ 128)%N.
Proof.
  intros H. destruct (N.eq_dec n 0) as [->|Hz]; [reflexivity|]. apply N.log2_lt_pow2; [lia|].
  destruct (N.lt_ge_cases (N.log2 n) 128) as [Hl|Hl]; auto. apply H in Hl.
  rewrite N.bit_log2 in Hl; auto. discriminate.
Qed.
Lemma land_range x y : (y < 2 ^ 128)%N -> (N.land x y < 2 ^ 128)%N.
Proof.
  intros H. apply small_bits. intros m Hm. rewrite N.land_spec.
  destruct (N.testbit y m) eqn:E; [|apply andb_false_r]. apply (bit_lt _ _ _ H) in E. lia.
Qed.
Lemma bits_out a n : in_range a -> (256 <= n)%N -> bits a n = false.
Proof.
  intros [_ H] Hn. unfold bits. replace (n <? 128)%N with false by (symmetry; apply N.ltb_ge; lia).
  destruct (N.testbit (snd a) (n - 128)) eqn:E; auto. apply (bit_lt _ _ _ H) in E. lia.
Qed.
Lemma bits_ext a b : in_range a -> in_range b -> (forall n, (n < 256)%N -> bits a n = bits b n) -> a = b.
Proof.
  intros Ha Hb H. rewrite (surjective_pairing a), (surjective_pairing b). f_equal; apply N.bits_inj; intros n.
  - destruct (N.lt_ge_cases n 128) as [Hn|Hn].
    + specialize (H n ltac:(lia)). unfold bits in H.
      replace (n <? 128)%N with true in H by (symmetry; apply N.ltb_lt; lia). exact H.
    + transitivity false; [|symmetry]; (destruct (N.testbit _ n) eqn:E; auto);
        [apply (bit_lt _ _ 128) in E; [lia|apply Ha]|apply (bit_lt _ _ 128) in E; [lia|apply Hb]].
  - destruct (N.lt_ge_cases n 128) as [Hn|Hn].
    + specialize (H (n + 128)%N ltac:(lia)). unfold bits in H.
      replace (n + 128 <? 128)%N with false in H by (symmetry; apply N.ltb_ge; lia).
      rewrite N.add_sub in H. exact H.
    + transitivity false; [|symmetry]; (destruct (N.testbit _ n) eqn:E; auto);
        [apply (bit_lt _ _ 128) in E; [lia|apply Ha]|apply (bit_lt _ _ 128) in E; [lia|apply Hb]].
Qed.
Lemma bits_nonzero a : in_range a -> a <> (0, 0)%N -> exists n, (n < 256)%N /\ bits a n = true.
Proof.
  intros [H1 H2] H. destruct (N.eq_dec (fst a) 0) as [E|E].
  - assert (E2 : snd a <> 0%N) by (intros E2; apply H; rewrite (surjective_pairing a), E, E2; auto).
    exists (trailing_zeros (snd a) + 128)%N. assert (Hl := tz_lt _ _ E2 H2). split; [lia|].
    unfold bits. replace (_ <? 128)%N with false by (symmetry; apply N.ltb_ge; lia).
    rewrite N.add_sub. apply tz_bit. auto.
  - exists (trailing_zeros (fst a)). assert (Hl := tz_lt _ _ E H1). split; [lia|].
    unfold bits. replace (_ <? 128)%N with true by (symmetry; apply N.ltb_lt; lia). apply tz_bit. auto.
Qed.
Lemma array_len_spec a : in_range a ->
  array_len a = N.of_nat (length (filter (bits a) (upto 256))).
Proof.
  intros [H1 H2]. unfold array_len.
  assert (E1 := count_ones_spec 128 (fst a) H1). assert (E2 := count_ones_spec 128 (snd a) H2).
  assert (E3 := upto_app 128 128). change (128 + 128) with 256 in E3.
  rewrite E1, E2, E3, filter_app, app_length, filter_map_comm, map_length, Nat2N.inj_add. clear E1 E2 E3.
  rewrite (filter_ext_in (bits a) (N.testbit (fst a)) (upto 128)).
  2:{ intros n Hn; apply in_upto in Hn; unfold bits.
      replace (n <? 128)%N with true by (symmetry; apply N.ltb_lt; lia). reflexivity. }
  rewrite (filter_ext_in (fun b => bits a (N.of_nat 128 + b)) (N.testbit (snd a)) (upto 128)); [reflexivity|].
  intros n Hn; apply in_upto in Hn; unfold bits.
  replace (N.of_nat 128 + n <? 128)%N with false by (symmetry; apply N.ltb_ge; lia). f_equal. lia.
Qed.

(** *** The masks *)
Lemma U128_MAX_ones : U128_MAX = N.ones 128.
Proof. reflexivity. Qed.
Lemma max_bit n : N.testbit U128_MAX n = (n <? 128)%N.
Proof.
  rewrite U128_MAX_ones. destruct (N.ltb_spec n 128).
  - apply N.ones_spec_low; auto.
  - apply N.ones_spec_high; auto.
Qed.
Lemma shr_bit s n : N.testbit (unwrap_or_default (checked_shr U128_MAX s)) n = (n + s <? 128)%N.
Proof.
  unfold checked_shr. destruct (N.ltb_spec s 128); cbn [unwrap_or_default].
  - rewrite N.shiftr_spec by lia. apply max_bit.
  - rewrite N.bits_0. symmetry. apply N.ltb_ge. lia.
Qed.
Lemma shl_bit s n : N.testbit (unwrap_or_default (checked_shl U128_MAX s)) n = ((s <=? n) && (n <? 128))%N.
Proof.
  unfold checked_shl. destruct (N.ltb_spec s 128); cbn [unwrap_or_default].
  - rewrite wrap_val. destruct (N.ltb_spec n 128).
    + rewrite N.mod_pow2_bits_low by auto. rewrite andb_true_r. destruct (N.leb_spec s n).
      * rewrite N.shiftl_spec_high by lia. rewrite max_bit. apply N.ltb_lt. lia.
      * apply N.shiftl_spec_low. auto.
    + rewrite N.mod_pow2_bits_high by auto. rewrite andb_false_r. reflexivity.
  - rewrite N.bits_0. destruct (N.leb_spec s n), (N.ltb_spec n 128); auto. lia.
Qed.
Lemma uval8 (k : u 8) : (uval k < 256)%N.
Proof. exact (uval_lt k). Qed.
Lemma mask_lower_bits k n : (n < 256)%N -> bits (mask_lower k) n = (n <? uval k)%N.
Proof.
  intros Hn. assert (Hk := uval8 k). unfold bits, mask_lower. cbn [fst snd]. rewrite !shr_bit.
  apply eq_true_iff_eq. destruct (N.ltb_spec n 128); rewrite !N.ltb_lt; lia.
Qed.
Lemma mask_higher_bits k n : (n < 256)%N -> bits (mask_higher k) n = (uval k <? n)%N.
Proof.
  intros Hn. assert (Hk := uval8 k). unfold bits, mask_higher. cbn [fst snd]. rewrite !shl_bit.
  apply eq_true_iff_eq. destruct (N.ltb_spec n 128); rewrite andb_true_iff, N.leb_le, !N.ltb_lt; lia.
Qed.
Lemma and_range a s : in_range (and_assign a s).
Proof. split; apply land_range, uval_lt. Qed.
Lemma and_bits a s n : bits (and_assign a s) n = bits a n && bits (words s) n.
Proof. unfold bits, and_assign. cbn [fst snd words]. destruct (n <? 128)%N; apply N.land_spec. Qed.

(** *** Single bits *)
Lemma one_bit n m : N.testbit (N.shiftl 1 n) m = (n =? m)%N.
Proof. rewrite N.shiftl_1_l. apply N.pow2_bits_eqb. Qed.
Lemma bit_of_val k : bit_of k = N.shiftl 1 (uval k mod 128).
Proof.
  unfold bit_of. apply wrap_small. rewrite N.shiftl_1_l. apply N.pow_lt_mono_r; [lia|].
  apply N.mod_lt. discriminate.
Qed.
Lemma div128 (k : u 8) : (uval k < 128 /\ uval k / 128 = 0 /\ uval k mod 128 = uval k)%N \/
  (128 <= uval k /\ uval k / 128 = 1 /\ uval k mod 128 = uval k - 128)%N.
Proof.
  assert (Hk := uval8 k). destruct (N.lt_ge_cases (uval k) 128) as [H|H]; [left|right]; split; auto.
  - split; [apply N.div_small|apply N.mod_small]; auto.
  - assert (E : (uval k / 128 = 1)%N) by (symmetry; apply (N.div_unique _ _ _ (uval k - 128)); lia).
    split; auto. rewrite N.mod_eq, E by discriminate. lia.
Qed.
Lemma land_one a n : N.land a (N.shiftl 1 n) = if N.testbit a n then N.shiftl 1 n else 0%N.
Proof.
  apply N.bits_inj. intros m. rewrite N.land_spec, one_bit. destruct (N.eqb_spec n m) as [->|Hne].
  - rewrite andb_true_r. destruct (N.testbit a m); [rewrite one_bit, N.eqb_refl; auto|rewrite N.bits_0; auto].
  - rewrite andb_false_r. destruct (N.testbit a n); [|rewrite N.bits_0; auto].
    rewrite one_bit. symmetry. apply N.eqb_neq. auto.
Qed.
Lemma one_nonzero n : N.shiftl 1 n <> 0%N.
Proof. rewrite N.shiftl_1_l. apply N.pow_nonzero. discriminate. Qed.
Lemma present_bits s k : is_present s k = bits (words s) (uval k).
Proof.
  unfold is_present, bits, word_at. rewrite bit_of_val, land_one.
  destruct (div128 k) as [[H [Ed Em]]|[H [Ed Em]]]; rewrite Ed, Em.
  - replace (uval k <? 128)%N with true by (symmetry; apply N.ltb_lt; auto). cbn [N.eqb].
    destruct (N.testbit _ _); reflexivity.
  - replace (uval k <? 128)%N with false by (symmetry; apply N.ltb_ge; auto). cbn [N.eqb].
    destruct (N.testbit _ _); reflexivity.
Qed.
Lemma with_word_bits a k x n : (n < 256)%N ->
  bits (with_word a k x) n =
  if (n / 128 =? uval k / 128)%N then N.testbit x (n mod 128) else bits a n.
Proof.
  intros Hn. unfold with_word. assert (Hd := div128 (mku n (proj2 (N.ltb_lt _ (2 ^ 8)) Hn))). cbn [uval] in Hd.
  destruct (div128 k) as [[H [Ed Em]]|[H [Ed Em]]], Hd as [[H' [Ed' Em']]|[H' [Ed' Em']]];
    rewrite Ed, Ed', Em'; cbn [N.eqb Pos.eqb]; unfold bits; cbn [fst snd];
    destruct (N.ltb_spec n 128); auto; lia.
Qed.
Lemma split128 n m : (n < 256)%N -> (m < 256)%N -> (n / 128 = m / 128 -> n mod 128 = m mod 128 -> n = m)%N.
Proof. intros Hn Hm H1 H2. rewrite (N.div_mod n 128), (N.div_mod m 128), H1, H2 by discriminate. auto. Qed.
Lemma word_bits a k n : (n < 256)%N -> (n / 128 = uval k / 128)%N ->
  N.testbit (word_at a k) (n mod 128) = bits a n.
Proof.
  intros Hn E. unfold word_at, bits. rewrite <- E.
  assert (Hd := div128 (mku n (proj2 (N.ltb_lt _ (2 ^ 8)) Hn))). cbn [uval] in Hd.
  destruct Hd as [[H' [Ed' Em']]|[H' [Ed' Em']]]; rewrite Ed', Em'; cbn [N.eqb];
    destruct (N.ltb_spec n 128); auto; lia.
Qed.
Lemma set_bits a k n : (n < 256)%N -> bits (array_set_bit a k) n = (n =? uval k)%N || bits a n.
Proof.
  intros Hn. unfold array_set_bit. rewrite with_word_bits by auto.
  destruct (N.eqb_spec (n / 128) (uval k / 128)) as [E|E].
  - rewrite N.lor_spec, word_bits, bit_of_val, one_bit, orb_comm by auto. f_equal.
    destruct (N.eqb_spec n (uval k)) as [->|Hne]; [apply N.eqb_refl|]. apply N.eqb_neq. intros Em.
    apply Hne. apply split128; auto. apply uval8.
  - replace (n =? uval k)%N with false; auto. symmetry. apply N.eqb_neq. congruence.
Qed.
Lemma bit_of_range k : (bit_of k < 2 ^ 128)%N.
Proof. apply uval_lt. Qed.
Lemma word_range a k : in_range a -> (word_at a k < 2 ^ 128)%N.
Proof. intros [H1 H2]. unfold word_at. destruct (_ =? _)%N; auto. Qed.
Lemma with_range a k x : in_range a -> (x < 2 ^ 128)%N -> in_range (with_word a k x).
Proof. intros [H1 H2] H. unfold with_word. destruct (_ =? _)%N; split; auto. Qed.
Lemma set_range a k : in_range a -> in_range (array_set_bit a k).
Proof.
  intros H. apply with_range; auto. apply small_bits. intros m Hm. rewrite N.lor_spec.
  apply orb_false_iff. split.
  - destruct (N.testbit _ m) eqn:E; auto. apply (bit_lt _ _ 128) in E; [lia|]. apply word_range; auto.
  - destruct (N.testbit _ m) eqn:E; auto. apply (bit_lt _ _ 128) in E; [lia|]. apply bit_of_range.
Qed.
Lemma unset_words s k : words (unset_bit s k) =
  with_word (words s) k (N.land (word_at (words s) k) (N.lnot (bit_of k) 128)).
Proof.
  apply words_of. apply with_range; [apply words_range|]. rewrite N.land_comm. apply land_range.
  apply word_range. apply words_range.
Qed.
Lemma unset_bits s k n : (n < 256)%N -> bits (words (unset_bit s k)) n = negb (n =? uval k)%N && bits (words s) n.
Proof.
  intros Hn. rewrite unset_words, with_word_bits by auto.
  destruct (N.eqb_spec (n / 128) (uval k / 128)) as [E|E].
  - assert (Hm : (n mod 128 < 128)%N) by (apply N.mod_lt; discriminate).
    rewrite N.land_spec, word_bits, N.lnot_spec_low, bit_of_val, one_bit, andb_comm by auto.
    f_equal. f_equal.
    destruct (N.eqb_spec n (uval k)) as [->|Hne]; [apply N.eqb_refl|]. apply N.eqb_neq. intros Em.
    apply Hne. apply split128; auto. apply uval8.
  - replace (n =? uval k)%N with false; auto. symmetry. apply N.eqb_neq. congruence.
Qed.

(** *** Members *)
Definition bytes : list (u 8) := map (pack 8) (upto 256).
Definition mem (s : ByteSet) (k : u 8) : bool := bits (words s) (uval k).
Definition members (s : ByteSet) : list (u 8) := filter (mem s) bytes.
Definition nonempty (s : ByteSet) : Prop := words s <> (0, 0)%N.

Lemma in_bytes k : In k bytes.
Proof. unfold bytes. rewrite <- (pack_uval k). apply in_map. apply in_upto. apply uval8. Qed.
Lemma in_members s k : In k (members s) <-> mem s k = true.
Proof. unfold members. rewrite filter_In. split; [tauto|]. intros H. split; [apply in_bytes|exact H]. Qed.
Lemma pack8 n : (n < 256)%N -> uval (pack 8 n) = n.
Proof. intros H. apply pack_val. exact H. Qed.
Lemma bytes_sorted : StronglySorted (fun a b => u_cmp a b = Lt) bytes.
Proof.
  unfold bytes, upto.
  assert (H : forall a n, a + n <= 256 ->
     StronglySorted (fun a b => u_cmp a b = Lt) (map (pack 8) (map N.of_nat (seq a n)))).
  { intros a n. revert a. induction n as [|n IH]; intros a Ha; cbn [seq map]; constructor.
    - apply IH. lia.
    - apply Forall_forall. intros x Hx. rewrite map_map in Hx. apply in_map_iff in Hx.
      destruct Hx as [m [<- Hm]]. apply in_seq in Hm. unfold u_cmp. apply N.compare_lt_iff.
      rewrite !pack8 by lia. lia. }
  apply H. lia.
Qed.
Lemma filter_sorted {A} (R : A -> A -> Prop) f l : StronglySorted R l -> StronglySorted R (filter f l).
Proof.
  induction 1 as [|a l H IH HF]; cbn; [constructor|]. destruct (f a); auto. constructor; auto.
  rewrite Forall_forall in *. intros x Hx. apply filter_In in Hx. apply HF. tauto.
Qed.
Lemma members_sorted s : StronglySorted (fun a b => u_cmp a b = Lt) (members s).
Proof. apply filter_sorted. apply bytes_sorted. Qed.
Lemma sorted_nodup {w} (l : list (u w)) : StronglySorted (fun a b => u_cmp a b = Lt) l -> NoDup l.
Proof.
  induction 1 as [|a l H IH HF]; constructor; auto. rewrite Forall_forall in HF. intros Hi.
  apply HF in Hi. exact (lt_irrefl (u_cmp_laws w) _ Hi).
Qed.
Lemma members_nodup s : NoDup (members s).
Proof. apply sorted_nodup. apply members_sorted. Qed.
Lemma filter_bytes_len (p : N -> bool) :
  length (filter (fun k => p (uval k)) bytes) = length (filter p (upto 256)).
Proof.
  unfold bytes. rewrite filter_map_comm, map_length.
  rewrite (filter_ext_in (fun n => p (uval (pack 8 n))) p); [reflexivity|].
  intros n Hn. apply in_upto in Hn. rewrite pack8; auto.
Qed.
Global Opaque upto bytes.
Lemma len_spec s : array_len (words s) = N.of_nat (length (members s)).
Proof.
  rewrite array_len_spec by apply words_range. unfold members, mem. rewrite <- filter_bytes_len. reflexivity.
Qed.
Lemma count_below_spec s k :
  count_below s k = N.of_nat (length (filter (fun j => ltb u_cmp j k) (members s))).
Proof.
  unfold count_below. rewrite array_len_spec by apply and_range. rewrite <- filter_bytes_len.
  unfold members.
  assert (E : forall f g (l : list (u 8)), filter f (filter g l) = filter (fun x => f x && g x) l).
  { intros f g l. induction l as [|a l IH]; cbn; auto. destruct (g a); cbn; rewrite ?andb_true_r, ?andb_false_r, IH; auto. }
  rewrite E, (filter_ext (fun k0 => bits (and_assign (mask_lower k) s) (uval k0)) (fun x => ltb u_cmp x k && mem s x));
    [reflexivity|].
  intros j. rewrite and_bits, mask_lower_bits by apply uval8. reflexivity.
Qed.
Lemma mem_range_nonempty s : nonempty s <-> exists k, mem s k = true.
Proof.
  split.
  - intros H. destruct (bits_nonzero _ (words_range s) H) as [n [Hn Hb]].
    exists (pack 8 n). unfold mem. rewrite pack8; auto.
  - intros [k Hk] E. unfold mem in Hk. rewrite E in Hk. unfold bits in Hk. cbn [fst snd] in Hk.
    rewrite !N.bits_0 in Hk. destruct (_ <? _)%N; discriminate.
Qed.
Lemma members_nonempty s : nonempty s <-> members s <> [].
Proof.
  rewrite mem_range_nonempty. split.
  - intros [k Hk] E. apply in_members in Hk. rewrite E in Hk. destruct Hk.
  - intros H. destruct (members s) as [|k l] eqn:E; [congruence|]. exists k. apply in_members.
    rewrite E. left; auto.
Qed.

Lemma mem_from_monad k j : mem (bs_from_monad k tt) j = (uval j =? uval k)%N.
Proof.
  unfold mem, bs_from_monad. rewrite words_of by (apply set_range; split; reflexivity).
  rewrite set_bits by apply uval8. unfold bits. cbn [fst snd]. rewrite !N.bits_0.
  destruct (uval j <? 128)%N; apply orb_false_r.
Qed.
Lemma mem_set s k j : mem (set_bit s k) j = (uval j =? uval k)%N || mem s j.
Proof.
  unfold mem, set_bit. rewrite words_of by (apply set_range, words_range). apply set_bits. apply uval8.
Qed.
Lemma mem_unset s k j : mem (unset_bit s k) j = negb (uval j =? uval k)%N && mem s j.
Proof. apply unset_bits. apply uval8. Qed.
Lemma uval_eqb {w} (a b : u w) : (uval a =? uval b)%N = true <-> a = b.
Proof. rewrite N.eqb_eq. split; [apply u_eq|intros ->; auto]. Qed.

Lemma u8_perm (l l' : list (u 8)) : NoDup l -> NoDup l' -> (forall k, In k l <-> In k l') -> Permutation l l'.
Proof. apply NoDup_Permutation. Qed.
Lemma members_from_monad k : members (bs_from_monad k tt) = [k].
Proof.
  assert (HP : Permutation (members (bs_from_monad k tt)) [k]).
  { apply u8_perm.
    - apply members_nodup.
    - constructor; [intros []|constructor].
    - intros j. rewrite in_members, mem_from_monad, uval_eqb. cbn. split; [auto|]. intros [H|[]]; auto. }
  apply Permutation_sym, Permutation_length_1_inv in HP. exact HP.
Qed.
Lemma members_set s k : mem s k = false -> Permutation (members (set_bit s k)) (k :: members s).
Proof.
  intros H. apply u8_perm.
  - apply members_nodup.
  - constructor; [rewrite in_members; congruence|apply members_nodup].
  - intros j. cbn. rewrite !in_members, mem_set, orb_true_iff, uval_eqb. split; intros [->|Hj]; auto.
Qed.
Lemma members_unset s k : mem s k = true -> Permutation (members s) (k :: members (unset_bit s k)).
Proof.
  intros H. apply u8_perm.
  - apply members_nodup.
  - constructor; [|apply members_nodup]. rewrite in_members, mem_unset, (proj2 (uval_eqb k k)); auto. discriminate.
  - intros j. cbn. rewrite !in_members, mem_unset, andb_true_iff, negb_true_iff. split.
    + intros Hj. destruct (uval j =? uval k)%N eqn:E; auto. apply uval_eqb in E. auto.
    + intros [<-|[_ Hj]]; auto.
Qed.

(** *** Extremes *)
Lemma word0_bits s n : uval (w0 s) = 0%N -> bits (words s) n = true -> (128 <= n)%N.
Proof.
  intros E. unfold bits, words. cbn [fst snd]. rewrite E. destruct (N.ltb_spec n 128); auto.
  rewrite N.bits_0. discriminate.
Qed.
Section Build.
Context {B : Build}.
Lemma lowest_spec s : nonempty s -> exists k, lowest s = Ret k /\ mem s k = true /\
  forall j, mem s j = true -> (uval k <= uval j)%N.
Proof.
  intros Hne. unfold lowest. destruct (N.eqb_spec (uval (w0 s)) 0) as [E0|E0].
  - destruct (N.eqb_spec (uval (w1 s)) 0) as [E1|E1].
    { elim Hne. unfold words. rewrite E0, E1. auto. }
    cbn [negb debug_assert bind]. assert (Hl := tz_lt _ _ E1 (uval_lt (w1 s))).
    eexists. split; [reflexivity|].
    assert (Ev : uval (wrap 8 (128 + trailing_zeros (uval (w1 s)))) = (128 + trailing_zeros (uval (w1 s)))%N)
      by (apply wrap_small; lia).
    split.
    + unfold mem. rewrite Ev. unfold bits, words. cbn [fst snd].
      replace (_ <? 128)%N with false by (symmetry; apply N.ltb_ge; lia).
      rewrite N.add_comm, N.add_sub. apply tz_bit; auto.
    + intros j Hj. rewrite Ev. unfold mem in Hj. assert (H128 := word0_bits _ _ E0 Hj).
      destruct (N.le_gt_cases (128 + trailing_zeros (uval (w1 s))) (uval j)) as [H|H]; auto. exfalso.
      unfold bits, words in Hj. cbn [fst snd] in Hj.
      replace (uval j <? 128)%N with false in Hj by (symmetry; apply N.ltb_ge; lia).
      rewrite tz_low in Hj; [discriminate|auto|lia].
  - assert (Hl := tz_lt _ _ E0 (uval_lt (w0 s))). eexists. split; [reflexivity|].
    assert (Ev : uval (wrap 8 (trailing_zeros (uval (w0 s)))) = trailing_zeros (uval (w0 s)))
      by (apply wrap_small; lia).
    split.
    + unfold mem. rewrite Ev. unfold bits, words. cbn [fst snd].
      replace (_ <? 128)%N with true by (symmetry; apply N.ltb_lt; lia). apply tz_bit; auto.
    + intros j Hj. rewrite Ev. unfold mem in Hj.
      destruct (N.le_gt_cases (trailing_zeros (uval (w0 s))) (uval j)) as [H|H]; auto. exfalso.
      unfold bits, words in Hj. cbn [fst snd] in Hj.
      replace (uval j <? 128)%N with true in Hj by (symmetry; apply N.ltb_lt; lia).
      rewrite tz_low in Hj; [discriminate|auto|lia].
Qed.
Lemma log2_max n m : N.testbit n m = true -> (m <= N.log2 n)%N.
Proof.
  intros H. destruct (N.le_gt_cases m (N.log2 n)) as [Hl|Hl]; auto.
  rewrite N.bits_above_log2 in H by auto. discriminate.
Qed.
Lemma highest_spec s : nonempty s -> exists k, highest s = Ret k /\ mem s k = true /\
  forall j, mem s j = true -> (uval j <= uval k)%N.
Proof.
  intros Hne. unfold highest. destruct (N.eqb_spec (uval (w1 s)) 0) as [E1|E1].
  - destruct (N.eqb_spec (uval (w0 s)) 0) as [E0|E0].
    { elim Hne. unfold words. rewrite E0, E1. auto. }
    cbn [negb debug_assert bind]. destruct (lz_spec _ E0 (uval_lt (w0 s))) as [El Hl].
    unfold checked_sub. replace (_ <=? 127)%N with true by (symmetry; apply N.leb_le; lia). cbn [bind].
    eexists. split; [reflexivity|].
    assert (Ev : uval (wrap 8 (127 - leading_zeros (uval (w0 s)))) = N.log2 (uval (w0 s)))
      by (rewrite wrap_small; [lia|change (2 ^ 8)%N with 256%N; lia]).
    split.
    + unfold mem. rewrite Ev. unfold bits, words. cbn [fst snd].
      replace (_ <? 128)%N with true by (symmetry; apply N.ltb_lt; lia). apply N.bit_log2; auto.
    + intros j Hj. rewrite Ev. unfold mem, bits, words in Hj. cbn [fst snd] in Hj.
      destruct (N.ltb_spec (uval j) 128); [apply log2_max; auto|].
      rewrite E1, N.bits_0 in Hj. discriminate.
  - destruct (lz_spec _ E1 (uval_lt (w1 s))) as [El Hl].
    unfold checked_sub. replace (_ <=? 255)%N with true by (symmetry; apply N.leb_le; lia). cbn [bind].
    eexists. split; [reflexivity|].
    assert (Ev : uval (wrap 8 (255 - leading_zeros (uval (w1 s)))) = (128 + N.log2 (uval (w1 s)))%N)
      by (rewrite wrap_small; [lia|change (2 ^ 8)%N with 256%N; lia]).
    split.
    + unfold mem. rewrite Ev. unfold bits, words. cbn [fst snd].
      replace (_ <? 128)%N with false by (symmetry; apply N.ltb_ge; lia).
      rewrite N.add_comm, N.add_sub. apply N.bit_log2; auto.
    + intros j Hj. rewrite Ev. unfold mem, bits, words in Hj. cbn [fst snd] in Hj.
      destruct (N.ltb_spec (uval j) 128); [lia|]. apply log2_max in Hj. lia.
Qed.
Lemma from_array_spec a : in_range a ->
  match from_array a with
  | None => forall n, (n < 256)%N -> bits a n = false
  | Some v => nonempty v /\ words v = a
  end.
Proof.
  intros Ha. unfold from_array. destruct (N.eqb_spec (fst a) 0) as [E0|E0], (N.eqb_spec (snd a) 0) as [E1|E1]; cbn [andb].
  - intros n _. unfold bits. rewrite E0, E1, !N.bits_0. destruct (_ <? _)%N; auto.
  - unfold nonempty. rewrite words_of by auto. split; auto. intros ->. auto.
  - unfold nonempty. rewrite words_of by auto. split; auto. intros ->. auto.
  - unfold nonempty. rewrite words_of by auto. split; auto. intros ->. auto.
Qed.

Lemma le_u_cmp {w} (a b : u w) : (uval a <= uval b)%N <-> u_cmp a b <> Gt.
Proof. unfold u_cmp. rewrite N.compare_le_iff. reflexivity. Qed.
Lemma lt_u_cmp {w} (a b : u w) : (uval a < uval b)%N <-> u_cmp a b = Lt.
Proof. unfold u_cmp. rewrite N.compare_lt_iff. reflexivity. Qed.

Lemma pred_spec s k : exists o, bs_predecessor s k = Ret o /\
  match o with
  | Some (j, tt) => mem s j = true /\ (uval j < uval k)%N /\
      forall i, mem s i = true -> (uval i < uval k)%N -> (uval i <= uval j)%N
  | None => forall i, mem s i = true -> (uval k <= uval i)%N
  end.
Proof.
  unfold bs_predecessor. assert (Hf := from_array_spec _ (and_range (mask_lower k) s)).
  assert (Hb : forall i : u 8, bits (and_assign (mask_lower k) s) (uval i) = (uval i <? uval k)%N && mem s i).
  { intros i. rewrite and_bits, mask_lower_bits by apply uval8. reflexivity. }
  destruct (from_array _) as [v|].
  - destruct Hf as [Hne Hw]. destruct (highest_spec v Hne) as [j [E [Hm Hmax]]]. rewrite E. cbn [bind].
    exists (Some (j, tt)). split; auto. unfold mem in Hm, Hmax. rewrite Hw, Hb in Hm.
    apply andb_true_iff in Hm. destruct Hm as [H1 H2]. apply N.ltb_lt in H1. split; [exact H2|]. split; [exact H1|].
    intros i Hi Hlt. apply Hmax. rewrite Hw, Hb, Hi. rewrite andb_true_r. apply N.ltb_lt. auto.
  - exists None. split; auto. intros i Hi. specialize (Hf (uval i) (uval8 i)). rewrite Hb, Hi, andb_true_r in Hf.
    apply N.ltb_ge in Hf. auto.
Qed.
Lemma succ_spec s k : exists o, bs_successor s k = Ret o /\
  match o with
  | Some (j, tt) => mem s j = true /\ (uval k < uval j)%N /\
      forall i, mem s i = true -> (uval k < uval i)%N -> (uval j <= uval i)%N
  | None => forall i, mem s i = true -> (uval i <= uval k)%N
  end.
Proof.
  unfold bs_successor. assert (Hf := from_array_spec _ (and_range (mask_higher k) s)).
  assert (Hb : forall i : u 8, bits (and_assign (mask_higher k) s) (uval i) = (uval k <? uval i)%N && mem s i).
  { intros i. rewrite and_bits, mask_higher_bits by apply uval8. reflexivity. }
  destruct (from_array _) as [v|].
  - destruct Hf as [Hne Hw]. destruct (lowest_spec v Hne) as [j [E [Hm Hmax]]]. rewrite E. cbn [bind].
    exists (Some (j, tt)). split; auto. unfold mem in Hm, Hmax. rewrite Hw, Hb in Hm.
    apply andb_true_iff in Hm. destruct Hm as [H1 H2]. apply N.ltb_lt in H1. split; [exact H2|]. split; [exact H1|].
    intros i Hi Hlt. apply Hmax. rewrite Hw, Hb, Hi. rewrite andb_true_r. apply N.ltb_lt. auto.
  - exists None. split; auto. intros i Hi. specialize (Hf (uval i) (uval8 i)). rewrite Hb, Hi, andb_true_r in Hf.
    apply N.ltb_ge in Hf. auto.
Qed.

(** *** The laws *)
Definition bs_ents (s : ByteSet) : list (u 8 * unit) := map (fun k => (k, tt)) (members s).
Definition bs_tt (p : u 8 * unit) : p = (fst p, tt).
Proof. destruct p as [k []]. reflexivity. Qed.

Lemma in_bs_ents s p : In p (bs_ents s) <-> mem s (fst p) = true.
Proof.
  unfold bs_ents. rewrite in_map_iff, <- in_members. split.
  - intros [k [<- H]]. exact H.
  - intros H. exists (fst p). split; auto. symmetry. apply bs_tt.
Qed.
Lemma bs_keys s : keys (bs_ents s) = members s.
Proof. unfold keys, bs_ents. rewrite map_map. apply map_id. Qed.
Lemma bs_ents_length s : length (bs_ents s) = length (members s).
Proof. apply map_length. Qed.
Lemma bs_nonempty_len s : nonempty s -> array_len (words s) <> 0%N.
Proof.
  intros H E. rewrite len_spec in E. apply members_nonempty in H. destruct (members s); [congruence|]. discriminate.
Qed.
Lemma bs_len_ok s : nonempty s -> bs_len s = Ret (N.of_nat (length (bs_ents s))).
Proof.
  intros H. unfold bs_len. assert (H' := bs_nonempty_len s H). apply N.eqb_neq in H'. rewrite H'.
  rewrite len_spec, bs_ents_length. auto.
Qed.
Lemma N1_nat n : (N.of_nat n =? 1)%N = (n =? 1).
Proof. apply eq_true_iff_eq. rewrite N.eqb_eq, Nat.eqb_eq. lia. Qed.
Lemma bs_is_monad_ok s : nonempty s -> bs_is_monad s = Ret (length (bs_ents s) =? 1).
Proof. intros H. unfold bs_is_monad. rewrite bs_len_ok by auto. cbn [bind]. rewrite N1_nat. auto. Qed.
Lemma single {A} (l : list A) a : length l = 1 -> In a l -> l = [a].
Proof. destruct l as [|b [|c l]]; try discriminate. intros _ [->|[]]. auto. Qed.
Lemma bs_taken s k : nonempty s -> mem s k = true ->
  taken (O := ByteSet_ops) nonempty (fun _ => True) bs_ents s (k, tt)
    (if length (bs_ents s) =? 1 then None else Some (unset_bit s k)).
Proof.
  intros Hne Hm. unfold taken. destruct (length (bs_ents s) =? 1) eqn:E.
  - apply Nat.eqb_eq in E. apply single; auto. apply in_bs_ents. exact Hm.
  - apply Nat.eqb_neq in E. assert (HP := members_unset s k Hm).
    assert (Hl := Permutation_length HP). rewrite bs_ents_length in E. cbn in Hl. split; [|split; auto].
    + apply members_nonempty. intros E'. rewrite E' in Hl. cbn in Hl. lia.
    + apply (Permutation_map (fun k => (k, tt))) in HP. exact HP.
Qed.
Lemma bs_lens s k : nonempty s -> mem s k = true ->
  lens_ok (O := ByteSet_ops) nonempty (fun _ => True) bs_ents s (k, tt) (same s).
Proof.
  intros Hne Hm. assert (HP := members_unset s k Hm). apply (Permutation_map (fun k => (k, tt))) in HP.
  eexists. split; [exact HP|]. intros []. unfold same. split; auto.
Qed.

Lemma bs_len_hint_ok s : nonempty s -> exists lo hi, v_len_hint ByteSet_ops s = Ret (lo, hi) /\
  (lo <= N.of_nat (length (bs_ents s)))%N /\ (forall h, hi = Some h -> (N.of_nat (length (bs_ents s)) <= h)%N).
Proof.
  intros H. exists (N.of_nat (length (bs_ents s))), (Some (N.of_nat (length (bs_ents s)))).
  cbn [v_len_hint ByteSet_ops]. unfold bs_len_hint. rewrite bs_len_ok by auto. split; auto. split; [lia|].
  intros h E. injection E as <-. lia.
Qed.

Definition ByteSet_laws : VebLaws u_cmp ByteSet_ops.
Proof.
  refine {| winv := nonempty : vt ByteSet_ops -> Prop; ents := bs_ents; ord := fun _ => True; safe := fun _ _ => True |}.
  - intros s H E. apply members_nonempty in H. apply H. apply map_eq_nil in E. exact E.
  - intros s _ _. rewrite bs_keys. apply members_nodup.
  - auto.
  - auto.
  - intros k []. cbn [v_from_monad ByteSet_ops]. split; [|split; auto].
    + apply members_nonempty. rewrite members_from_monad. discriminate.
    + unfold bs_ents. rewrite members_from_monad. auto.
  - exact bs_is_monad_ok.
  - exact bs_len_hint_ok.
  - intros s H. cbn [v_into_monad ByteSet_ops]. unfold bs_into_monad. rewrite bs_is_monad_ok by auto. cbn [bind].
    destruct (length (bs_ents s) =? 1) eqn:E.
    + left. destruct (lowest_spec s H) as [k [Ek [Hm _]]]. rewrite Ek. cbn [bind]. exists (k, tt). split; auto.
      apply Nat.eqb_eq in E. apply single; auto. apply in_bs_ents. exact Hm.
    + right. apply Nat.eqb_neq in E. auto.
  - intros s H. destruct (lowest_spec s H) as [k [Ek [Hm Hmin]]]. exists (k, tt).
    cbn [v_min_val ByteSet_ops]. unfold bs_min_val. rewrite Ek. split; auto. split; [apply in_bs_ents; exact Hm|].
    intros _ q Hq. apply in_bs_ents in Hq. apply le_u_cmp. apply Hmin; auto.
  - intros s H. destruct (highest_spec s H) as [k [Ek [Hm Hmin]]]. exists (k, tt).
    cbn [v_max_val ByteSet_ops]. unfold bs_max_val. rewrite Ek. split; auto. split; [apply in_bs_ents; exact Hm|].
    intros _ q Hq. apply in_bs_ents in Hq. apply le_u_cmp. apply Hmin; auto.
  - intros s k H. eexists. split; [reflexivity|]. rewrite present_bits. fold (mem s k).
    destruct (mem s k) eqn:E.
    + split; auto. apply in_bs_ents. exact E.
    + intros _. rewrite bs_keys, in_members. congruence.
  - intros s k H. destruct (pred_spec s k) as [[[j []]|] [E Hp]].
    + exists (Some (j, tt)). split; auto. destruct Hp as [H1 [H2 H3]]. split; [apply in_bs_ents; auto|].
      intros _. split; [apply lt_u_cmp; auto|]. intros q Hq Hlt. apply le_u_cmp. apply H3.
      * apply in_bs_ents; auto.
      * apply lt_u_cmp. auto.
    + exists None. split; auto. intros _ q Hq Hlt. apply in_bs_ents in Hq. apply Hp in Hq. apply lt_u_cmp in Hlt. lia.
  - intros s k H. destruct (succ_spec s k) as [[[j []]|] [E Hp]].
    + exists (Some (j, tt)). split; auto. destruct Hp as [H1 [H2 H3]]. split; [apply in_bs_ents; auto|].
      intros _. split; [apply lt_u_cmp; auto|]. intros q Hq Hlt. apply le_u_cmp. apply H3.
      * apply in_bs_ents; auto.
      * apply lt_u_cmp. auto.
    + exists None. split; auto. intros _ q Hq Hlt. apply in_bs_ents in Hq. apply Hp in Hq. apply lt_u_cmp in Hlt. lia.
  - intros s H. destruct (lowest_spec s H) as [k [Ek [Hm _]]]. exists (k, tt), (same s).
    cbn [v_min_val v_min_val_mut ByteSet_ops]. unfold bs_min_val, bs_min_val_mut. rewrite Ek. cbn [bind].
    split; auto. split; auto. apply bs_lens; auto.
  - intros s H. destruct (highest_spec s H) as [k [Ek [Hm _]]]. exists (k, tt), (same s).
    cbn [v_max_val v_max_val_mut ByteSet_ops]. unfold bs_max_val, bs_max_val_mut. rewrite Ek. cbn [bind].
    split; auto. split; auto. apply bs_lens; auto.
  - intros s k H. eexists. split; [reflexivity|]. cbn [v_find v_find_mut ByteSet_ops]. unfold bs_find.
    destruct (is_present s k) eqn:E; (split; [reflexivity|]); [|discriminate].
    intros p put Hp. injection Hp as <- <-. apply bs_lens; auto. rewrite present_bits in E. exact E.
  - intros s k H. destruct (pred_spec s k) as [o [E Hp]]. cbn [v_predecessor v_predecessor_mut ByteSet_ops].
    unfold mut_ok. unfold bs_predecessor, bs_predecessor_mut in *. destruct (from_array _) as [v|].
    + destruct (highest v) as [j|]; cbn [bind] in *; [|discriminate]. injection E as <-.
      eexists. split; [reflexivity|]. split; [reflexivity|]. intros p put Hp'. injection Hp' as <- <-.
      apply bs_lens; auto. tauto.
    + exists None. split; auto. split; auto. discriminate.
  - intros s k H. destruct (succ_spec s k) as [o [E Hp]]. cbn [v_successor v_successor_mut ByteSet_ops].
    unfold mut_ok. unfold bs_successor, bs_successor_mut in *. destruct (from_array _) as [v|].
    + destruct (lowest v) as [j|]; cbn [bind] in *; [|discriminate]. injection E as <-.
      eexists. split; [reflexivity|]. split; [reflexivity|]. intros p put Hp'. injection Hp' as <- <-.
      apply bs_lens; auto. tauto.
    + exists None. split; auto. split; auto. discriminate.
  - intros s k [] H _. cbn [v_insert ByteSet_ops]. unfold bs_insert. rewrite present_bits. fold (mem s k).
    destruct (mem s k) eqn:E; (eexists; eexists; split; [reflexivity|]).
    + split; auto. split.
      * assert (HP := members_unset s k E). apply (Permutation_map (fun k => (k, tt))) in HP. eauto.
      * split; auto. intros _ Hn. elim Hn. rewrite bs_keys, in_members. auto.
    + split.
      * apply mem_range_nonempty. exists k. rewrite mem_set, (proj2 (uval_eqb k k)); auto.
      * split; [|auto]. apply (Permutation_map (fun k => (k, tt)) (members_set s k E)).
  - intros s k H. cbn [v_remove ByteSet_ops]. unfold bs_remove. rewrite present_bits. fold (mem s k).
    destruct (mem s k) eqn:E; cbn [negb].
    + left. assert (Ht := bs_taken s k H E). rewrite bs_is_monad_ok by auto. cbn [bind].
      destruct (length (bs_ents s) =? 1); eexists; exists (k, tt); (split; [reflexivity|]); split; auto.
    + right. split; auto. rewrite bs_keys, in_members. congruence.
  - intros s H. destruct (lowest_spec s H) as [k [Ek [Hm Hmin]]]. assert (Ht := bs_taken s k H Hm).
    cbn [v_remove_min v_min_val ByteSet_ops]. unfold bs_remove_min, bs_min_val. rewrite Ek. cbn [bind].
    rewrite bs_is_monad_ok by auto. cbn [bind].
    destruct (length (bs_ents s) =? 1); eexists; exists (k, tt); (split; [reflexivity|]); split; auto.
  - intros s H. destruct (highest_spec s H) as [k [Ek [Hm Hmin]]]. assert (Ht := bs_taken s k H Hm).
    cbn [v_remove_max v_max_val ByteSet_ops]. unfold bs_remove_max, bs_max_val. rewrite Ek. cbn [bind].
    rewrite bs_is_monad_ok by auto. cbn [bind].
    destruct (length (bs_ents s) =? 1); eexists; exists (k, tt); (split; [reflexivity|]); split; auto.
Defined.
End Build.
