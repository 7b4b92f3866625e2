(** The ByteSet facts in terms of the 256-bit number. *)
From Verif Require Import Base Ints ByteSet BitSpec ByteSetProofs.

Lemma number_bits a n : (fst a < 2 ^ 128)%N -> N.testbit (number a) n = bits a n.
Proof.
  intros H. unfold number, bits. destruct (N.ltb_spec n 128) as [Hn|Hn].
  - rewrite <- (N.mod_pow2_bits_low (fst a + _) 128 n Hn). rewrite (N.mul_comm (2 ^ 128)), N.mod_add by (apply N.pow_nonzero; discriminate).
    apply N.mod_pow2_bits_low. auto.
  - replace n with (n - 128 + 128)%N at 1 by lia. rewrite <- N.div_pow2_bits.
    rewrite (N.mul_comm (2 ^ 128)), N.div_add by (apply N.pow_nonzero; discriminate). rewrite N.div_small; auto.
Qed.
Lemma has_bits s n : has s n = bits (words s) n.
Proof. apply number_bits. apply words_range. Qed.
Lemma has_mem s k : has s (uval k) = mem s k.
Proof. apply has_bits. Qed.
Lemma has_out s n : (256 <= n)%N -> has s n = false.
Proof. intros H. rewrite has_bits. apply bits_out; auto. apply words_range. Qed.
Lemma mask_range_shr s : (unwrap_or_default (checked_shr U128_MAX s) < 2 ^ 128)%N.
Proof. apply small_bits. intros m Hm. rewrite shr_bit. apply N.ltb_ge. lia. Qed.
Lemma mask_range_shl s : (unwrap_or_default (checked_shl U128_MAX s) < 2 ^ 128)%N.
Proof. apply small_bits. intros m Hm. rewrite shl_bit. apply andb_false_iff. right. apply N.ltb_ge. lia. Qed.
Lemma mask_lower_num k n : N.testbit (number (mask_lower k)) n = (n <? uval k)%N.
Proof.
  rewrite number_bits by apply mask_range_shr. destruct (N.lt_ge_cases n 256) as [H|H]; [apply mask_lower_bits; auto|].
  rewrite bits_out; auto.
  - symmetry. apply N.ltb_ge. assert (Hk := uval8 k). lia.
  - split; apply mask_range_shr.
Qed.
Lemma mask_higher_num k n : N.testbit (number (mask_higher k)) n = ((uval k <? n) && (n <? 256))%N.
Proof.
  rewrite number_bits by apply mask_range_shl. destruct (N.lt_ge_cases n 256) as [H|H].
  - rewrite mask_higher_bits by auto. apply N.ltb_lt in H. rewrite H, andb_true_r. reflexivity.
  - rewrite bits_out; auto; [|split; apply mask_range_shl]. symmetry. apply andb_false_iff. right. apply N.ltb_ge. auto.
Qed.
Lemma has_nonempty s n : has s n = true -> nonempty s.
Proof.
  intros H E. assert (H' : has s n = false); [|congruence]. rewrite has_bits, E. unfold bits. cbn [fst snd]. rewrite !N.bits_0.
  destruct (n <? 128)%N; auto.
Qed.
Lemma has_key s n : has s n = true -> exists k : u 8, uval k = n.
Proof.
  intros H. destruct (N.lt_ge_cases n 256) as [Hn|Hn].
  - exists (pack 8 n). apply pack8. auto.
  - rewrite has_out in H by auto. discriminate.
Qed.
Lemma lowest_has {B : Build} s m : has s m = true -> exists k, lowest s = Ret k /\ has s (uval k) = true /\
  forall n, has s n = true -> (uval k <= n)%N.
Proof.
  intros H. destruct (lowest_spec s (has_nonempty s m H)) as [k [E [H1 H2]]]. exists k. rewrite has_mem. split; auto. split; auto.
  intros n Hn. destruct (has_key s n Hn) as [j <-]. apply H2. rewrite <- has_mem. auto.
Qed.
Lemma highest_has {B : Build} s m : has s m = true -> exists k, highest s = Ret k /\ has s (uval k) = true /\
  forall n, has s n = true -> (n <= uval k)%N.
Proof.
  intros H. destruct (highest_spec s (has_nonempty s m H)) as [k [E [H1 H2]]]. exists k. rewrite has_mem. split; auto. split; auto.
  intros n Hn. destruct (has_key s n Hn) as [j <-]. apply H2. rewrite <- has_mem. auto.
Qed.
Lemma upto_seq w : map N.of_nat (seq 0 w) = upto w.
Proof. Transparent upto. reflexivity. Opaque upto. Qed.
Lemma how_many_ext p q : (forall n, (n < 256)%N -> p n = q n) -> how_many p = how_many q.
Proof.
  intros H. unfold how_many. rewrite upto_seq. do 2 f_equal. apply filter_ext_in. intros n Hn. apply H. apply in_upto in Hn. exact Hn.
Qed.
Lemma array_len_many a : in_range a -> array_len a = how_many (bits a).
Proof. intros H. unfold how_many. rewrite upto_seq. apply array_len_spec. auto. Qed.
Lemma filter_pos (p : N -> bool) l m : In m l -> p m = true -> N.of_nat (length (filter p l)) <> 0%N.
Proof.
  intros Hm Hp E. assert (Hin : In m (filter p l)) by (apply filter_In; auto).
  destruct (filter p l) as [|x l']; [destruct Hin|discriminate E].
Qed.
Lemma many_pos p m : (m < 256)%N -> p m = true -> how_many p <> 0%N.
Proof.
  intros Hm Hp. unfold how_many. rewrite upto_seq. apply (filter_pos _ _ m); auto. apply in_upto. exact Hm.
Qed.
Lemma len_has s m : has s m = true -> bs_len s = Ret (how_many (has s)).
Proof.
  intros H. unfold bs_len. rewrite array_len_many by apply words_range. rewrite (how_many_ext (bits (words s)) (has s)).
  - assert (Hp : how_many (has s) <> 0%N).
    { apply (many_pos _ m); auto. destruct (N.lt_ge_cases m 256) as [Hm|Hm]; auto. rewrite has_out in H by auto. discriminate H. }
    apply N.eqb_neq in Hp. rewrite Hp. reflexivity.
  - intros n _. symmetry. apply has_bits.
Qed.
Lemma count_below_has s k : count_below s k = how_many (fun n => (n <? uval k)%N && has s n).
Proof.
  unfold count_below. rewrite array_len_many by apply and_range. apply how_many_ext. intros n Hn.
  rewrite and_bits, mask_lower_bits, has_bits by auto. reflexivity.
Qed.
Lemma u8_neq (k : u 8) n : (256 <= n)%N -> (n =? uval k)%N = false.
Proof. intros H. apply N.eqb_neq. assert (Hk := uval8 k). lia. Qed.
Lemma set_has s k n : has (set_bit s k) n = (n =? uval k)%N || has s n.
Proof.
  destruct (N.lt_ge_cases n 256) as [H|H].
  - rewrite !has_bits. unfold set_bit. rewrite words_of by (apply set_range, words_range). apply set_bits. auto.
  - rewrite !has_out by auto. rewrite (u8_neq k n H). reflexivity.
Qed.
Lemma unset_has s k n : has (unset_bit s k) n = negb (n =? uval k)%N && has s n.
Proof.
  destruct (N.lt_ge_cases n 256) as [H|H].
  - rewrite !has_bits. apply unset_bits. auto.
  - rewrite !has_out by auto. symmetry. apply andb_false_r.
Qed.
Lemma present_has s k : is_present s k = has s (uval k).
Proof. rewrite has_bits. apply present_bits. Qed.
Lemma has_ext s t : (forall n, has s n = has t n) -> s = t.
Proof.
  intros H. apply words_inj. apply bits_ext; try apply words_range. intros n _. rewrite <- !has_bits. apply H.
Qed.

Lemma words_ok n s : (n < 2 ^ 128)%N ->
  count_ones n = N.of_nat (length (filter (fun m => N.testbit n (N.of_nat m)) (seq 0 128))) /\
  (n = 0%N -> trailing_zeros n = 128%N /\ leading_zeros n = 128%N) /\
  (n <> 0%N -> (trailing_zeros n < 128)%N /\ N.testbit n (trailing_zeros n) = true /\ (leading_zeros n < 128)%N /\ N.testbit n (127 - leading_zeros n) = true) /\
  (forall m, N.testbit n m = true -> (trailing_zeros n <= m /\ m + leading_zeros n <= 127)%N) /\
  checked_shr n s = (if (s <? 128)%N then Some (n / 2 ^ s)%N else None) /\
  checked_shl n s = (if (s <? 128)%N then Some ((n * 2 ^ s) mod 2 ^ 128)%N else None).
Proof.
  Transparent upto. intros Hn. split; [|split; [|split; [|split; [|split]]]].
  - rewrite (count_ones_spec 128 n Hn). unfold upto. rewrite filter_map_comm, map_length. reflexivity.
  - intros ->. split; reflexivity.
  - intros Hz. destruct (lz_spec n Hz Hn) as [E1 E2]. split; [apply tz_lt; auto|]. split; [apply tz_bit; auto|]. split; [lia|].
    replace (127 - leading_zeros n)%N with (N.log2 n) by lia. apply N.bit_log2. auto.
  - intros m Hm. assert (Hz : n <> 0%N) by (intros ->; rewrite N.bits_0 in Hm; discriminate Hm). destruct (lz_spec n Hz Hn) as [E1 E2]. split.
    + destruct (N.le_gt_cases (trailing_zeros n) m) as [H|H]; auto. rewrite (tz_low n m Hz H) in Hm. discriminate Hm.
    + destruct (N.le_gt_cases m (N.log2 n)) as [H|H]; [lia|]. rewrite N.bits_above_log2 in Hm by auto. discriminate Hm.
  - unfold checked_shr. rewrite N.shiftr_div_pow2. reflexivity.
  - unfold checked_shl. rewrite wrap_val, N.shiftl_mul_pow2. reflexivity.
Qed.
Lemma empty_ok {B : Build} s : (forall n, has s n = false) ->
  bs_len s = Panic /\ lowest s = (if dbg then Panic else Ret (wrap 8 0)) /\ highest s = (if dbg then Panic else Ret (wrap 8 255)) /\
  forall k, count_below s k = 0%N.
Proof.
  intros H. assert (E : s = BS (pack 128 0) (pack 128 0)).
  { apply has_ext. intros n. rewrite H. symmetry. unfold has, number. cbn [words w0 w1 fst snd]. change (uval (pack 128 0)) with 0%N. apply N.bits_0. }
  split; [subst s; reflexivity|]. split; [subst s; unfold lowest; cbn; destruct dbg; reflexivity|].
  split; [subst s; destruct B as [[] []]; reflexivity|].
  intros k. rewrite count_below_has. unfold how_many. rewrite (filter_ext _ (fun _ => false)); [|intros n; rewrite H; apply Bool.andb_false_r].
  generalize (map N.of_nat (seq 0 256)). intros l. induction l as [|a l IH]; auto.
Qed.
