(** The shorter side moves, and all growing together copies fewer values than twice the most there ever were. *)
From Verif Require Import Base Ints Ops ByteMap Coll DequeGen DequeGenCor RingMoves.
From Coq Require Import Lia.

Section Ring.
  Context {A : Type}.
  Implicit Types (b : list (option A)) (l : list A) (r : Ring A).
  Lemma set_other b s o : forall s', s <> s' -> nth_error (list_set b s o) s' = nth_error b s'.
  Proof. revert s. induction b as [|x b IH]; intros [|s] [|s'] H; cbn; auto; try congruence. Qed.
  Lemma up_other cap h i n s : forall b, (forall j, j < n -> s <> rg_wrap cap (h + (i + j + 1))) -> nth_error (rg_up cap h i n b) s = nth_error b s.
  Proof.
    induction n as [|n IH]; intros b H; cbn [rg_up]; auto. rewrite IH by (intros j Hj; apply H; lia). apply set_other. intros E. apply (H n); [lia|auto].
  Qed.
  Lemma down_other cap h n s : forall i b, (forall j, j < n -> s <> rg_wrap cap (h + (i + j))) -> nth_error (rg_down cap h i n b) s = nth_error b s.
  Proof.
    induction n as [|n IH]; intros i b H; cbn [rg_down]; auto. rewrite IH.
    - apply set_other. intros E. apply (H 0); [lia|]. rewrite Nat.add_0_r. auto.
    - intros j Hj. replace (i + 1 + j) with (i + S j) by lia. apply H. lia.
  Qed.
  Lemma not_mapped (f : nat -> nat) n s : ~ In s (map f (seq 0 n)) -> forall j, j < n -> s <> f j.
  Proof. intros H j Hj ->. apply H, in_map, in_seq. lia. Qed.
  Notation open := (fun r i => rg_len r - i <? i).
  Notation shut := (fun r i => rg_len r - i - 1 <? i).
  Lemma insert_slots r i v r' : rg_len r < length (rg_buf r) -> d_insert (std_ring A) r i v = Ret r' ->
    exists ss, length ss <= S (Nat.min (N.to_nat i) (rg_len r - N.to_nat i)) /\ only_in ss (rg_buf r) (rg_buf r').
  Proof.
    intros Hr. cbn [d_insert std_ring Ring_deque]. destruct (N.leb_spec i (N.of_nat (rg_len r))) as [Hi|Hi]; [|discriminate]. intros E. injection E as <-.
    set (k := N.to_nat i). assert (Hk : k <= rg_len r) by lia. unfold rg_insert, rg_room. destruct (Nat.ltb_spec (rg_len r) (length (rg_buf r))); [|lia].
    destruct (Nat.ltb_spec (rg_len r - k) k) as [Hs|Hs].
    - exists (rg_slot r k :: map (fun j => rg_wrap (length (rg_buf r)) (rg_head r + (k + j + 1))) (seq 0 (rg_len r - k))). cbn [length rg_buf].
      rewrite map_length, seq_length. split; [lia|]. split; [rewrite set_len, up_len; auto|]. intros s Hn. cbn [In] in Hn.
      rewrite set_other by tauto. apply up_other, not_mapped. tauto.
    - set (h := match rg_head r with 0 => length (rg_buf r) - 1 | S h => h end).
      exists (rg_wrap (length (rg_buf r)) (h + k) :: map (fun j => rg_wrap (length (rg_buf r)) (h + (0 + j))) (seq 0 k)). cbn [length rg_buf].
      rewrite map_length, seq_length. split; [lia|]. split; [rewrite set_len, down_len; auto|]. intros s Hn. cbn [In] in Hn.
      rewrite set_other by tauto. apply down_other. apply not_mapped. tauto.
  Qed.
  Lemma remove_slots r i r' v : d_remove (std_ring A) r i = (r', Some v) ->
    exists ss, length ss <= Nat.min (N.to_nat i) (rg_len r - N.to_nat i - 1) /\ only_in ss (rg_buf r) (rg_buf r').
  Proof.
    cbn [d_remove std_ring Ring_deque]. set (k := N.to_nat i). destruct (rg_get r k) as [x|] eqn:E; [|discriminate]. intros Er. injection Er as <- _. unfold rg_del.
    destruct (Nat.ltb_spec (rg_len r - k - 1) k) as [Hs|Hs]; cbn [rg_buf].
    - exists (map (fun j => rg_wrap (length (rg_buf r)) (rg_head r + (k + j))) (seq 0 (rg_len r - k - 1))). rewrite map_length, seq_length. split; [lia|].
      split; [apply down_len|]. intros s Hn. apply down_other, not_mapped, Hn.
    - exists (map (fun j => rg_wrap (length (rg_buf r)) (rg_head r + (0 + j + 1))) (seq 0 k)). rewrite map_length, seq_length. split; [lia|].
      split; [apply up_len|]. intros s Hn. apply up_other, not_mapped, Hn.
  Qed.
  (** through [d_entry], the same *)
  Lemma entry_slots r i v put : d_entry (std_ring A) r i = Some (v, put) ->
    put None = fst (d_remove (std_ring A) r i) /\ snd (d_remove (std_ring A) r i) = Some v /\
    forall x, exists s, only_in [s] (rg_buf r) (rg_buf (put (Some x))).
  Proof.
    cbn [d_entry d_remove std_ring Ring_deque]. destruct (rg_get r (N.to_nat i)) as [y|]; [|discriminate]. intros E. injection E as <- <-. split; auto. split; auto.
    intros x. exists (rg_slot r (N.to_nat i)). split; [apply set_len|]. intros s Hn. apply set_other. cbn in Hn. tauto.
  Qed.

  Lemma split_at l i : i <= length l -> exists a c, l = a ++ c /\ length a = i.
  Proof. intros H. exists (firstn i l), (skipn i l). rewrite firstn_skipn, firstn_length. split; auto. lia. Qed.
  Lemma run_snoc (v : A) os o : cp_run v (os ++ [o]) = cp_step (cp_run v os) o.
  Proof. unfold cp_run. rewrite fold_left_app. reflexivity. Qed.
  Lemma step_holds (c : Copies A) l o : holds (cp_ring c) l -> holds (cp_ring (cp_step c o)) (list_step l o).
  Proof.
    intros H. assert (El := proj1 (proj2 H)). destruct o as [i v|i]; cbn [cp_step list_step]; cbv zeta.
    - cbn [d_insert std_ring Ring_deque]. rewrite El. destruct (N.leb_spec i (N.of_nat (length l))) as [Hi|Hi], (Nat.leb_spec (N.to_nat i) (length l)); try lia; auto.
      cbn [cp_ring]. destruct (split_at l (N.to_nat i) ltac:(lia)) as [a [b [-> Ea]]]. rewrite <- Ea, firstn_app, skipn_app, firstn_all, skipn_all, Nat.sub_diag.
      cbn [firstn skipn app]. rewrite app_nil_r. apply insert_holds, H.
    - cbn [cp_ring d_remove std_ring Ring_deque]. rewrite (holds_get _ _ _ H). destruct (nth_error l (N.to_nat i)) as [x|] eqn:E; cbn [fst].
      + destruct (nth_error_split _ _ E) as [a [b [-> Ea]]]. rewrite <- Ea, firstn_app, firstn_all, Nat.sub_diag. cbn [firstn]. rewrite app_nil_r.
        rewrite skipn_app, skipn_all2 by lia. replace (S (length a) - length a) with 1 by lia. cbn [skipn app]. eapply del_holds, H.
      + apply nth_error_None in E. rewrite firstn_all2, skipn_all2, app_nil_r by lia. exact H.
  Qed.
  Lemma run_holds (v : A) os : holds (cp_ring (cp_run v os)) (fold_left list_step os [v]).
  Proof.
    induction os as [|o os IH] using rev_ind; [apply (of_holds 0 0 [v]); discriminate|]. rewrite run_snoc, fold_left_app. apply step_holds, IH.
  Qed.
  Lemma grown r l i v r' : holds r l -> rg_len r = length (rg_buf r) -> d_insert (std_ring A) r i v = Ret r' ->
    length (rg_buf r') = Nat.max 4 (2 * length (rg_buf r)).
  Proof.
    intros H Hr. cbn [d_insert std_ring Ring_deque]. destruct (_ <=? _)%N; [|discriminate]. intros E. injection E as <-. assert (El := proj1 (proj2 H)).
    assert (G : length (rg_buf (rg_room std_plan r)) = Nat.max 4 (2 * length (rg_buf r))).
    { unfold rg_room. destruct (Nat.ltb_spec (rg_len r) (length (rg_buf r))); [lia|]. unfold std_plan. rewrite (holds_list _ _ H). unfold rg_of. cbn [rg_buf].
      rewrite fill_len, repeat_length. lia. }
    unfold rg_insert. destruct (_ <? _); cbn [rg_buf]; rewrite set_len, ?up_len, ?down_len; exact G.
  Qed.
  Lemma cap_bound (v : A) os p : (forall os1 os2, os = os1 ++ os2 -> length (fold_left list_step os1 [v]) <= p) -> let c := cp_run v os in
    cp_count c < length (rg_buf (cp_ring c)) /\ length (rg_buf (cp_ring c)) <= 2 * p.
  Proof.
    cbv zeta. induction os as [|o os IH] using rev_ind; intros H.
    - assert (H0 := H [] [] eq_refl). cbn [fold_left length] in H0. cbn. lia.
    - assert (Hp := H (os ++ [o]) [] (eq_sym (app_nil_r _))). rewrite fold_left_app in Hp. cbn [fold_left] in Hp.
      destruct IH as [I1 I2]. { intros os1 os2 E. apply (H os1 (os2 ++ [o])). rewrite E, app_assoc. reflexivity. }
      rewrite run_snoc. assert (Hh := run_holds v os). set (c := cp_run v os) in *. set (l := fold_left list_step os [v]) in *.
      assert (El := proj1 (proj2 Hh)). assert (Ec := proj1 (proj2 (proj2 Hh))).
      destruct o as [i x|i]; cbn [cp_step]; cbv zeta.
      + destruct (d_insert (std_ring A) (cp_ring c) i x) as [r'|] eqn:E; auto. cbn [cp_ring cp_count].
        destruct (Nat.eqb_spec (rg_len (cp_ring c)) (length (rg_buf (cp_ring c)))) as [Ef|Ef].
        * rewrite (grown _ _ _ _ _ Hh Ef E). cbn [list_step] in Hp. cbn [d_insert std_ring Ring_deque] in E.
          destruct (N.leb_spec i (N.of_nat (rg_len (cp_ring c)))) as [Hi|Hi]; [|discriminate].
          destruct (Nat.leb_spec (N.to_nat i) (length l)); [|lia]. rewrite app_length, firstn_length in Hp. cbn [length] in Hp. rewrite skipn_length in Hp. lia.
        * assert (Hf : rg_len (cp_ring c) < length (rg_buf (cp_ring c))) by lia. destruct (insert_slots _ _ _ _ Hf E) as [ss [_ [-> _]]]. lia.
      + cbn [cp_ring cp_count]. destruct (d_remove (std_ring A) (cp_ring c) i) as [r' [x|]] eqn:E; cbn [fst].
        * destruct (remove_slots _ _ _ _ E) as [ss [_ [-> _]]]. auto.
        * cbn [d_remove std_ring Ring_deque] in E. destruct (rg_get _ _); [discriminate|]. injection E as <-. auto.
  Qed.
  Lemma run_list (v : A) os : rg_list (cp_ring (cp_run v os)) = fold_left list_step os [v].
  Proof. apply holds_list, run_holds. Qed.
  Lemma stay r l : holds r l -> rg_len r = length (rg_buf r) -> let q := rg_room std_plan r in
    exists is, 2 * length is <= rg_len r /\ forall i, i < rg_len r -> ~ In i is -> rg_slot q i = rg_slot r i.
  Proof.
    intros H Hr. assert (Hh := proj1 H). assert (El := proj1 (proj2 H)). cbv zeta. unfold rg_room. destruct (Nat.ltb_spec (rg_len r) (length (rg_buf r))); [lia|].
    unfold std_plan. rewrite (holds_list _ _ H).
    set (cap := length (rg_buf r)) in *. set (hd := rg_head r) in *.
    assert (Hs : forall h i, h < Nat.max 4 (2 * cap) -> rg_slot (rg_of (S (Nat.max 4 (2 * cap) - cap - 1)) h l) i = rg_wrap (Nat.max 4 (2 * cap)) (h + i)).
    { intros h i Hl. unfold rg_slot, rg_of. cbn [rg_buf rg_head]. rewrite fill_len, repeat_length. replace (length l + _) with (Nat.max 4 (2 * cap)) by lia.
      rewrite Nat.mod_small by exact Hl. reflexivity. }
    set (cap' := Nat.max 4 (2 * cap)) in *. assert (Hc : 2 * cap <= cap') by lia.
    assert (Hq : forall i, rg_slot r i = rg_wrap cap (hd + i)) by reflexivity.
    destruct (Nat.eqb_spec hd 0) as [E0|E0]; [|destruct (Nat.ltb_spec (rg_len r - (cap - hd)) (cap - hd)) as [Hu|Hu]].
    - exists []. split; [cbn; lia|]. intros i Hi _. rewrite Hs, Hq by lia. unfold rg_wrap. repeat match goal with |- context [?a <=? ?b] => destruct (Nat.leb_spec a b) end; lia.
    - exists (seq (cap - hd) (rg_len r - (cap - hd))). rewrite seq_length. split; [lia|]. intros i Hi Hn. rewrite in_seq in Hn. rewrite Hs, Hq by lia. unfold rg_wrap.
      repeat match goal with |- context [?a <=? ?b] => destruct (Nat.leb_spec a b) end; lia.
    - exists (seq 0 (cap - hd)). rewrite seq_length. split; [lia|]. intros i Hi Hn. rewrite in_seq in Hn. rewrite Hs, Hq by lia. unfold rg_wrap.
      repeat match goal with |- context [?a <=? ?b] => destruct (Nat.leb_spec a b) end; lia.
  Qed.
  Lemma room_list r l : holds r l -> rg_list (rg_room std_plan r) = rg_list r.
  Proof. intros H. rewrite (holds_list _ _ H). apply holds_list. apply (room_holds std_plan), H. Qed.
  Lemma same_only (ss : list nat) b : only_in ss b b.
  Proof. split; auto. Qed.
  Lemma counted_step (v : A) os o : let c := cp_run v os in let c' := cp_run v (os ++ [o]) in let n := length (fold_left list_step os [v]) in
    (cp_count c' = cp_count c /\ exists ss, 2 * length ss <= n + 2 /\ only_in ss (rg_buf (cp_ring c)) (rg_buf (cp_ring c'))) \/
    (cp_count c' = cp_count c + n /\ n = length (rg_buf (cp_ring c)) /\ n < length (rg_buf (cp_ring c')) /\ exists i x, o = RIns i x).
  Proof.
    cbv zeta. rewrite run_snoc. assert (Hh := run_holds v os). set (c := cp_run v os) in *. set (l := fold_left list_step os [v]) in *.
    assert (El := proj1 (proj2 Hh)). assert (Ec := proj1 (proj2 (proj2 Hh))). assert (Eh := proj1 Hh).
    destruct o as [i x|i]; cbn [cp_step]; cbv zeta.
    - destruct (d_insert (std_ring A) (cp_ring c) i x) as [r'|] eqn:E.
      + cbn [cp_ring cp_count]. destruct (Nat.eqb_spec (rg_len (cp_ring c)) (length (rg_buf (cp_ring c)))) as [Ef|Ef].
        * right. rewrite (grown _ _ _ _ _ Hh Ef E). repeat split; try lia. eauto.
        * left. split; [lia|]. assert (Hf : rg_len (cp_ring c) < length (rg_buf (cp_ring c))) by lia. destruct (insert_slots _ _ _ _ Hf E) as [ss [Hs Ho]].
          exists ss. split; auto. lia.
      + left. split; auto. exists []. split; [cbn; lia|apply same_only].
    - left. split; auto. cbn [cp_ring]. destruct (d_remove (std_ring A) (cp_ring c) i) as [r' [x|]] eqn:E; cbn [fst].
      + destruct (remove_slots _ _ _ _ E) as [ss [Hs Ho]]. exists ss. split; auto. lia.
      + cbn [d_remove std_ring Ring_deque] in E. destruct (rg_get _ _); [discriminate|]. injection E as <-. exists []. split; [cbn; lia|apply same_only].
  Qed.
  Lemma insert_bytes r i v r' : rg_len r < length (rg_buf r) -> rg_len r < 256 -> d_insert (std_ring A) r i v = Ret r' ->
    exists ss, length ss <= 128 /\ only_in ss (rg_buf r) (rg_buf r').
  Proof. intros H1 H2 E. destruct (insert_slots r i v r' H1 E) as [ss [H3 H4]]. exists ss. split; auto. lia. Qed.
  Lemma remove_bytes r i v r' : rg_len r <= 256 -> d_remove (std_ring A) r i = (r', Some v) -> exists ss, length ss <= 127 /\ only_in ss (rg_buf r) (rg_buf r').
  Proof. intros H2 E. destruct (remove_slots r i r' v E) as [ss [H3 H4]]. exists ss. split; auto. lia. Qed.
End Ring.

(** Counting the slots that differ *)
Lemma preds_len (ss : list nat) : length (map pred (filter (fun s => negb (s =? 0)) ss)) + (if existsb (Nat.eqb 0) ss then 1 else 0) <= length ss.
Proof.
  rewrite map_length. set (f := fun s => negb (s =? 0)). induction ss as [|s ss IH]; [auto|].
  assert (E : f s = negb (0 =? s)) by (destruct s; reflexivity). cbn [filter existsb length]. rewrite E.
  revert IH. destruct (0 =? s), (existsb (Nat.eqb 0) ss); cbn [negb orb length]; intros; lia.
Qed.
Lemma differ_le b : forall b' ss, only_in ss b b' -> differ b b' <= length ss.
Proof.
  induction b as [|x b IH]; intros [|y b'] ss [Hl H]; cbn [differ]; try lia. cbn in Hl.
  assert (D := IH b' (map pred (filter (fun s => negb (s =? 0)) ss))). assert (P := preds_len ss).
  assert (I : only_in (map pred (filter (fun s => negb (s =? 0)) ss)) b b').
  { split; [lia|]. intros s Hs. apply (H (S s)). intros Hi. apply Hs, in_map_iff. exists (S s). split; auto. apply filter_In. auto. }
  specialize (D I). revert P. destruct (existsb (Nat.eqb 0) ss) eqn:E; intros P.
  - destruct x, y; try destruct (_ =? _)%N; lia.
  - assert (N0 : ~ In 0 ss). { intros Hi. assert (existsb (Nat.eqb 0) ss = true) by (apply existsb_exists; exists 0; auto). congruence. }
    specialize (H 0 N0). cbn in H. injection H as ->. destruct x; [rewrite N.eqb_refl|]; lia.
Qed.
