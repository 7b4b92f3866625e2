(** [VecDeque] as a list of values and of trees over any correct queue, the ring buffer, and the types with all their containers exchanged. *)
From Verif Require Import Base Ints Ops Spec ByteSet ByteMap Coll Boxed BTree SizedT Tree Lists Laws ByteSetProofs ByteMapProofs BTreeProofs CollProofs
  Hist Types HistProofs TypesProofs HistCor Sim TreeSim CollSim LeafSim CoreCor Rel RelCor Fits Iter IterSpec IterProofs FitsCor Open OpenCor GenMap
  GenMapProofs GenMapCor HashGen HashGenCor MapGen MapGenCor GenMap DequeGen.

(** *** Over a queue that keeps the contract both implementations keep theirs (C55) *)
Section Over.
  Context {A : Type} {D : DequeOps A} (DC : DequeContract D).
  Definition do_inv (d : dty D) : Prop := dk_inv DC d /\ dk_abs DC d <> [].
  Lemma do_not_empty d a v b : dk_inv DC d -> dk_abs DC d = a ++ v :: b -> d_is_empty D d = false.
  Proof.
    intros Hi E. destruct (d_is_empty D d) eqn:Ee; auto. apply (dk_is_empty _ DC d Hi) in Ee. rewrite E in Ee. destruct a; discriminate.
  Qed.
  Lemma do_left d l : dk_inv DC d -> dk_abs DC d = l -> d_is_empty D d = is_nil l.
  Proof.
    intros Hi <-. destruct (d_is_empty D d) eqn:Ee.
    - apply (dk_is_empty _ DC d Hi) in Ee. rewrite Ee. reflexivity.
    - destruct (dk_abs DC d) eqn:E; auto. apply (dk_is_empty _ DC d Hi) in E. congruence.
  Qed.
  Lemma mid_ne (a b : list A) v : a ++ v :: b <> [].
  Proof. destruct a; discriminate. Qed.
  Definition deque_list : ListContract (DequeList D).
  Proof.
    refine (mkLC _ (DequeList D) do_inv (dk_abs DC) _ _ _ _ _ _ _); cbn.
    - intros d [_ H]. exact H.
    - intros v. destruct (dk_one _ DC v) as [H1 H2]. split; auto. split; auto. rewrite H2. discriminate.
    - intros d [H _]. f_equal. apply (dk_len _ DC d H).
    - intros d a v b [H _]. apply (dk_index _ DC d a v b H).
    - intros d a v b [H _] E. destruct (dk_index_mut _ DC d a v b H E) as [put [E' Hp]]. exists put. split; auto.
      intros w. destruct (Hp w) as [H1 H2]. split; auto. split; auto. rewrite H2. apply mid_ne.
    - intros d a b v [H _] E. destruct (dk_insert _ DC d a b v H E) as [d' [E' [H1 H2]]]. exists d'. split; auto. split; auto. split; auto. rewrite H2. apply mid_ne.
    - intros d a v b [H _] E. destruct (dk_remove _ DC d a v b H E) as [d' [E' [H1 H2]]]. unfold do_remove_value. rewrite E'. cbn [expect bind].
      rewrite (do_left d' _ H1 H2). eexists. split; [reflexivity|]. destruct (a ++ b) eqn:En; cbn; auto. split; [|exact H2]. split; auto. rewrite H2. discriminate.
  Defined.
End Over.
Section OverTrees.
  Context {B : Build} {Lo V : Type} (Tr : VebOps Lo V) {D : DequeOps (vt Tr)} (DC : DequeContract D).
  Lemma spot_nil (a b : list (vt Tr)) ot : a ++ spot ot ++ b = [] -> ot = None.
  Proof. destruct a, ot; cbn; auto; discriminate. Qed.
  Definition deque_trees : TreeListContract (DequeTrees Tr D).
  Proof.
    refine (mkTLC _ _ _ (DequeTrees Tr D) (do_inv DC) (dk_abs DC) _ _ _ _ _ _ _ _ _ _); cbn.
    - intros d [_ H]. exact H.
    - intros v. destruct (dk_one _ DC v) as [H1 H2]. split; auto. split; auto. rewrite H2. discriminate.
    - intros d a v b [H _]. apply (dk_index _ DC d a v b H).
    - intros d a v b [H _] E. destruct (dk_index_mut _ DC d a v b H E) as [put [E' Hp]]. exists put. split; auto.
      intros w. destruct (Hp w) as [H1 H2]. split; auto. split; auto. rewrite H2. apply mid_ne.
    - intros d a b v [H _] E. destruct (dk_insert _ DC d a b v H E) as [d' [E' [H1 H2]]]. exists d'. split; auto. split; auto. split; auto. rewrite H2. apply mid_ne.
    - intros d a t b f ot p [H _] E Ef. destruct (dk_entry _ DC d a t b H E) as [put [E' [Hp _]]]. unfold do_remove. rewrite E', Ef. cbn [bind].
      destruct (Hp ot) as [H1 H2]. rewrite (do_left DC _ _ H1 H2). destruct (a ++ spot ot ++ b) as [|x l] eqn:En; cbn [is_nil].
      + rewrite (spot_nil _ _ _ En). exists None. split; [|reflexivity]. unfold debug_assert. destruct dbg; reflexivity.
      + eexists. split; [reflexivity|]. cbn. split; [|auto]. split; auto. rewrite H2. discriminate.
    - intros d a t b f [H _] E Ef. destruct (dk_entry _ DC d a t b H E) as [put [E' _]]. unfold do_remove. rewrite E', Ef. reflexivity.
    - intros d a t b f ot p [H _] E Ef. destruct (dk_entry _ DC d a t b H E) as [put [E' [Hp _]]]. unfold do_maybe_remove. rewrite E', Ef. cbn [bind].
      destruct (Hp ot) as [H1 H2]. rewrite (do_left DC _ _ H1 H2). destruct (a ++ spot ot ++ b) as [|x l] eqn:En; cbn [is_nil].
      + rewrite (spot_nil _ _ _ En). exists None. split; [|reflexivity]. unfold debug_assert. destruct dbg; reflexivity.
      + eexists. split; [reflexivity|]. cbn. split; [|auto]. split; auto. rewrite H2. discriminate.
    - intros d a t b f t' [H _] E Ef. destruct (dk_entry _ DC d a t b H E) as [put [E' [Hp He]]]. unfold do_maybe_remove. rewrite E', Ef. cbn [bind].
      destruct (Hp (Some t')) as [H1 H2]. cbn in H2. eexists. split; [reflexivity|]. split; [split; [exact H1|rewrite H2; apply mid_ne]|]. split; [exact H2|].
      intros ->. exact He.
    - intros d a t b f [H _] E Ef. destruct (dk_entry _ DC d a t b H E) as [put [E' _]]. unfold do_maybe_remove. rewrite E', Ef. reflexivity.
  Defined.
End OverTrees.

(** *** The list *)
Lemma insert_mid {A} (a b : list A) v : firstn (length a) (a ++ b) ++ v :: skipn (length a) (a ++ b) = a ++ v :: b.
Proof. rewrite firstn_app, skipn_app, firstn_all, skipn_all, Nat.sub_diag. cbn. rewrite app_nil_r. reflexivity. Qed.
Definition List_deque_contract (A : Type) : DequeContract (List_deque A).
Proof.
  refine {| dk_inv := fun _ : dty (List_deque A) => True; dk_abs := fun d : dty (List_deque A) => d |}; cbn.
  - auto.
  - reflexivity.
  - intros d _. destruct d; cbn; split; congruence.
  - intros d a v b _ ->. unfold vd_get. rewrite Nat2N.id, nth_mid. reflexivity.
  - intros d a v b _ ->. unfold vd_get_mut, vd_get. rewrite Nat2N.id, nth_mid. eexists. split; [reflexivity|]. intros w. split; auto. apply set_mid.
  - intros d a b v _ ->. unfold vd_insert. rewrite app_length, Nat2N.id. destruct (N.leb_spec (N.of_nat (length a)) (N.of_nat (length a + length b))); [|lia].
    eexists. split; [reflexivity|]. split; auto. apply insert_mid.
  - intros d a v b _ ->. unfold vd_remove. rewrite Nat2N.id, nth_mid. eexists. split; [reflexivity|]. split; auto. apply del_mid.
  - intros d a v b _ ->. rewrite Nat2N.id, nth_mid. eexists. split; [reflexivity|]. split; [|apply set_mid].
    intros [w|]; cbn; (split; [exact I|]); [apply set_mid|apply del_mid].
Defined.
Definition Loose_contract (A : Type) : DequeContract (Loose_deque A).
Proof.
  refine {| dk_inv := fun _ : dty (Loose_deque A) => True; dk_abs := fun d : dty (Loose_deque A) => d |}; cbn.
  - auto.
  - reflexivity.
  - intros d _. destruct d; cbn; split; congruence.
  - intros d a v b _ ->. rewrite Nat2N.id, nth_mid. reflexivity.
  - intros d a v b _ ->. rewrite Nat2N.id, nth_mid. eexists. split; [reflexivity|]. intros w. split; auto. apply set_mid.
  - intros d a b v _ ->. rewrite Nat2N.id. eexists. split; [reflexivity|]. split; auto. apply insert_mid.
  - intros d a v b _ ->. rewrite Nat2N.id, nth_mid. eexists. split; [reflexivity|]. split; auto. apply del_mid.
  - intros d a v b _ ->. rewrite Nat2N.id, nth_mid. eexists. split; [reflexivity|]. split; [|apply set_mid].
    intros [w|]; cbn; (split; [exact I|]); [apply set_mid|apply del_mid].
Defined.
(** the list of ByteMap.v *)
Lemma list_deque_same {B : Build} {V Lo W} (Tr : VebOps Lo W) :
  let L := DequeList (List_deque V) in let L' := VecDeque_list V in let T := DequeTrees Tr (List_deque (vt Tr)) in let T' := VecDeque_trees Tr in
  ((forall v, l_from_monad L v = l_from_monad L' v) /\ (forall l, l_len L l = l_len L' l) /\ (forall l i, l_get L l i = l_get L' l i) /\
   (forall l i, l_get_mut L l i = l_get_mut L' l i) /\ (forall l i v, l_insert_value L l i v = l_insert_value L' l i v) /\
   (forall l i, l_remove_value L l i = l_remove_value L' l i)) /\
  (forall t, tl_from T t = tl_from T' t) /\ (forall l i, tl_get T l i = tl_get T' l i) /\ (forall l i, tl_get_mut T l i = tl_get_mut T' l i) /\
  (forall l i t, tl_insert_tree T l i t = tl_insert_tree T' l i t) /\ (forall l i f, tl_remove T l i f = tl_remove T' l i f) /\
  (forall l i f, tl_maybe_remove T l i f = tl_maybe_remove T' l i f).
Proof.
  cbn. repeat split; auto.
  - intros l i. unfold do_remove_value, li_remove_value. cbn. destruct (vd_remove l i) as [o l']. reflexivity.
  - intros l i f. unfold do_remove, tl_remove_key, vd_get. cbn. destruct (nth_error l (N.to_nat i)); reflexivity.
  - intros l i f. unfold do_maybe_remove, tl_maybe_remove_key, vd_get. cbn. destruct (nth_error l (N.to_nat i)) as [t|]; [|reflexivity]. cbn.
    destruct (f t) as [[[ot p]|t']|]; reflexivity.
Qed.

(** *** The ring buffer *)
Section RingBuffer.
  Context {A : Type}.
  Notation R := (Ring A).
  Implicit Types (b : list (option A)) (l : list A) (r : R).
  Ltac leb := repeat match goal with
    | H : context [Nat.leb ?x ?y] |- _ => destruct (Nat.leb_spec x y)
    | |- context [Nat.leb ?x ?y] => destruct (Nat.leb_spec x y)
    | |- context [Nat.ltb ?x ?y] => destruct (Nat.ltb_spec x y)
    end.
  Lemma wrap_lt cap h i : h < cap -> i < cap -> rg_wrap cap (h + i) < cap.
  Proof. unfold rg_wrap. intros. leb; lia. Qed.
  Lemma wrap_inj cap h i j : h < cap -> i < cap -> j < cap -> rg_wrap cap (h + i) = rg_wrap cap (h + j) -> i = j.
  Proof. unfold rg_wrap. intros. leb; lia. Qed.
  Lemma set_len b s o : length (list_set b s o) = length b.
  Proof. revert s. induction b; destruct s; cbn; auto. Qed.
  Lemma read_set b s o s' : s < length b -> rg_read (list_set b s o) s' = if s =? s' then o else rg_read b s'.
  Proof. unfold rg_read. revert s s'. induction b as [|x b IH]; cbn; intros s s' H; [lia|]. destruct s, s'; cbn; auto. apply IH. lia. Qed.
  Lemma set_same b s o : rg_read b s = o -> list_set b s o = b.
  Proof. unfold rg_read. revert s. induction b as [|x b IH]; destruct s; cbn; intros H; auto; [congruence|]. f_equal. auto. Qed.
  Lemma read_at cap h b i j o : length b = cap -> h < cap -> i < cap -> j < cap ->
    rg_read (list_set b (rg_wrap cap (h + i)) o) (rg_wrap cap (h + j)) = if i =? j then o else rg_read b (rg_wrap cap (h + j)).
  Proof.
    intros Hb Hh Hi Hj. rewrite read_set by (rewrite Hb; apply wrap_lt; auto). destruct (Nat.eqb_spec i j) as [->|n].
    - rewrite Nat.eqb_refl. reflexivity.
    - destruct (Nat.eqb_spec (rg_wrap cap (h + i)) (rg_wrap cap (h + j))); auto. elim n. apply (wrap_inj cap h i j); auto.
  Qed.
  Lemma up_len cap h i n b : length (rg_up cap h i n b) = length b.
  Proof. revert b. induction n as [|n IH]; intros b; cbn; auto. rewrite IH. apply set_len. Qed.
  Lemma down_len cap h i n b : length (rg_down cap h i n b) = length b.
  Proof. revert b i. induction n as [|n IH]; intros b i; cbn; auto. rewrite IH. apply set_len. Qed.
  Lemma fill_len cap h i l b : length (rg_fill cap h i l b) = length b.
  Proof. revert b i. induction l as [|x l IH]; intros b i; cbn; auto. rewrite IH. apply set_len. Qed.
  Lemma up_read cap h i n b j : length b = cap -> h < cap -> i + n < cap -> j < cap ->
    rg_read (rg_up cap h i n b) (rg_wrap cap (h + j)) = if (i <? j) && (j <=? i + n) then rg_read b (rg_wrap cap (h + (j - 1))) else rg_read b (rg_wrap cap (h + j)).
  Proof.
    revert b. induction n as [|n IH]; intros b Hb Hh Hn Hj; cbn [rg_up].
    - leb; cbn [andb]; auto; lia.
    - rewrite IH by (rewrite ?set_len; lia). rewrite !read_at by lia. leb; cbn [andb]; try lia.
      all: repeat match goal with |- context [Nat.eqb ?x ?y] => destruct (Nat.eqb_spec x y) end; try lia; auto.
      all: do 3 f_equal; lia.
  Qed.
  Lemma down_read cap h i n b j : length b = cap -> h < cap -> i + n < cap -> j < cap ->
    rg_read (rg_down cap h i n b) (rg_wrap cap (h + j)) = if (i <=? j) && (j <? i + n) then rg_read b (rg_wrap cap (h + (j + 1))) else rg_read b (rg_wrap cap (h + j)).
  Proof.
    revert b i. induction n as [|n IH]; intros b i Hb Hh Hn Hj; cbn [rg_down].
    - leb; cbn [andb]; auto; lia.
    - rewrite IH by (rewrite ?set_len; lia). leb; cbn [andb]; try lia; rewrite read_at by lia.
      all: repeat match goal with |- context [Nat.eqb ?x ?y] => destruct (Nat.eqb_spec x y) end; try lia; auto.
      all: do 3 f_equal; lia.
  Qed.
  Lemma fill_read cap h i l b j : length b = cap -> h < cap -> i + length l <= cap -> j < cap ->
    rg_read (rg_fill cap h i l b) (rg_wrap cap (h + j)) = if (i <=? j) && (j <? i + length l) then nth_error l (j - i) else rg_read b (rg_wrap cap (h + j)).
  Proof.
    revert b i. induction l as [|x l IH]; intros b i Hb Hh Hn Hj; cbn [rg_fill length] in *.
    - leb; cbn [andb]; auto; lia.
    - rewrite IH by (rewrite ?set_len; lia). rewrite read_at by lia. destruct (Nat.eq_dec i j) as [->|n0].
      + rewrite Nat.eqb_refl, Nat.sub_diag. leb; cbn [andb]; try lia. reflexivity.
      + destruct (Nat.eqb_spec i j); [lia|]. leb; cbn [andb]; try lia; auto. replace (j - i) with (S (j - S i)) by lia. reflexivity.
  Qed.

  (** the ring holds the list *)
  Definition holds r l : Prop :=
    rg_head r < length (rg_buf r) /\ rg_len r = length l /\ length l <= length (rg_buf r) /\
    forall i x, nth_error l i = Some x -> rg_read (rg_buf r) (rg_slot r i) = Some x.
  Lemma nth_lt l i x : nth_error l i = Some x -> i < length l.
  Proof. intros E. apply nth_error_Some. congruence. Qed.
  Lemma holds_get r l i : holds r l -> rg_get r i = nth_error l i.
  Proof.
    intros [H1 [H2 [H3 H4]]]. unfold rg_get. rewrite H2. leb.
    - destruct (nth_error l i) as [x|] eqn:E; [|apply nth_error_None in E; lia]. auto.
    - symmetry. apply nth_error_None. auto.
  Qed.
  Lemma list_spots l : flat_map (fun i => spot (nth_error l i)) (seq 0 (length l)) = l.
  Proof.
    induction l as [|x l IH]; auto. cbn [length seq flat_map nth_error spot app]. f_equal. rewrite <- seq_shift, flat_map_concat_map, map_map.
    rewrite flat_map_concat_map in IH. exact IH.
  Qed.
  Lemma holds_list r l : holds r l -> rg_list r = l.
  Proof.
    intros H. unfold rg_list. rewrite <- (list_spots l) at 1. destruct H as [H1 [H2 H3]] eqn:EH. rewrite H2. clear EH.
    rewrite !flat_map_concat_map. f_equal. apply map_ext. intros i. f_equal. apply (holds_get r l i H).
  Qed.
  Lemma of_holds extra h l : length l + extra <> 0 -> holds (rg_of extra h l) l.
  Proof.
    intros Hc. unfold rg_of. set (cap := length l + extra) in *. assert (Hh := Nat.mod_upper_bound h cap Hc). set (h' := h mod cap) in *.
    unfold holds, rg_slot. cbn [rg_buf rg_head rg_len]. rewrite fill_len, repeat_length. split; auto. split; auto. split; [subst cap; lia|].
    intros i x E. assert (Hi := nth_lt l i x E). rewrite fill_read by (rewrite ?repeat_length; subst cap; lia). cbn [Nat.add]. leb; try lia; cbn [andb]; try lia. rewrite Nat.sub_0_r. exact E.
  Qed.
  Lemma set_holds r (a : list A) x (b : list A) w : holds r (a ++ x :: b) -> holds (rg_set r (length a) w) (a ++ w :: b).
  Proof.
    intros [H1 [H2 [H3 H4]]]. rewrite app_length in *. cbn [length] in *. unfold holds, rg_set, rg_slot in *. cbn [rg_buf rg_head rg_len]. rewrite set_len, app_length. cbn [length].
    split; auto. split; auto. split; auto. intros i y E. assert (Hi := nth_lt _ _ _ E). rewrite app_length in Hi. cbn [length] in Hi.
    rewrite read_at by lia. destruct (Nat.eqb_spec (length a) i) as [<-|n].
    - rewrite nth_mid in E. exact E.
    - apply H4. destruct (Nat.lt_ge_cases i (length a)) as [Hl|Hl].
      + rewrite nth_error_app1 in * by auto. exact E.
      + rewrite nth_error_app2 in * by auto. destruct (i - length a) as [|k] eqn:Ek; [lia|]. exact E.
  Qed.
  Lemma set_here r l i x : holds r l -> nth_error l i = Some x -> rg_set r i x = r.
  Proof.
    intros [H1 [H2 [H3 H4]]] E. unfold rg_set. rewrite set_same by auto. destruct r. reflexivity.
  Qed.

  Context (plan : R -> nat * nat) (first : A -> nat * nat) (open shut : R -> nat -> bool).
  Lemma room_holds r l : holds r l -> holds (rg_room plan r) l /\ length l < length (rg_buf (rg_room plan r)).
  Proof.
    intros H. unfold rg_room. assert (E := proj1 (proj2 H)). rewrite E. leb; auto. destruct (plan r) as [extra h]. rewrite (holds_list r l H). split; [apply of_holds; lia|].
    unfold rg_of. cbn [rg_buf]. rewrite fill_len, repeat_length. lia.
  Qed.
  Lemma mid_nth (a b : list A) v i y : nth_error (a ++ v :: b) i = Some y ->
    (i < length a /\ nth_error (a ++ b) i = Some y) \/ (i = length a /\ y = v) \/ (length a < i /\ nth_error (a ++ b) (i - 1) = Some y).
  Proof.
    intros E. destruct (Nat.lt_trichotomy i (length a)) as [Hl|[Hl|Hl]].
    - left. rewrite nth_error_app1 in * by auto. auto.
    - right. left. split; auto. subst i. rewrite nth_mid in E. congruence.
    - right. right. split; auto. rewrite nth_error_app2 in * by lia. destruct (i - length a) as [|k] eqn:Ek; [lia|]. replace (i - 1 - length a) with k by lia. exact E.
  Qed.
  Lemma insert_holds r (a b : list A) v : holds r (a ++ b) -> holds (rg_insert plan open r (length a) v) (a ++ v :: b).
  Proof.
    intros H. unfold rg_insert. destruct (room_holds r _ H) as [H' Hr]. clear H. set (q := rg_room plan r) in *. clearbody q. destruct H' as [H1 [H2 [H3 H4]]].
    set (cap := length (rg_buf q)) in *. rewrite app_length in *. unfold rg_slot in *. fold cap in H4.
    destruct (open q (length a)).
    - unfold holds, rg_slot. cbn [rg_buf rg_head rg_len]. rewrite set_len, up_len, app_length. cbn [length]. fold cap. split; auto. split; [lia|]. split; [lia|].
      intros i y E. assert (Hi := nth_lt _ _ _ E). rewrite app_length in Hi. cbn [length] in Hi. rewrite read_at by (rewrite ?up_len; subst cap; lia). rewrite up_read by (subst cap; lia).
      destruct (mid_nth a b v i y E) as [[Hl En]|[[Hl En]|[Hl En]]].
      + destruct (Nat.eqb_spec (length a) i); [lia|]. leb; cbn [andb]; try lia; auto.
      + destruct (Nat.eqb_spec (length a) i); [|lia]. congruence.
      + destruct (Nat.eqb_spec (length a) i); [lia|]. leb; cbn [andb]; try lia; auto.
    - set (h := match rg_head q with 0 => cap - 1 | S h => h end). assert (Hh : h < cap) by (subst h; destruct (rg_head q); lia).
      assert (Hs : forall j, j < length a + length b -> rg_wrap cap (h + (j + 1)) = rg_wrap cap (rg_head q + j)).
      { intros j Hj. subst h. unfold rg_wrap. destruct (rg_head q); leb; lia. }
      unfold holds, rg_slot. cbn [rg_buf rg_head rg_len]. rewrite set_len, down_len, app_length. cbn [length]. fold cap. split; auto. split; [lia|]. split; [lia|].
      intros i y E. assert (Hi := nth_lt _ _ _ E). rewrite app_length in Hi. cbn [length] in Hi. rewrite read_at by (rewrite ?down_len; subst cap; lia). rewrite down_read by (subst cap; lia).
      destruct (mid_nth a b v i y E) as [[Hl En]|[[Hl En]|[Hl En]]].
      + destruct (Nat.eqb_spec (length a) i); [lia|]. leb; cbn [andb]; try lia. rewrite Hs by lia. auto.
      + destruct (Nat.eqb_spec (length a) i); [|lia]. congruence.
      + destruct (Nat.eqb_spec (length a) i); [lia|]. leb; cbn [andb]; try lia. replace i with (i - 1 + 1) by lia. rewrite Hs by lia. auto.
  Qed.
  Lemma del_nth (a b : list A) v i y : nth_error (a ++ b) i = Some y ->
    (i < length a /\ nth_error (a ++ v :: b) i = Some y) \/ (length a <= i /\ nth_error (a ++ v :: b) (i + 1) = Some y).
  Proof.
    intros E. destruct (Nat.lt_ge_cases i (length a)) as [Hl|Hl].
    - left. rewrite nth_error_app1 in * by auto. auto.
    - right. split; auto. rewrite nth_error_app2 in * by lia. replace (i + 1 - length a) with (S (i - length a)) by lia. exact E.
  Qed.
  Lemma del_holds r (a : list A) v (b : list A) : holds r (a ++ v :: b) -> holds (rg_del shut r (length a)) (a ++ b).
  Proof.
    intros [H1 [H2 [H3 H4]]]. unfold rg_del. set (cap := length (rg_buf r)) in *. rewrite app_length in *. cbn [length] in *. unfold rg_slot in *. fold cap in H4.
    destruct (shut r (length a)).
    - unfold holds, rg_slot. cbn [rg_buf rg_head rg_len]. rewrite down_len, app_length. fold cap. split; auto. split; [lia|]. split; [lia|].
      intros i y E. assert (Hi := nth_lt _ _ _ E). rewrite app_length in Hi. rewrite down_read by (subst cap; lia).
      destruct (del_nth a b v i y E) as [[Hl En]|[Hl En]]; leb; cbn [andb]; try lia; auto.
    - fold cap. unfold holds, rg_slot. cbn [rg_buf rg_head rg_len]. rewrite up_len, app_length. fold cap. split; [unfold rg_wrap; leb; lia|]. split; [lia|]. split; [lia|].
      intros i y E. assert (Hi := nth_lt _ _ _ E). rewrite app_length in Hi.
      assert (Hs : rg_wrap cap (rg_wrap cap (rg_head r + 1) + i) = rg_wrap cap (rg_head r + (i + 1))) by (unfold rg_wrap; leb; lia).
      rewrite Hs, up_read by (subst cap; lia).
      destruct (del_nth a b v i y E) as [[Hl En]|[Hl En]]; leb; cbn [andb]; try lia; auto. replace (i + 1 - 1) with i by lia. auto.
  Qed.
  Lemma holds_at r (a : list A) v (b : list A) : holds r (a ++ v :: b) -> rg_get r (N.to_nat (N.of_nat (length a))) = Some v.
  Proof. intros H. rewrite Nat2N.id, (holds_get r _ _ H). apply nth_mid. Qed.
  Lemma holds_abs r l : holds r l -> (exists l', holds r l') /\ rg_list r = l.
  Proof. intros H. split; [eauto|]. apply holds_list. auto. Qed.
  Definition Ring_contract : DequeContract (Ring_deque plan first open shut).
  Proof.
    assert (Hh : forall r, (exists l, holds r l) -> holds r (rg_list r)).
    { intros r [l H]. rewrite (holds_list r l H). exact H. }
    refine {| dk_inv := fun r : dty (Ring_deque plan first open shut) => exists l, holds r l; dk_abs := fun r : dty (Ring_deque plan first open shut) => rg_list r |}; cbn [Ring_deque d_one d_len d_is_empty d_index d_index_mut d_insert d_remove d_entry].
    - intros v. destruct (first v) as [extra h]. apply holds_abs, of_holds. cbn [length]. lia.
    - intros r Hi. f_equal. apply (Hh r Hi).
    - intros r Hi. apply Hh in Hi. rewrite (proj1 (proj2 Hi)). destruct (rg_list r); cbn; split; congruence.
    - intros r a v b Hi E. apply Hh in Hi. rewrite E in Hi. rewrite (holds_at _ _ _ _ Hi). reflexivity.
    - intros r a v b Hi E. apply Hh in Hi. rewrite E in Hi. rewrite (holds_at _ _ _ _ Hi). eexists. split; [reflexivity|]. intros w. rewrite Nat2N.id. apply holds_abs, (set_holds r a v b w Hi).
    - intros r a b v Hi E. apply Hh in Hi. rewrite E in Hi. rewrite (proj1 (proj2 Hi)), app_length, Nat2N.id.
      destruct (N.leb_spec (N.of_nat (length a)) (N.of_nat (length a + length b))); [|lia]. eexists. split; [reflexivity|]. apply holds_abs, insert_holds. exact Hi.
    - intros r a v b Hi E. apply Hh in Hi. rewrite E in Hi. rewrite (holds_at _ _ _ _ Hi). eexists. split; [reflexivity|]. rewrite Nat2N.id. apply holds_abs, (del_holds r a v b Hi).
    - intros r a v b Hi E. apply Hh in Hi. rewrite E in Hi. rewrite (holds_at _ _ _ _ Hi). eexists. split; [reflexivity|]. rewrite Nat2N.id. split.
      + intros [w|]; apply holds_abs; [apply (set_holds r a v b w Hi)|apply (del_holds r a v b Hi)].
      + apply (set_here r _ _ _ Hi). apply nth_mid.
  Defined.
End RingBuffer.

(** *** Any history on a byte map over a queue *)
Lemma deque_history {B : Build} {V : Type} {D : DequeOps V} (DC : DequeContract D) cs : admissible u_cmp (@adm_any (u 8) V) cs [] ->
  let l := fst (sp_run u_cmp cs []) in
  exists ot, run (ByteMapOf_ops (DequeList D)) cs None = Ret (ot, snd (sp_run u_cmp cs [])) /\
    match ot with Some m => dk_inv DC (bm_list m) /\ dk_abs DC (bm_list m) = map snd l /\ (forall k, is_present (bm_set m) k = true <-> In k (keys l)) /\ l <> [] | None => l = [] end.
Proof.
  intros Hc l. set (L := sim_laws _ _ (gm_sim (deque_list DC)) ByteMap_laws).
  destruct (run_refines (u_cmp_laws 8) L (@adm_any (u 8) V) cs) with (ot := @None (vt (ByteMapOf_ops (DequeList D)))) (l := @nil (u 8 * V)) as [ot [E Hr]]; auto.
  { intros t l0 k _ _. exact I. }
  { reflexivity. }
  exists ot. split; auto. fold l in Hr. destruct ot as [m|]; [|exact Hr]. assert (Hn := repr_ne L m l Hr). destruct Hr as [[[Hi Hk] Hw] [_ [Ha HP]]].
  split; auto. assert (El : l = bm_ents (gm_al (deque_list DC) m)) by (apply (asc_perm_eq (u_cmp_laws 8)); auto; apply bm_asc; exact Hw).
  rewrite El. split; [apply (bm_vals (gm_al (deque_list DC) m)); exact Hw|]. split; [|rewrite <- El; exact Hn].
  intros k. rewrite (bm_keys (gm_al (deque_list DC) m)) by exact Hw. rewrite in_members, present_bits. reflexivity.
Qed.

(** *** The types with all their containers exchanged *)
Section Exchanged.
  Context (hf : HashFamily) (FC : forall Hi T eq, (forall a b : Hi, eq a b = true <-> a = b) -> HashContract (hf Hi T eq)).
  Context (mf : MapFamily) (MC : forall K V (cmp : K -> K -> comparison), OrdLaws cmp -> MapContract cmp (mf K V cmp)).
  Context (df : DequeFamily) (DC : forall A, DequeContract (df A)).
  Context {B : Build} (B' : Build) (Hd : dbg (Build := B) = true) (Hw : (usize_bits (B := B) <= usize_bits (B := B'))%N).
  Fixpoint exchanged_laws {Lo V Tr Hi C} (CT : @CollType B Lo V Tr Hi C) (Tr' : VebOps Lo V) : CollLaws (exchanged_coll B' hf df CT Tr') :=
    match CT as CT0 in CollType _ Hi _ return CollLaws (exchanged_coll B' hf df CT0 Tr') with
    | CT_Array _ _ ix IL => Array_coll_laws (B := B') (recompiled_idx B' Hw IL) Tr'
    | CT_Hash _ Hi eq Heq => HashOf_laws (B := B') (FC Hi (vt Tr') eq Heq)
    | CT_ByteMap _ => sim_coll_laws _ _ (gc_sim (B := B') (deque_trees (B := B') Tr' (DC (vt Tr')))) (ByteMap_coll_laws (B := B') Tr')
    | CT_Box _ _ _ CT' => Box_coll_laws (exchanged_laws CT' Tr')
    end.
  Definition leaf_laws (V : Type) : VebLaws (B := B') u_cmp (ByteMapOf_ops (B := B') (DequeList (df V))) :=
    sim_laws _ _ (gm_sim (B := B') (deque_list (DC V))) (ByteMap_laws (B := B')).
  Lemma exchanged_sim {fixed K V cmp O} (T : @VebType B fixed K V cmp O) : exists R, Sim.Sim eq O (exchanged B' hf mf df T) R.
  Proof.
    assert (HB := lenient_checked B B' Hd Hw).
    induction T as [|V|K V cmp OL|K Hi Lo V ko KL S Tr C TS [RS XS] TT [RT XT] CT|K V cmp O T [R X]|K V cmp O T [R X]]; cbn [exchanged].
    - apply (recompiled_sim B' Hd Hw (VT_ByteSet (B := B) fixed)).
    - eexists. apply (sorted_sim Hw (u_cmp_laws 8) (ByteMap_laws (B := B)) (leaf_laws V)); try (intros; exact I).
      intros t H1 H2. apply byte_keys_small. apply (L_nodup (ByteMap_laws (B := B))); auto.
    - eexists. exact (gen_sim_run OL (MC K V cmp OL)).
    - eexists. eapply tree_sim; [exact HB|exact XS|exact XT|].
      apply (coll_sim (coll_laws CT) (coll_panics Hd CT) (exchanged_laws CT (exchanged B' hf mf df TT)) XT (Lists.key_dec (KL_hi KL))).
    - eexists. exact (box_sim (box_sim' X)).
    - eexists. exact (sized2_sim X HB).
  Qed.
  Lemma exchanged_run {fixed K V cmp O} (T : @VebType B fixed K V cmp O) cs ot os : run O cs None = Ret (ot, os) ->
    exists ot', run (exchanged B' hf mf df T) cs None = Ret (ot', os) /\ (ot = None <-> ot' = None).
  Proof.
    intros E. destruct (exchanged_sim T) as [R X]. destruct (sim_run_eq X cs None ot os None I E) as [ot' [E' H]]. exists ot'. split; auto.
    destruct ot, ot'; cbn in H; try contradiction; split; congruence.
  Qed.
  Lemma exchanged_same {fixed K V cmp O} (T : @VebType B fixed K V cmp O) cs : (N.of_nat (length cs) <= @usize_max B)%N ->
    exists ot ot' os, run O cs None = Ret (ot, os) /\ run (exchanged B' hf mf df T) cs None = Ret (ot', os) /\ (ot = None <-> ot' = None).
  Proof.
    intros Hl. assert (H := no_panic_run (type_laws T) cs Hl). destruct (run O cs None) as [[ot os]|] eqn:E; [|congruence].
    destruct (exchanged_run T cs ot os E) as [ot' [E' H']]. eauto 6.
  Qed.
  Lemma exchanged_iter {fixed K V cmp O} (T : @VebType B fixed K V cmp O) cs t os t' os' dirs it ps keq :
    run O cs None = Ret (Some t, os) -> run (exchanged B' hf mf df T) cs None = Ret (Some t', os') ->
    it_run (B := B) O keq t dirs it_new = Ret (it, ps) -> it_run (B := B') (exchanged B' hf mf df T) keq t' dirs it_new = Ret (it, ps).
  Proof.
    intros E E' Hi. destruct (exchanged_sim T) as [R X]. destruct (sim_run_eq X cs None _ _ None I E) as [ot' [E1 H]].
    rewrite E' in E1. injection E1 as <- <-. cbn in H. destruct (iter_sim B' Hd Hw X keq t t' H dirs it_new _ Hi) as [x [E2 <-]]. exact E2.
  Qed.
  Lemma exchanged_sorted {fixed K V cmp O} (T : @VebType B fixed K V cmp O) adm cs : allowed T adm -> admissible (B := B) cmp adm cs [] ->
    exists ot, run (exchanged B' hf mf df T) cs None = Ret (ot, snd (sp_run cmp cs [])) /\ (ot = None <-> fst (sp_run cmp cs []) = []).
  Proof.
    intros Ha Hc. destruct (sorted_map (type_ord T) (type_laws T) (allowed_covered T adm Ha) cs Hc) as [ot [E1 E2]].
    destruct (exchanged_run T cs _ _ E1) as [ot' [E3 E4]]. exists ot'. split; auto. tauto.
  Qed.
End Exchanged.
Lemma exchanged_two (hf hf' : HashFamily) (FC : forall Hi T eq, (forall a b : Hi, eq a b = true <-> a = b) -> HashContract (hf Hi T eq))
  (FC' : forall Hi T eq, (forall a b : Hi, eq a b = true <-> a = b) -> HashContract (hf' Hi T eq))
  (mf mf' : MapFamily) (MC : forall K V (cmp : K -> K -> comparison), OrdLaws cmp -> MapContract cmp (mf K V cmp))
  (MC' : forall K V (cmp : K -> K -> comparison), OrdLaws cmp -> MapContract cmp (mf' K V cmp))
  (df df' : DequeFamily) (DC : forall A, DequeContract (df A)) (DC' : forall A, DequeContract (df' A))
  (B B1 B2 : Build) : dbg (Build := B) = true -> (usize_bits (B := B) <= usize_bits (B := B1))%N -> (usize_bits (B := B) <= usize_bits (B := B2))%N ->
  forall fixed K V cmp (O : VebOps K V) (T : @VebType B fixed K V cmp O) cs, (N.of_nat (length cs) <= usize_max (B := B))%N ->
  exists ot ot' os, run (exchanged B1 hf mf df T) cs None = Ret (ot, os) /\ run (exchanged B2 hf' mf' df' T) cs None = Ret (ot', os) /\ (ot = None <-> ot' = None).
Proof.
  intros Hd Hw1 Hw2 fixed K V cmp O T cs Hl. destruct (exchanged_same hf FC mf MC df DC B1 Hd Hw1 T cs Hl) as [o [o1 [os [E [E1 H1]]]]].
  destruct (exchanged_run hf' FC' mf' MC' df' DC' B2 Hd Hw2 T cs _ _ E) as [o2 [E2 H2]]. exists o1, o2, os. repeat split; auto; tauto.
Qed.
