(** Trees over small key types have room for everything that can happen to them. *)
From Verif Require Import Base Spec Ops Ints Boxed Lists Laws ByteSet ByteSetProofs ByteMap ByteMapProofs Coll CollProofs
  BTree BTreeProofs SizedT WrapProofs Tree TreeChildren TreeUpd TreeProofs Types TypesProofs Hist HistProofs HistCor KeyProofs Room Fits FitsCor.

Lemma at_most_list {K} (all : list K) n : (forall k, In k all) -> (N.of_nat (length all) <= n)%N -> at_most K n.
Proof.
  intros Ha Hn l Hl. assert (H := NoDup_incl_length Hl (fun k _ => Ha k)). lia.
Qed.
Lemma at_most_le K n m : at_most K n -> (n <= m)%N -> at_most K m.
Proof. intros H Hm l Hl. specialize (H l Hl). lia. Qed.
Lemma u_at_most w : at_most (u w) (2 ^ w).
Proof.
  apply (at_most_list (map (fun i => pack w (N.of_nat i)) (seq 0 (N.to_nat (2 ^ w))))).
  - intros k. apply in_map_iff. exists (N.to_nat (uval k)). rewrite N2Nat.id, pack_uval. split; auto.
    apply in_seq. assert (H := uval_lt k). lia.
  - rewrite map_length, seq_length, N2Nat.id. apply N.le_refl.
Qed.

Lemma flat_length {B : Build} {K Hi Lo V} {ko : KeyOps K Hi Lo} {Tr : VebOps Lo V} (LT : VebLaws (lo_cmp ko) Tr) m (l : list (Hi * vt Tr)) :
  (forall h t, In (h, t) l -> (N.of_nat (length (ents LT t)) <= m)%N) ->
  (N.of_nat (length (flat (ko := ko) LT l)) <= N.of_nat (length l) * m)%N.
Proof.
  induction l as [|[h t] l IH]; intros H; [apply N.le_refl|]. rewrite flat_cons, app_length, map_length. cbn [length].
  assert (H1 := H h t (or_introl eq_refl)). assert (H2 := IH (fun h t Hin => H h t (or_intror Hin))).
  rewrite Nat2N.inj_add, Nat2N.inj_succ, N.mul_succ_l, N.add_comm. apply N.add_le_mono; auto.
Qed.
Lemma room_ents {B : Build} {fixed K V cmp O} (T : VebType fixed K V cmp O) : forall n t, room T n -> winv (type_laws T) t ->
  (N.of_nat (length (ents (type_laws T) t)) <= n)%N.
Proof.
  assert (Hb : forall s, (N.of_nat (length (members s)) <= 256)%N).
  { intros s. apply (u_at_most 8). apply members_nodup. }
  induction T; intros n t Hr Hw; cbn [room] in Hr.
  - cbn [type_laws ents ByteSet_laws]. assert (E := bs_keys t). apply (f_equal (@length _)) in E. unfold keys in E. rewrite map_length in E.
    rewrite E. specialize (Hb t). lia.
  - cbn [type_laws ents winv ByteMap_laws] in *. assert (E := bm_keys t Hw). apply (f_equal (@length _)) in E. unfold keys in E.
    rewrite map_length in E. rewrite E. specialize (Hb (bm_set t)). lia.
  - cbn [type_laws ents winv BTree_laws] in *. rewrite <- (map_length fst). apply Hr. apply (asc_nodup OL). apply Hw.
  - destruct Hr as [h [m [H1 [H2 H3]]]]. cbn [type_laws ents winv Tree_laws] in *. unfold tr_ents, tr_winv in *. cbn [length].
    destruct (t_data t) as [d|]; [|cbn; lia]. cbn [length]. destruct (d_children d) as [[s c]|]; [|cbn; lia].
    cbn [owch och_ents] in *. unfold ch_ents. cbn [snd].
    assert (F := flat_length (ko := ko) (type_laws T2) m (cents (coll_laws CT) c)).
    assert (G : (N.of_nat (length (cents (coll_laws CT) c)) <= h)%N).
    { rewrite <- (map_length fst). apply H1. apply (C_nodup (coll_laws CT)). apply Hw. }
    assert (F' := F (fun h t Hin => IHT2 m t H2 (wch_win _ _ _ _ h t Hw Hin))).
    assert (M := N.mul_le_mono_r _ _ m G). lia.
  - exact (IHT n (unbox t) Hr Hw).
  - exact (IHT n (sz_tree t) Hr (proj1 Hw)).
Qed.

Section Histories.
  Context {B : Build} {fixed : bool} {K V : Type} {cmp : K -> K -> comparison} {O : VebOps K V} (T : VebType fixed K V cmp O) (n : N)
    (Hroom : room T n).
  Notation L := (type_laws T).

  Lemma room_run : (n < usize_max)%N -> forall cs ot bag, weakO L ot bag ->
    exists ot' os, run O cs ot = Ret (ot', os) /\ fitting cs os (length bag).
  Proof.
    intros Hn. induction cs as [|c cs IH]; intros ot bag H; cbn.
    - exists ot, []. auto.
    - assert (Hlb : (N.of_nat (length bag) <= n)%N).
      { destruct ot as [t|]; cbn in H.
        - destruct H as [Hw HP]. rewrite (Permutation_length HP). apply (room_ents T n t); auto.
        - rewrite H. cbn. lia. }
      assert (Hb : match c with Insert _ _ => (N.of_nat (length bag) < usize_max)%N | _ => True end) by (destruct c; auto; lia).
      destruct (step_weak L c ot bag H Hb) as [ot1 [o [bag1 [E1 [H1 [rest [HP1 HP2]]]]]]]. rewrite E1. cbn [bind].
      assert (Hlen : length bag1 = length bag + length (pairs_in c o) - length (pairs_out c o)).
      { rewrite (Permutation_length HP1), (Permutation_length HP2), !app_length. lia. }
      destruct (IH ot1 bag1 H1) as [ot2 [os [E2 Hf]]]. rewrite E2. cbn [bind]. exists ot2, (o :: os). split; auto. cbn.
      rewrite <- Hlen. split; auto.
  Qed.
  Lemma room_always : (n < usize_max)%N -> forall cs, exists ot os, run O cs None = Ret (ot, os) /\ fitting cs os 0.
  Proof. intros Hn cs. exact (room_run Hn cs None [] eq_refl). Qed.
  Lemma room_contents t d : reachable O t -> contents O t d -> (N.of_nat (length d) <= n)%N.
  Proof.
    intros Hr Hd. apply (reachable_weak L) in Hr. rewrite (Permutation_length (contents_perm L t d Hr Hd)). apply (room_ents T n t); auto.
  Qed.
End Histories.

(** *** Sorted lists *)
Lemma sp_step_asc {K V} {cmp : K -> K -> comparison} (OL : OrdLaws cmp) c (l : list (K * V)) : ascending cmp l -> ascending cmp (fst (sp_step cmp c l)).
Proof.
  intros Ha. assert (Hm : forall (o : option (K * V)) w, ascending cmp (fst (sp_mut cmp o w l))).
  { intros [p|] w; cbn; auto. apply sp_write_asc. auto. }
  destruct c; cbn [sp_step fst]; auto.
  - apply (sp_insert_asc OL). auto.
  - apply (sp_remove_asc OL). auto.
  - destruct l as [|p l]; auto. cbn. apply asc_cons in Ha. apply Ha.
  - destruct l as [|p l] using rev_ind; auto. rewrite removelast_last. apply asc_app in Ha. apply Ha.
  - destruct l as [|p [|q l]]; auto. cbn. constructor.
Qed.
Lemma permitted_admissible {B : Build} {K V} {cmp : K -> K -> comparison} (OL : OrdLaws cmp) adm n : at_most K n -> (n < usize_max)%N ->
  forall cs (l : list (K * V)), ascending cmp l -> permitted cmp adm cs l -> admissible cmp adm cs l.
Proof.
  intros Hk Hn. induction cs as [|c cs IH]; intros l Ha H; [exact I|]. destruct H as [H1 H2]. split.
  - destruct c; auto. split; auto. assert (H := Hk (keys l) (asc_nodup OL l Ha)). unfold keys in H. rewrite map_length in H. lia.
  - apply IH; auto. apply (sp_step_asc OL). auto.
Qed.
Lemma room_sorted {B : Build} {fixed K V cmp O} (T : VebType fixed K V cmp O) adm n cs : allowed T adm -> at_most K n -> (n < usize_max)%N ->
  permitted cmp adm cs [] -> exists ot, run O cs None = Ret (ot, snd (sp_run cmp cs [])) /\ (ot = None <-> fst (sp_run cmp cs []) = []).
Proof.
  intros Ha Hk Hn H. apply (sorted_map (type_ord T) (type_laws T) (allowed_covered T adm Ha)).
  apply (permitted_admissible (type_ord T) adm n Hk Hn); auto. constructor.
Qed.
Lemma admissible_permitted {B : Build} {K V} (cmp : K -> K -> comparison) adm cs : forall l : list (K * V), admissible cmp adm cs l -> permitted cmp adm cs l.
Proof. induction cs as [|c cs IH]; intros l H; [exact I|]. destruct H as [H1 H2]. split; [|auto]. destruct c; auto. apply H1. Qed.
