(** Which states trees can be in: those of [built] (Built.v). *)
From Verif Require Import Base Spec Ops Ints Boxed Lists Laws ByteSet ByteSetProofs BitSpec BitCor ByteMap ByteMapProofs Coll CollProofs
  BTree BTreeProofs SizedT WrapProofs Tree TreeChildren TreeUpd TreeProofs Types TypesProofs Hist HistProofs HistCor Twin TwinCor Fits FitsCor IterProofs GenMap Built.

Lemma combine_split_eq {A C} (m : list (A * C)) : combine (map fst m) (map snd m) = m.
Proof. induction m as [|[a c] m IH]; cbn; congruence. Qed.
Lemma asc_keys {A} {cmp : A -> A -> comparison} {C D} (m : list (A * C)) (g : A * C -> D) : ascending cmp m -> ascending cmp (map (fun p => (fst p, g p)) m).
Proof.
  induction 1 as [|p m H IH Hf]; constructor; auto. apply Forall_forall. intros q Hq. apply in_map_iff in Hq. destruct Hq as [r [<- Hr]].
  rewrite Forall_forall in Hf. cbn. apply Hf. auto.
Qed.
Lemma bs_asc s : ascending u_cmp (bs_ents s).
Proof.
  unfold bs_ents. induction (members_sorted s) as [|k l H IH Hf]; constructor; auto. apply Forall_forall. intros q Hq.
  apply in_map_iff in Hq. destruct Hq as [r [<- Hr]]. rewrite Forall_forall in Hf. cbn. apply Hf. auto.
Qed.
Lemma at_bytes_iff {B : Build} {A} s (vs : list A) m : at_bytes s vs m <-> (nonempty s /\ length (members s) = length vs) /\ m = combine (members s) vs.
Proof.
  split.
  - intros [Hne [Ha [Hk Hv]]].
    assert (Hs : nonempty s).
    { destruct m as [|p m]; [congruence|]. apply (has_nonempty s (uval (fst p))). apply Hk. left. auto. }
    assert (E : map fst m = members s).
    { assert (E : map (fun p : u 8 * A => (fst p, tt)) m = bs_ents s).
      { apply (asc_perm_eq (u_cmp_laws 8)); auto.
        - apply (asc_keys m (fun _ => tt)). auto.
        - apply bs_asc.
        - apply NoDup_Permutation.
          + apply nodup_of_keys. unfold keys. rewrite map_map. cbn. apply (asc_nodup (u_cmp_laws 8)). auto.
          + apply nodup_of_keys. rewrite bs_keys. apply members_nodup.
          + intros [k []]. rewrite in_bs_ents. cbn. rewrite <- has_mem, <- Hk, !in_map_iff. split; intros [p [E Hp]]; exists p; cbn in *; split; congruence. }
      apply (f_equal (map fst)) in E. rewrite map_map in E. etransitivity; [|etransitivity; [exact E|apply bs_keys]]. apply map_ext. reflexivity. }
    split; [split; auto|].
    + rewrite <- E, <- Hv, !map_length. auto.
    + rewrite <- E, <- Hv. symmetry. apply combine_split_eq.
  - intros [[Hs Hl] ->]. assert (Hw : bm_winv (BM s vs)) by (split; auto).
    split; [|split; [|split]].
    + intros E. apply (f_equal (map fst)) in E. rewrite combine_fst in E by auto. cbn in E.
      destruct (lowest_spec s Hs) as [k [_ [Hk _]]]. apply in_members in Hk. rewrite E in Hk. destruct Hk.
    + apply (bm_asc (BM s vs)). auto.
    + intros k. rewrite combine_fst by auto. rewrite in_members, has_mem. reflexivity.
    + apply combine_snd. auto.
Qed.

(** *** Collections *)
Lemma filed_array_slots {B : Build} {Hi Lo V} {ix : IdxOps Hi} (IL : IdxLaws ix) (Tr : VebOps Lo V) (a : list (option (vt Tr))) :
  forall n, slots_ok IL Tr n a <-> forall i t, nth_error a i = Some (Some t) -> N.to_nat (i_index ix (idx_inv IL (N.of_nat (n + i)))) = n + i.
Proof.
  induction a as [|o a IH]; intros n; cbn [slots_ok].
  - split; auto. intros _ i t E. destruct i; discriminate E.
  - rewrite IH. split.
    + intros [H1 H2] [|i] t E; cbn in E.
      * injection E as ->. rewrite Nat.add_0_r. apply H1. discriminate.
      * rewrite Nat.add_succ_r. apply (H2 i t). exact E.
    + intros H. split.
      * intros Ho. destruct o as [t|]; [|congruence]. specialize (H 0 t eq_refl). rewrite Nat.add_0_r in H. exact H.
      * intros i t E. specialize (H (S i) t E). rewrite Nat.add_succ_r in H. exact H.
Qed.
Lemma in_slots {B : Build} {Hi Lo V} {ix : IdxOps Hi} (IL : IdxLaws ix) (Tr : VebOps Lo V) (a : list (option (vt Tr))) h t :
  forall n, In (h, t) (slots IL Tr n a) <-> exists i, nth_error a i = Some (Some t) /\ idx_inv IL (N.of_nat (n + i)) = h.
Proof.
  induction a as [|o a IH]; intros n; cbn [slots].
  - split; [intros []|]. intros [i [E _]]. destruct i; discriminate E.
  - rewrite in_app_iff, IH. split.
    + intros [Hin|[i [E1 E2]]].
      * destruct o as [t'|]; [|destruct Hin]. destruct Hin as [Hin|[]]. injection Hin as <- <-. exists 0. rewrite Nat.add_0_r. auto.
      * exists (S i). rewrite Nat.add_succ_r. auto.
    + intros [[|i] [E1 E2]]; cbn in E1.
      * injection E1 as ->. left. left. rewrite Nat.add_0_r in E2. congruence.
      * right. exists i. rewrite Nat.add_succ_r in E2. auto.
Qed.
Lemma filed_iff {B : Build} {Lo V} {Tr : VebOps Lo V} {Hi C} (CT : CollType Tr Hi C) : forall c m,
  filed CT c m <-> cinv (coll_laws CT) c /\ Permutation m (cents (coll_laws CT) c).
Proof.
  induction CT as [Hi ix IL|Hi eq Heq| |Hi C CT IH]; intros c m; cbn [filed coll_laws].
  - cbn [cinv cents Array_coll_laws]. unfold ac_inv, ac_ents. split.
    + intros [Hne [Hn [Hl [Hc Hs]]]].
      assert (Hok : slots_ok IL Tr 0 (ac_array c)).
      { apply filed_array_slots. intros i t E. apply Hs in E. destruct E as [h [_ E]]. cbn. rewrite <- E, idx_inv_ok, E. apply Nat2N.id. }
      assert (HP : Permutation m (slots IL Tr 0 (ac_array c))).
      { apply NoDup_Permutation.
        - apply nodup_of_keys. exact Hn.
        - apply nodup_of_keys. apply slots_nodup. exact Hok.
        - intros [h t]. rewrite in_slots. split.
          + intros Hin. exists (N.to_nat (i_index ix h)). split.
            * apply Hs. exists h. split; auto. symmetry. apply N2Nat.id.
            * cbn. apply slot_idx.
          + intros [i [E1 E2]]. apply Hs in E1. destruct E1 as [h' [Hin E]]. cbn in E2. rewrite <- E, idx_inv_ok in E2. subst h'. exact Hin. }
      split; auto. split; [rewrite <- Hl; symmetry; apply Nat2N.id|]. split; auto. split.
      * rewrite Hc, (Permutation_length HP). auto.
      * intros E. rewrite E in HP. apply Permutation_sym, Permutation_nil in HP. contradiction.
    + intros [[Hl [Hok [Hc Hne]]] HP]. split; [|split; [|split; [|split]]].
      * intros ->. apply Permutation_nil in HP. contradiction.
      * apply (Permutation_NoDup (l := map fst (slots IL Tr 0 (ac_array c)))); [apply Permutation_map, Permutation_sym; auto|apply slots_nodup; auto].
      * rewrite Hl. apply N2Nat.id.
      * rewrite Hc, (Permutation_length HP). auto.
      * intros n t. split.
        -- intros E. assert (Hi' := proj1 (filed_array_slots IL Tr (ac_array c) 0) Hok n t E). cbn in Hi'. exists (idx_inv IL (N.of_nat n)). split.
           ++ apply (Permutation_in _ (Permutation_sym HP)). apply in_slots. exists n. auto.
           ++ apply N2Nat.inj. rewrite Hi', Nat2N.id. auto.
        -- intros [h [Hin E]]. apply (Permutation_in _ HP) in Hin. apply in_slots in Hin. destruct Hin as [i [E1 E2]]. cbn in E2.
           assert (Hi' := proj1 (filed_array_slots IL Tr (ac_array c) 0) Hok i t E1). cbn in Hi'. rewrite E2, E, Nat2N.id in Hi'. subst n. exact E1.
  - cbn [cinv cents Hash_coll_laws]. unfold hc_inv. split.
    + intros [Hne [Hn HP]]. split; auto. split.
      * apply (Permutation_NoDup (l := map fst m)); auto. apply Permutation_map. auto.
      * intros E. rewrite E in HP. apply Permutation_sym, Permutation_nil in HP. contradiction.
    + intros [[Hn Hne] HP]. split; [|split; auto].
      * intros ->. apply Permutation_nil in HP. contradiction.
      * apply (Permutation_NoDup (l := map fst c)); auto. apply Permutation_map, Permutation_sym. auto.
  - cbn [cinv cents ByteMap_coll_laws]. unfold bm_winv, bm_ents. split.
    + intros [m' [HP H]]. apply at_bytes_iff in H. destruct H as [H ->]. auto.
    + intros [H HP]. exists (combine (members (bm_set c)) (bm_list c)). split; auto. apply at_bytes_iff. auto.
  - apply IH.
Qed.

(** *** Trees *)
Lemma combine_tt {A C} (l : list A) : forall vs : list C, length l = length vs -> combine l (map (fun _ => tt) vs) = map (fun k => (k, tt)) l.
Proof. induction l as [|a l IH]; intros [|v vs] E; try discriminate E; [reflexivity|]. cbn. f_equal. apply IH. injection E. auto. Qed.
Lemma flat_map_perm_in {A C} (f g : A -> list C) l : (forall x, In x l -> Permutation (f x) (g x)) -> Permutation (flat_map f l) (flat_map g l).
Proof. induction l as [|x l IH]; intros H; cbn; auto. apply Permutation_app; [apply H; left; auto|apply IH; intros y Hy; apply H; right; auto]. Qed.
Lemma flat_map_of_map {A C D} (f : C -> list D) (g : A -> C) l : flat_map f (map g l) = flat_map (fun x => f (g x)) l.
Proof. induction l as [|x l IH]; cbn; congruence. Qed.
Lemma built_iff {B : Build} o {fixed K V cmp O} (T : VebType fixed K V cmp O) : forall t l,
  built o T t l <-> winv (type_laws T) t /\ (o = true -> ord (type_laws T) t) /\ Permutation l (ents (type_laws T) t).
Proof.
  induction T as [|V|K V cmp OL|K Hi Lo V ko KL S Tr C TS IHS TT IHT CT|K V cmp O T IH|K V cmp O T IH]; intros t l; cbn [built].
  - cbn [type_laws winv ord ents ByteSet_laws]. unfold bs_ents. split.
    + intros [l' [HP H]]. apply at_bytes_iff in H. destruct H as [[H1 H2] ->]. rewrite map_length in H2. rewrite combine_tt in HP by auto. auto.
    + intros [Hn [_ HP]]. exists (map (fun k => (k, tt)) (members t)). split; auto. apply at_bytes_iff.
      apply Permutation_length in HP. rewrite map_length in HP. rewrite map_length, combine_tt by auto. auto.
  - cbn [type_laws winv ord ents ByteMap_laws]. unfold bm_winv, bm_ents. split.
    + intros [m' [HP H]]. apply at_bytes_iff in H. destruct H as [H ->]. auto.
    + intros [H [_ HP]]. exists (combine (members (bm_set t)) (bm_list t)). split; auto. apply at_bytes_iff. auto.
  - cbn [type_laws winv ord ents BTree_laws]. unfold bt_winv. tauto.
  - cbn [type_laws winv ord ents Tree_laws]. unfold tr_winv, tr_ord, tr_ents. destruct (t_data t) as [d|].
    2: { split; [intros ->; auto|]. intros [_ [_ HP]]. apply Permutation_sym in HP. apply Permutation_length_1_inv in HP. exact HP. }
    destruct d as [mx ch]. cbn [d_max d_children]. destruct ch as [[s c]|]; cbn [och_ents].
    2: { split.
      - intros [rest [HP [-> Ho]]]. split; [exact I|]. split; [|exact HP]. intros E. specialize (Ho E). destruct Ho as [H1 H2]. split; auto. split; auto. exact I.
      - intros [_ [Ho HP]]. exists []. split; auto. split; auto. intros E. destruct (Ho E) as [H1 [H2 _]]. auto. }
    change (owch (type_laws TS) (type_laws TT) (coll_laws CT) (Some (s, c))) with (wch (ko := ko) (type_laws TS) (type_laws TT) (coll_laws CT) (s, c)).
    change (ooch (type_laws TS) (type_laws TT) (coll_laws CT) (Some (s, c))) with (och (ko := ko) (type_laws TS) (type_laws TT) (coll_laws CT) (s, c)).
    unfold wch, och, ch_ents. cbn [fst snd]. split.
    + intros [rest [HP [[ls [m [Hs [Hc [Hk [Hm ->]]]]]] Ho]]]. apply IHS in Hs. destruct Hs as [Hs1 [Hs2 Hs3]]. apply filed_iff in Hc. destruct Hc as [Hc1 Hc2].
      assert (Hin : forall h t', In (h, t') (cents (coll_laws CT) c) -> exists l', In (h, (t', l')) m).
      { intros h t' Hi'. apply (Permutation_in _ (Permutation_sym Hc2)) in Hi'. apply in_map_iff in Hi'. destruct Hi' as [[h' [t'' l']] [E Hi']].
        cbn in E. injection E as -> ->. eauto. }
      assert (HF : Permutation (flat_map (fun x : Hi * (vt Tr * list (Lo * V)) => map (fun p => (k_join ko (fst x) (fst p), snd p)) (snd (snd x))) m)
        (flat (ko := ko) (type_laws TT) (cents (coll_laws CT) c))).
      { rewrite <- (flat_perm (type_laws TT) _ _ Hc2). unfold flat. rewrite flat_map_of_map. apply flat_map_perm_in. intros [h [t' l']] Hx. cbn [fst snd].
        unfold child_ents, jp. cbn [fst snd]. apply Permutation_map. apply Hm in Hx. destruct Hx as [Hx _]. apply IHT in Hx. apply Hx. }
      split; [|split].
      * split; auto. split; auto. split; [|split].
        -- unfold keys. rewrite <- Hs3, Hk, <- Hc2, map_map. cbn [fst]. auto.
        -- intros h t' Hi'. destruct (Hin h t' Hi') as [l' Hx]. apply Hm in Hx. destruct Hx as [Hx _]. apply IHT in Hx. apply Hx.
        -- intros h t' [lo v] Hi' Hp. destruct (Hin h t' Hi') as [l' Hx]. apply Hm in Hx. destruct Hx as [Hx Hr]. apply IHT in Hx.
           unfold real. cbn [fst]. apply (Hr lo v). destruct Hx as [_ [_ Hx]]. apply (Permutation_in _ (Permutation_sym Hx)). exact Hp.
      * intros E. destruct (Ho E) as [H1 H2]. split; auto. split.
        -- intros q Hq. apply H2. apply (Permutation_in _ (Permutation_sym HF)). exact Hq.
        -- split; auto. intros h t' Hi'. destruct (Hin h t' Hi') as [l' Hx]. apply Hm in Hx. destruct Hx as [Hx _]. apply IHT in Hx. apply Hx. exact E.
      * rewrite HP, HF. auto.
    + intros [[Hs [Hc [Hk [Hw Hr]]]] [Ho HP]]. exists (flat (ko := ko) (type_laws TT) (cents (coll_laws CT) c)). split; auto. split.
      * exists (ents (type_laws TS) s), (map (fun x => (fst x, (snd x, ents (type_laws TT) (snd x)))) (cents (coll_laws CT) c)).
        split; [|split; [|split; [|split]]].
        -- apply IHS. split; auto. split; auto. intros E. apply (Ho E).
        -- apply filed_iff. split; auto. rewrite map_map. cbn [fst snd].
           replace (map (fun x => (fst x, snd x)) (cents (coll_laws CT) c)) with (cents (coll_laws CT) c); auto.
           symmetry. rewrite <- map_id. apply map_ext. intros []. reflexivity.
        -- rewrite map_map. cbn [fst]. exact Hk.
        -- intros h t' l' Hx. apply in_map_iff in Hx. destruct Hx as [[h0 t0] [E Hx]]. cbn in E. injection E as -> -> <-. split.
           ++ apply IHT. split; [exact (Hw h t' Hx)|]. split; auto. intros E. destruct (Ho E) as [_ [_ [_ H]]]. exact (H h t' Hx).
           ++ intros lo v Hp. apply (Hr h t' (lo, v) Hx Hp).
        -- rewrite flat_map_of_map. reflexivity.
      * intros E. destruct (Ho E) as [H1 [H2 _]]. auto.
  - apply IH.
  - cbn [type_laws winv ord ents Sized_laws]. rewrite IH. split.
    + intros [[H1 [H2 H3]] H4]. split; [|auto]. split; auto. rewrite H4. f_equal. apply Permutation_length. exact H3.
    + intros [[H1 H4] [H2 H3]]. split; auto. rewrite H4. f_equal. symmetry. apply Permutation_length. exact H3.
Qed.

Lemma sort_ex {K V} {cmp : K -> K -> comparison} (OL : OrdLaws cmp) (l : list (K * V)) : NoDup (keys l) -> exists l', ascending cmp l' /\ Permutation l l'.
Proof.
  induction l as [|[k v] l IH]; intros H; [exists []; split; constructor|]. cbn in H. apply NoDup_cons_iff in H. destruct H as [Hk Hn].
  destruct (IH Hn) as [l' [Ha HP]]. exists (sp_insert cmp k v l'). split; [apply (sp_insert_asc OL); auto|].
  rewrite (sp_insert_perm_new OL k v l'), HP; auto. intros Hin. apply Hk. apply (Permutation_in (l := keys l')); [apply Permutation_map, Permutation_sym; auto|exact Hin].
Qed.
Lemma built_repr {B : Build} {fixed K V cmp O} (T : VebType fixed K V cmp O) t l : built true T t l /\ ascending cmp l <-> repr (type_laws T) t l.
Proof.
  rewrite built_iff. unfold repr. split.
  - intros [[H1 [H2 H3]] H4]. auto.
  - intros [H1 [H2 [H3 H4]]]. auto.
Qed.
Lemma built_weak {B : Build} {fixed K V cmp O} (T : VebType fixed K V cmp O) t l : built false T t l <-> weak (type_laws T) t l.
Proof.
  rewrite built_iff. unfold weak. split.
  - intros [H1 [H2 H3]]. auto.
  - intros [H1 H3]. split; auto. split; auto. intros E. discriminate E.
Qed.

(** what any history leaves is built so *)
Lemma reachable_built {B : Build} {fixed K V cmp O} (T : VebType fixed K V cmp O) t : reachable O t -> exists d, contents O t d /\ built false T t d.
Proof.
  intros H. apply (reachable_weak (type_laws T)) in H. destruct (contents_ents (type_laws T) t H) as [d [Hc HP]]. exists d. split; auto.
  apply built_weak. split; auto.
Qed.
Lemma run_built {B : Build} {fixed K V cmp O} (T : VebType fixed K V cmp O) cs t os : run O cs None = Ret (Some t, os) -> fitting cs os 0 ->
  exists l, built false T t l /\ Permutation (total pairs_in cs os) (total pairs_out cs os ++ l).
Proof.
  intros E Hf. destruct (run_weak (type_laws T) cs None [] _ _ eq_refl E Hf) as [bag [H HP]]. rewrite app_nil_r in HP.
  exists bag. split; auto. apply built_weak. exact H.
Qed.
Lemma reached_built {B : Build} {fixed K V cmp O} (T : VebType fixed K V cmp O) adm t l : allowed T adm -> reached cmp O adm t l ->
  built true T t l /\ ascending cmp l /\ (N.of_nat (length l) <= usize_max)%N.
Proof.
  intros Ha H. assert (Hl := reached_len (type_ord T) adm t l H). apply (reached_repr (type_ord T) (type_laws T) adm) in H; [|apply allowed_covered; auto].
  apply built_repr in H. tauto.
Qed.
(** what is built so behaves *)
Lemma built_step {B : Build} {fixed K V cmp O} (T : VebType fixed K V cmp O) t l c : built false T t l ->
  (forall k v, c = Insert k v -> (N.of_nat (length l) < usize_max)%N) ->
  exists ot o l' rest, step O c (Some t) = Ret (ot, o) /\ match ot with Some t' => built false T t' l' | None => l' = [] end /\
  Permutation l (pairs_out c o ++ rest) /\ Permutation l' (pairs_in c o ++ rest).
Proof.
  intros H Hc. apply built_weak in H. destruct (step_weak (type_laws T) c (Some t) l H) as [ot [o [bag [E [H1 [rest [H2 H3]]]]]]].
  - destruct c; eauto.
  - exists ot, o, bag, rest. split; auto. split; auto. destruct ot as [t'|]; auto. apply built_weak. exact H1.
Qed.
Lemma built_run {B : Build} {fixed K V cmp O} (T : VebType fixed K V cmp O) adm t l cs : allowed T adm -> built true T t l -> ascending cmp l ->
  admissible cmp adm cs l -> exists ot, run O cs (Some t) = Ret (ot, snd (sp_run cmp cs l)) /\
  match ot with Some t' => built true T t' (fst (sp_run cmp cs l)) | None => fst (sp_run cmp cs l) = [] end.
Proof.
  intros Ha H Hl Hc. assert (Hr := proj1 (built_repr T t l) (conj H Hl)).
  destruct (run_refines (type_ord T) (type_laws T) adm cs (allowed_covered T adm Ha) (Some t) l Hr Hc) as [ot [E H1]]. exists ot. split; auto.
  destruct ot as [t'|]; auto. apply built_repr in H1. apply H1.
Qed.
Lemma built_contents {B : Build} o {fixed K V cmp O} (T : VebType fixed K V cmp O) t l : built o T t l ->
  exists d, contents O t d /\ Permutation d l /\ (o = true -> ascending cmp d).
Proof.
  intros H. assert (Hw := proj1 (built_iff o T t l) H). destruct Hw as [Hw [Ho HP]]. destruct (contents_ents (type_laws T) t Hw) as [d [Hc Hd]].
  exists d. split; auto. split; [rewrite Hd; auto using Permutation_sym|]. intros E. specialize (Ho E).
  destruct (sort_ex (type_ord T) (ents (type_laws T) t)) as [l' [Ha Hp]]; [apply L_nodup; auto|].
  assert (Hr : repr (type_laws T) t l') by (split; auto; split; auto; split; auto using Permutation_sym).
  replace d with l'; auto. apply (contents_fun O t); auto. exists (length l'). apply (drain_min (type_ord T) (type_laws T)); auto.
Qed.
(** everything built in order can be reached, by inserting in ascending order *)
Lemma ascending_insertions {B : Build} {K V} {cmp : K -> K -> comparison} (OL : OrdLaws cmp) (l : list (K * V)) : forall acc, ascending cmp (acc ++ l) ->
  (N.of_nat (length (acc ++ l)) <= usize_max)%N ->
  admissible cmp (adm_ascending cmp) (insertions_of l) acc /\ fst (sp_run cmp (insertions_of l) acc) = acc ++ l.
Proof.
  induction l as [|[k v] l IH]; intros acc Ha Hl; [cbn; rewrite app_nil_r; auto|].
  change (insertions_of ((k, v) :: l)) with (Insert k v :: insertions_of l). rewrite sp_run_cons. cbn [sp_step fst admissible].
  assert (E : sp_insert cmp k v acc = acc ++ [(k, v)]).
  { apply (asc_perm_eq OL).
    - apply (sp_insert_asc OL). apply (asc_app (cmp := cmp)) in Ha. apply Ha.
    - replace (acc ++ (k, v) :: l) with ((acc ++ [(k, v)]) ++ l) in Ha by (rewrite <- app_assoc; reflexivity). apply (asc_app (cmp := cmp)) in Ha. apply Ha.
    - rewrite (sp_insert_perm_new OL).
      + apply Permutation_cons_append.
      + apply (asc_nodup OL) in Ha. unfold keys in *. rewrite map_app in Ha. cbn in Ha. apply NoDup_remove_2 in Ha. intros I. apply Ha. apply in_app_iff. auto. }
  rewrite E. destruct (IH (acc ++ [(k, v)])) as [A1 A2].
  - rewrite <- app_assoc. exact Ha.
  - rewrite <- app_assoc. exact Hl.
  - split; [split; [split|exact A1]|].
    + right. intros k' Hk. unfold keys in Hk. apply in_map_iff in Hk. destruct Hk as [p [<- Hp]]. apply (asc_app (cmp := cmp)) in Ha. destruct Ha as [_ [_ Ha]].
      apply (Ha p (k, v)); [exact Hp|left; auto].
    + rewrite app_length in Hl. cbn in Hl. lia.
    + rewrite A2, <- app_assoc. reflexivity.
Qed.

Lemma built_reached {B : Build} {fixed K V cmp O} (T : VebType fixed K V cmp O) t l : built true T t l -> ascending cmp l ->
  (N.of_nat (length l) <= usize_max)%N -> exists t', reached cmp O (adm_ascending cmp) t' l /\ twin T t' t.
Proof.
  intros H Ha Hl. assert (OL := type_ord T). destruct (ascending_insertions OL l []) as [A1 A2]; auto. cbn [app] in A2.
  destruct (run_refines OL (type_laws T) _ _ (allowed_covered T _ (AL_ascending T)) None [] eq_refl A1) as [ot [E Hr]]. rewrite A2 in Hr.
  assert (Hr' := proj1 (built_repr T t l) (conj H Ha)).
  destruct ot as [t'|].
  - exists t'. split; [|apply (repr_twin T t' t l); auto]. exists (insertions_of l), (snd (sp_run cmp (insertions_of l) [])). auto.
  - cbn in Hr. elim (repr_ne (type_laws T) t l Hr' Hr).
Qed.
(** twins are built alike *)
Lemma forall2_length {A C} (R : A -> C -> Prop) l l' : Forall2 R l l' -> length l = length l'.
Proof. induction 1; cbn; auto. Qed.
Lemma twin_cinv {B : Build} {Lo V} {Tr : VebOps Lo V} {Hi C} (CT : CollType Tr Hi C) (R : vt Tr -> vt Tr -> Prop) : forall c c',
  twin_coll CT R c c' -> cinv (coll_laws CT) c -> cinv (coll_laws CT) c'.
Proof.
  induction CT as [Hi ix IL|Hi eq Heq| |Hi C CT IH]; intros c c' Hc Hw.
  - destruct (twin_cents (CT_Array Tr Hi ix IL) R c c' Hc) as [e [HP HF]]. apply forall2_length in HF. apply Permutation_length in HP.
    cbn [coll_laws cents cinv Array_coll_laws twin_coll] in *. destruct Hc as [Ec Hf]. destruct Hw as [H1 [H2 [H3 H4]]]. split; [|split; [|split]].
    + rewrite <- (forall2_length _ _ _ Hf). auto.
    + revert H2. clear - Hf. generalize 0. induction Hf as [|o o' a a' Ho _ IH]; intros n; cbn [slots_ok]; auto. intros [H1 H2]. split; auto.
      intros Hn. apply H1. destruct o, o'; cbn in Ho; try contradiction; congruence.
    + rewrite <- Ec, H3, HP, HF. auto.
    + intros E. rewrite E in HP. cbn in HP. rewrite <- HP in HF. apply length_zero_iff_nil in HF. contradiction.
  - cbn [coll_laws cinv Hash_coll_laws twin_coll] in *. destruct Hc as [m1 [HP HF]]. destruct Hw as [H1 H2]. split.
    + apply (Permutation_NoDup (l := map fst m1)); [apply Permutation_map, Permutation_sym; auto|].
      replace (map fst m1) with (map fst c); auto. clear - HF. induction HF as [|x y l l' [E _] _ IH]; cbn; congruence.
    + intros ->. apply Permutation_nil in HP. subst m1. inversion HF. congruence.
  - cbn [coll_laws cinv ByteMap_coll_laws twin_coll] in *. destruct Hc as [E HF]. destruct Hw as [H1 H2]. split.
    + rewrite <- E. auto.
    + rewrite <- E, <- (forall2_length _ _ _ HF). auto.
  - exact (IH (unbox c) (unbox c') Hc Hw).
Qed.
Lemma twin_built {B : Build} o {fixed K V cmp O} (T : VebType fixed K V cmp O) t t' l : twin T t t' -> built o T t l -> built o T t' l.
Proof.
  intros Ht H. apply built_iff in H. apply built_iff. destruct H as [H1 [H2 H3]].
  assert (H : winv (type_laws T) t' /\ (ord (type_laws T) t -> ord (type_laws T) t')).
  { clear - Ht H1. revert t t' Ht H1. induction T as [|V|K V cmp OL|K Hi Lo V ko KL S Tr C TS IHS TT IHT CT|K V cmp O T IH|K V cmp O T IH]; intros t t' Ht Hw; cbn [twin] in Ht.
    1-3: subst t'; auto.
    - destruct t as [mn od], t' as [mn' od']. cbn [t_min t_data] in Ht. destruct Ht as [<- Ht]. cbn [type_laws winv ord Tree_laws] in *.
      unfold tr_winv, tr_ord in *. cbn [t_min t_data] in *. destruct od as [[mx ch]|], od' as [[mx' ch']|]; cbn [twin_opt d_max d_children] in Ht; try contradiction; auto.
      destruct Ht as [<- Ht]. cbn [d_max d_children] in *. destruct ch as [[s c]|], ch' as [[s' c']|]; cbn [twin_opt fst snd] in Ht; try contradiction; auto.
      destruct Ht as [Hs Hc]. destruct (twin_cents CT (twin TT) c c' Hc) as [e [P F]].
      change (wch (ko := ko) (type_laws TS) (type_laws TT) (coll_laws CT) (s, c)) in Hw.
      change (owch (type_laws TS) (type_laws TT) (coll_laws CT) (Some (s', c'))) with (wch (ko := ko) (type_laws TS) (type_laws TT) (coll_laws CT) (s', c')).
      change (ooch (type_laws TS) (type_laws TT) (coll_laws CT) (Some (s, c))) with (och (ko := ko) (type_laws TS) (type_laws TT) (coll_laws CT) (s, c)).
      change (ooch (type_laws TS) (type_laws TT) (coll_laws CT) (Some (s', c'))) with (och (ko := ko) (type_laws TS) (type_laws TT) (coll_laws CT) (s', c')).
      unfold wch, och in *. cbn [fst snd] in *. destruct Hw as [W1 [W2 [W3 [W4 W5]]]].
      destruct (IHS s s' Hs W1) as [S1 S2]. assert (SP := twin_ents TS s s' Hs).
      assert (Hin : forall h x', In (h, x') (cents (coll_laws CT) c') -> exists x, In (h, x) (cents (coll_laws CT) c) /\ twin TT x x').
      { intros h x' Hx. apply (Permutation_in _ P) in Hx. clear - F Hx. induction F as [|[h0 x0] [h1 x1] l l' [E1 E2] _ IH]; [destruct Hx|].
        cbn in E1, E2. destruct Hx as [Hx|Hx].
        - injection Hx as -> ->. subst h0. exists x0. split; [left|]; auto.
        - destruct (IH Hx) as [x [H1 H2]]. exists x. split; [right|]; auto. }
      assert (HP : Permutation (ch_ents (ko := ko) (type_laws TT) (coll_laws CT) (s, c)) (ch_ents (ko := ko) (type_laws TT) (coll_laws CT) (s', c'))).
      { unfold ch_ents. cbn [snd]. rewrite (flat_perm _ _ _ P). clear - F. induction F as [|[h x] [h' x'] l l' [E1 E2] _ IH]; [constructor|]. cbn in E1, E2. subst h'.
        rewrite !flat_cons. apply Permutation_app; auto. apply Permutation_map. apply twin_ents. auto. }
      split.
      + split; auto. split; [apply (twin_cinv CT (twin TT) c c'); auto|]. split; [|split].
        * unfold keys in *. rewrite <- SP, W3, P. clear - F. induction F as [|x y l l' [E _] _ IH]; cbn; [constructor|]. rewrite E. auto.
        * intros h x' Hx. destruct (Hin h x' Hx) as [x [H1 H2]]. apply (IHT x x' H2). exact (W4 h x H1).
        * intros h x' p Hx Hp. destruct (Hin h x' Hx) as [x [H1 H2]]. apply (W5 h x p H1). apply (Permutation_in _ (Permutation_sym (twin_ents TT x x' H2))). exact Hp.
      + intros [O1 [O2 [O3 O4]]]. split; auto. split; [|split; auto].
        * intros q Hq. apply O2. apply (Permutation_in _ (Permutation_sym HP)). exact Hq.
        * intros h x' Hx. destruct (Hin h x' Hx) as [x [H1 H2]]. apply (IHT x x' H2); eauto.
    - exact (IH (unbox t) (unbox t') Ht Hw).
    - destruct Ht as [Ht Es]. destruct Hw as [Hw E]. destruct (IH (sz_tree t) (sz_tree t') Ht Hw) as [I1 I2]. split; auto. split; auto.
      rewrite <- Es, E. f_equal. apply Permutation_length. apply twin_ents. auto. }
  destruct H as [H4 H5]. split; auto. split; auto. rewrite H3. apply twin_ents. auto.
Qed.
Lemma built_exactly {B : Build} {fixed K V cmp O} (T : VebType fixed K V cmp O) t l :
  (exists adm t', allowed T adm /\ reached cmp O adm t' l /\ twin T t' t) <-> built true T t l /\ ascending cmp l /\ (N.of_nat (length l) <= usize_max)%N.
Proof.
  split.
  - intros [adm [t' [Ha [H Ht]]]]. apply (reached_built T adm) in H; auto. destruct H as [H1 [H2 H3]]. split; auto. apply (twin_built true T t' t); auto.
  - intros [H1 [H2 H3]]. destruct (built_reached T t l H1 H2 H3) as [t' [H4 H5]]. exists (adm_ascending cmp), t'. split; [apply AL_ascending|]. auto.
Qed.
Lemma built_exactly_equal {B : Build} {fixed K V cmp O} (T : VebType fixed K V cmp O) t l : no_hash T = true ->
  (exists adm, allowed T adm /\ reached cmp O adm t l) <-> built true T t l /\ ascending cmp l /\ (N.of_nat (length l) <= usize_max)%N.
Proof.
  intros Hn. split.
  - intros [adm [Ha H]]. apply (reached_built T adm); auto.
  - intros [H1 [H2 H3]]. destruct (built_reached T t l H1 H2 H3) as [t' [H4 H5]]. exists (adm_ascending cmp). split; [apply AL_ascending|].
    apply (twin_eq T Hn) in H5. subst t'. auto.
Qed.

(** the lists of byte maps *)
Lemma bytes_count s {A} (vs : list A) m : at_bytes s vs m -> length vs = length m /\ m <> [].
Proof. intros [H1 [_ [_ <-]]]. rewrite map_length. auto. Qed.
Lemma byte_list {V} o {B : Build} fixed (t : vt (ByteMap_ops V)) l : built o (VT_ByteMap fixed V) t l ->
  list_is_empty (VecDeque_list V) (bm_list t) = Ret false /\ l_len (VecDeque_list V) (bm_list t) = Ret (N.of_nat (length l)).
Proof.
  intros [l' [HP H]]. apply bytes_count in H. destruct H as [H1 H2]. unfold list_is_empty. cbn [l_len VecDeque_list bind]. unfold li_len.
  rewrite H1, (Permutation_length HP). split; auto. destruct l'; [congruence|]. reflexivity.
Qed.
Lemma tree_list_empty A (l : list A) : tree_list_len l = Panic <-> l = [].
Proof.
  unfold tree_list_len, li_len. destruct l; [split; auto|]. split; [|discriminate].
  destruct (N.eqb_spec (N.of_nat (length (a :: l))) 0) as [E|E]; [cbn in E; discriminate E|discriminate].
Qed.
Lemma byte_trees {B : Build} {Lo V} (Tr : VebOps Lo V) c m : filed (CT_ByteMap Tr) c m -> tree_list_len (bm_list c) = Ret (N.of_nat (length m)).
Proof.
  intros [m' [HP H]]. apply bytes_count in H. destruct H as [H1 H2]. unfold tree_list_len, li_len. rewrite H1, (Permutation_length HP).
  destruct m'; [congruence|]. reflexivity.
Qed.
