(** [BTreeMap] over any correct ordered map, two such maps, and the types with their maps exchanged. *)
From Verif Require Import Base Ints Ops Spec ByteSet ByteMap Coll Boxed BTree SizedT Tree Lists Laws ByteSetProofs ByteMapProofs BTreeProofs CollProofs
  Hist Types HistProofs TypesProofs HistCor Sim TreeSim CollSim LeafSim CoreCor Rel RelCor Fits Iter IterSpec IterProofs FitsCor Open OpenCor GenMapProofs
  HashGen HashGenCor MapGen.

Lemma filter_all {A} (f : A -> bool) (l : list A) : (forall q, In q l -> f q = true) -> filter f l = l.
Proof. induction l as [|q l IH]; cbn; auto. intros H. rewrite (H q) by auto. f_equal. auto. Qed.
Lemma last_last_error {A} (l : list A) : l <> [] -> exists l' x, l = l' ++ [x] /\ last_error l = Some x /\ removelast l = l'.
Proof.
  destruct l as [|x l _] using rev_ind; [congruence|]. intros _. exists l, x. split; auto. split; [apply last_error_app|]. apply removelast_last.
Qed.

(** *** The operations of BTree.v, on a sorted list, are those of the specification *)
Section ListSpec.
  Context {K V : Type} {cmp : K -> K -> comparison} (OL : OrdLaws cmp).
  Notation asc := (@ascending K V cmp).
  Implicit Types m b a l : list (K * V).
  Definition here (k : K) (o : option V) : list (K * V) := match o with Some v => [(k, v)] | None => [] end.
  Lemma parts m k : asc m -> exists b o a, m = b ++ here k o ++ a /\ (forall q, In q b -> cmp (fst q) k = Lt) /\ (forall q, In q a -> cmp k (fst q) = Lt) /\
    below cmp k m = b /\ above cmp k m = a /\ sp_find cmp k m = omap (fun v => (k, v)) o /\ (forall w, sp_write cmp k w m = b ++ here k (omap (fun _ => w) o) ++ a).
  Proof.
    intros Ha.
    assert (Hb : forall b, (forall q, In q b -> cmp (fst q) k = Lt) -> below cmp k b = b /\ above cmp k b = [] /\ sp_find cmp k b = None /\ forall w, sp_write cmp k w b = b).
    { intros b H. split; [apply filter_all; intros q Hq; apply ltb_lt; auto|]. split.
      - apply filter_none. intros q Hq. apply ltb_ge. apply (lt_asym OL). auto.
      - assert (Hn : ~ In k (keys b)) by (intros Hk; apply keys_in in Hk; destruct Hk as [v Hv]; apply H in Hv; elim (lt_irrefl OL _ Hv)).
        split; [apply (sp_find_none OL); auto|intros w; apply (sp_write_fresh OL); auto]. }
    assert (Hr : forall a, (forall q, In q a -> cmp k (fst q) = Lt) -> below cmp k a = [] /\ above cmp k a = a /\ sp_find cmp k a = None /\ forall w, sp_write cmp k w a = a).
    { intros a H. split; [apply filter_none; intros q Hq; apply ltb_ge, (lt_asym OL); auto|]. split; [apply filter_all; intros q Hq; apply ltb_lt; auto|].
      assert (Hn : ~ In k (keys a)) by (intros Hk; apply keys_in in Hk; destruct Hk as [v Hv]; apply H in Hv; elim (lt_irrefl OL _ Hv)).
      split; [apply (sp_find_none OL); auto|intros w; apply (sp_write_fresh OL); auto]. }
    assert (Hf : forall b x, sp_find cmp k b = None -> sp_find cmp k (b ++ x) = sp_find cmp k x).
    { intros b x. induction b as [|q b IH]; auto. unfold sp_find in *. cbn. destruct (eqb cmp (fst q) k); [discriminate|auto]. }
    destruct (bt_case OL m k Ha) as [[b [v [a [-> [H1 H2]]]]]|[b [a [-> [H1 H2]]]]];
      destruct (Hb b H1) as [E1 [E2 [E3 E4]]], (Hr a H2) as [F1 [F2 [F3 F4]]].
    - exists b, (Some v), a. cbn [here app omap]. split; auto. split; auto. split; auto.
      unfold below, above, sp_write in *. rewrite !filter_app. cbn [filter fst].
      assert (Ek : ltb cmp k k = false) by (apply ltb_ge, (lt_irrefl OL)). rewrite Ek, E1, E2, F1, F2, app_nil_r. split; auto. split; auto.
      split; [rewrite Hf by auto; unfold sp_find; cbn; rewrite (eqb_refl OL); auto|].
      intros w. rewrite map_app, E4. cbn [map fst]. rewrite (eqb_refl OL), F4. reflexivity.
    - exists b, None, a. cbn [here app omap]. split; auto. split; auto. split; auto.
      unfold below, above, sp_write in *. rewrite !filter_app. rewrite E1, E2, F1, F2, app_nil_r. split; auto. split; auto.
      split; [rewrite Hf by auto; exact F3|]. intros w. rewrite map_app, E4, F4. reflexivity.
  Qed.
  Lemma get_find m k : asc m -> map_get cmp m k = sp_find cmp k m.
  Proof.
    intros Ha. destruct (parts m k Ha) as [b [[v|] [a [-> [H1 [H2 [_ [_ [-> _]]]]]]]]]; cbn [here app omap]; [apply (get_mid OL); auto|apply (get_gap OL); auto].
  Qed.
  Lemma insert_insert m k v : asc m -> map_insert cmp m k v = sp_insert cmp k v m.
  Proof.
    intros Ha. unfold sp_insert. destruct (parts m k Ha) as [b [[w|] [a [-> [H1 [H2 [-> [-> _]]]]]]]]; cbn [here app].
    - clear -H1 OL. induction b as [|[j x] b IH]; cbn.
      + rewrite (cmp_refl OL). reflexivity.
      + rewrite (gt_of_lt OL j k) by (apply (H1 (j, x)); left; auto). f_equal. apply IH. intros q Hq. apply H1. right. auto.
    - apply (insert_gap OL); auto.
  Qed.
  Lemma put_write m k w : asc m -> map_put cmp m k w = sp_write cmp k w m.
  Proof.
    intros Ha. destruct (parts m k Ha) as [b [[v|] [a [E [H1 [H2 [_ [_ [_ W]]]]]]]]]; rewrite W, E; cbn [here app omap]; [apply (put_mid OL); auto|].
    clear -H1 H2 OL. induction b as [|[j x] b IH]; cbn.
    - induction a as [|[j x] a IH]; cbn; auto. assert (Ej := H2 (j, x) (or_introl Logic.eq_refl)). cbn in Ej. rewrite Ej. f_equal. apply IH. intros q Hq. apply H2. right. auto.
    - rewrite (gt_of_lt OL j k) by (apply (H1 (j, x)); left; auto). f_equal. apply IH. intros q Hq. apply H1. right. auto.
  Qed.
  Lemma del_remove m k : asc m -> map_del cmp m k = sp_remove cmp k m.
  Proof.
    intros Ha. unfold sp_remove. destruct (parts m k Ha) as [b [[w|] [a [-> [H1 [H2 [-> [-> _]]]]]]]]; cbn [here app]; [apply (del_midk OL); auto|].
    clear -H1 H2 OL. induction b as [|[j x] b IH]; cbn.
    - destruct a as [|[j x] a]; cbn; auto. assert (Ej := H2 (j, x) (or_introl Logic.eq_refl)). cbn in Ej. rewrite Ej. reflexivity.
    - rewrite (gt_of_lt OL j k) by (apply (H1 (j, x)); left; auto). f_equal. apply IH. intros q Hq. apply H1. right. auto.
  Qed.
  Lemma init_removelast m : map_init m = removelast m.
  Proof. reflexivity. Qed.
  Lemma asc_tl m : asc m -> asc (tl m).
  Proof. destruct m as [|p m]; auto. intros H. apply asc_cons in H. apply H. Qed.
  Lemma asc_init m : asc m -> asc (removelast m).
  Proof.
    intros H. destruct m as [|p m]; auto. destruct (last_last_error (p :: m)) as [l [x [E [_ E2]]]]; [discriminate|]. rewrite E2, E in *.
    apply asc_app in H. apply H.
  Qed.
  (** the ranges lib.rs asks for *)
  Lemma range_one m k : asc m -> sp_min (within cmp (Included k) (Included k) m) = sp_find cmp k m.
  Proof.
    intros _. unfold sp_find, within, sp_min. induction m as [|q m IH]; auto. cbn [filter find after before]. unfold leb at 1 2, eqb at 1. rewrite (cmp_opp OL k (fst q)).
    destruct (cmp k (fst q)); cbn [CompOpp andb hd_error]; auto.
  Qed.
  Lemma range_below m k : within cmp Unbounded (Excluded k) m = below cmp k m.
  Proof. reflexivity. Qed.
  Lemma range_above m k : within cmp (Excluded k) Unbounded m = above cmp k m.
  Proof. unfold within, above. cbn. apply filter_ext. intros q. apply Bool.andb_true_r. Qed.
End ListSpec.

(** *** Over a map that keeps the contract the implementation does what it does over a sorted list *)
Section Gen.
  Context {K V : Type} {cmp : K -> K -> comparison} (OL : OrdLaws cmp) {M : MapOps K V} (MC : MapContract cmp M).
  Notation abs := (mk_abs MC).
  Notation inv := (mk_inv MC).
  Notation O := (BTree_ops V cmp).
  Notation O' := (BTreeOf M).
  Notation put_ok := (sim_put (O' := O') (O := O) abs inv).
  Lemma ref_put m (k : K) (put : V -> mty M) : inv m -> mk_ref MC m k put -> put_ok put (fun v => map_put cmp (abs m) k v).
  Proof. intros Hm Hr w. destruct (Hr w) as [H1 H2]. split; auto. rewrite H2. symmetry. apply (put_write OL), (mk_asc _ _ MC), Hm. Qed.
  Lemma refs_mut1 m o o' : inv m -> mk_refs MC m o o' ->
    sim_mut1 (O' := O') (O := O) abs inv (expect o) (p <- expect o' ;; Ret (with_put cmp (abs m) p)).
  Proof.
    intros Hm Hr p put E. destruct o as [[q put']|]; cbn in Hr.
    - destruct Hr as [-> Hr]. injection E as <- <-. exists put'. split; [reflexivity|]. apply ref_put; auto.
    - subst o'. discriminate.
  Qed.
  Lemma refs_mut m o o' : inv m -> mk_refs MC m o o' -> sim_mut (O' := O') (O := O) abs inv (Ret o) (Ret (opt_put cmp (abs m) o')).
  Proof.
    intros Hm Hr. destruct o as [[q put']|]; cbn in Hr.
    - destruct Hr as [-> Hr]. split; [discriminate|]. intros p put E. injection E as <- <-. exists put'. split; [reflexivity|]. apply ref_put; auto.
    - subst o'. split; [reflexivity|discriminate].
  Qed.
  Lemma bo_is m : inv m -> bo_is_monad M m = bt_is_monad (abs m).
  Proof. intros Hm. unfold bo_is_monad, bt_is_monad. rewrite (mk_len _ _ MC m Hm). reflexivity. Qed.
  Lemma popped r (o : option (K * V)) l : inv (fst r) -> snd r = o -> abs (fst r) = l ->
    sim_taken (O' := O') (O := O) abs inv (bo_popped M r) (p <- expect o ;; Ret (if is_nil l then None else Some l, p)).
  Proof.
    destruct r as [m' o0]. cbn [fst snd bo_popped]. intros Hi -> <- ot p E. destruct o as [q|]; [|discriminate]. cbn [expect bind] in *. injection E as <- <-.
    eexists. split; [reflexivity|]. destruct (m_is_empty M m') eqn:Ee.
    - apply (mk_is_empty _ _ MC m' Hi) in Ee. rewrite Ee. exact I.
    - destruct (abs m') as [|x l] eqn:Ea; cbn; [|auto]. apply (mk_is_empty _ _ MC m' Hi) in Ea. congruence.
  Qed.
  Lemma gen_sim : GenMapProofs.Sim (O' := O') (O := O) abs inv.
  Proof.
    assert (Ha : forall m, inv m -> ascending cmp (abs m)) by (apply (mk_asc _ _ MC)).
    constructor.
    - intros k v. destruct (mk_new _ _ MC) as [H1 H2]. destruct (mk_insert _ _ MC _ k v H1) as [H3 H4]. split; [exact H3|].
      cbn [v_from_monad BTreeOf BTree_ops]. rewrite H4, H2. reflexivity.
    - intros m Hm a E. rewrite <- E. apply bo_is. auto.
    - intros m Hm a E. cbn in *. rewrite (mk_len _ _ MC m Hm). exact E.
    - intros m p Hm E. cbn [v_into_monad BTreeOf BTree_ops] in *. unfold bo_into_monad, bt_into_monad in *. rewrite bo_is by auto. unfold bt_is_monad in *. cbn [bind] in *.
      rewrite (mk_into_first _ _ MC m Hm). unfold sp_min. destruct (_ =? 1)%N; [|discriminate]. destruct (hd_error (abs m)); [injection E as <-; reflexivity|discriminate].
    - intros m Hm E. cbn [v_into_monad BTreeOf BTree_ops] in *. unfold bo_into_monad, bt_into_monad in *. rewrite bo_is by auto. unfold bt_is_monad in *. cbn [bind] in *.
      destruct (_ =? 1)%N; [|reflexivity]. destruct (hd_error (abs m)); discriminate.
    - intros m Hm a E. cbn in *. rewrite (mk_first _ _ MC m Hm). exact E.
    - intros m Hm a E. cbn in *. rewrite (mk_last _ _ MC m Hm). unfold bt_max_val in E. rewrite last_spec in E. exact E.
    - intros m k Hm a E. cbn in *. rewrite (mk_get_key_value _ _ MC m k Hm). unfold bt_find in E. rewrite (get_find OL) in E by auto. exact E.
    - intros m k Hm a E. cbn in *. rewrite (mk_range_last _ _ MC m Unbounded (Excluded k) Hm I), range_below. unfold bt_predecessor in E. rewrite (range_to_spec OL) in E by auto. exact E.
    - intros m k Hm a E. cbn in *. rewrite (mk_range_first _ _ MC m (Excluded k) Unbounded Hm I), range_above. unfold bt_successor in E. rewrite range_from_spec in E. exact E.
    - intros m Hm. cbn. apply (refs_mut1 m _ _ Hm). apply (mk_first_mut _ _ MC m Hm).
    - intros m Hm. cbn. unfold bt_max_val_mut. rewrite last_spec. apply (refs_mut1 m _ _ Hm). apply (mk_last_mut _ _ MC m Hm).
    - intros m k Hm. cbn. unfold bt_find_mut. rewrite (incl_get OL), (get_find OL) by auto. apply (refs_mut m _ _ Hm).
      rewrite <- (range_one OL) by auto. apply (mk_range_first_mut _ _ MC m _ _ Hm). cbn. apply (le_refl OL).
    - intros m k Hm. cbn. unfold bt_predecessor_mut. rewrite (range_to_spec OL) by auto. apply (refs_mut m _ _ Hm).
      apply (mk_range_last_mut _ _ MC m Unbounded (Excluded k) Hm I).
    - intros m k Hm. cbn. unfold bt_successor_mut. rewrite range_from_spec. apply (refs_mut m _ _ Hm). unfold sp_succ. rewrite <- range_above.
      apply (mk_range_first_mut _ _ MC m (Excluded k) Unbounded Hm I).
    - intros m k v t1 r Hm E. cbn [v_insert BTreeOf BTree_ops] in *. unfold bt_insert, bo_insert in *. injection E as E. rewrite (get_find OL) in E by auto.
      assert (H := mk_get_mut _ _ MC m k Hm). destruct (m_get_mut M m k) as [[old put]|].
      + destruct H as [Ef Hr]. rewrite Ef in E. injection E as <- <-. exists (put v). split; [reflexivity|]. apply (ref_put m k put Hm Hr v).
      + rewrite H in E. injection E as <- <-. exists (m_insert M m k v). split; [reflexivity|]. destruct (mk_insert _ _ MC m k v Hm) as [H1 H2].
        split; [exact H1|]. rewrite H2. symmetry. apply (insert_insert OL). auto.
    - intros m k ot p Hm E. cbn [v_remove BTreeOf BTree_ops] in *. unfold bt_remove, bo_remove in *. rewrite bo_is by auto. unfold bt_is_monad in *. cbn [bind] in *.
      rewrite (get_find OL) in E by auto. destruct (mk_remove_entry _ _ MC m k Hm) as [H1 [H2 [H3 _]]].
      destruct (m_remove_entry M m k) as [m' o]. cbn [fst snd] in *. subst o. injection E as E. destruct (sp_find cmp k (abs m)) as [q|]; [|destruct (_ =? 1)%N; discriminate].
      destruct (_ =? 1)%N; injection E as <- <-; eexists; (split; [reflexivity|]); [exact I|]. split; [exact H2|]. rewrite H3. symmetry. apply (del_remove OL). auto.
    - intros m k Hm E. cbn [v_remove BTreeOf BTree_ops] in *. unfold bt_remove, bo_remove in *. rewrite bo_is by auto. unfold bt_is_monad in *. cbn [bind] in *.
      rewrite (get_find OL) in E by auto. destruct (mk_remove_entry _ _ MC m k Hm) as [H1 [H2 [H3 H4]]].
      destruct (m_remove_entry M m k) as [m' o]. cbn [fst snd] in *. subst o. injection E as E. destruct (sp_find cmp k (abs m)) as [q|]; [destruct (_ =? 1)%N; discriminate|].
      rewrite (H4 Logic.eq_refl). destruct (_ =? 1)%N; reflexivity.
    - intros m Hm. cbn. destruct (mk_pop_first _ _ MC m Hm) as [H1 [H2 H3]]. apply popped; auto.
    - intros m Hm. cbn. destruct (mk_pop_last _ _ MC m Hm) as [H1 [H2 H3]]. unfold bt_remove_max. rewrite last_spec, init_removelast. apply popped; auto.
  Qed.
  Definition gen_laws {B : Build} : VebLaws cmp O' := sim_laws (O' := O') (O := O) abs inv gen_sim (BTree_laws OL).
  Lemma map_contract {B : Build} : inhabited (TreeContract cmp O').
  Proof. constructor. apply (lawful_contract OL gen_laws). intros t k. exact I. Qed.

  (** the same as a simulation in the sense of Sim.v *)
  Notation R := (fun (l : vt O) (m : vt O') => inv m /\ abs m = l).
  Lemma val_sim {A} (m m' : res A) : sim_val m' m -> rres Logic.eq m m'.
  Proof. intros H a E. exists a. split; auto. Qed.
  Lemma rp_same_refl (p : K * V) : rp Logic.eq p p.
  Proof. split; auto. Qed.
  Lemma gen_sim_run : Sim.Sim Logic.eq O O' R.
  Proof.
    destruct gen_sim as [X1 X2 X3 X4 X5 X6 X7 X8 X9 X10 X11 X12 X13 X14 X15 X16 X17 X18 X19 X20].
    assert (Hl : forall m (p : K * V) put put', sim_put (O' := O') (O := O) abs inv put' put -> rlens Logic.eq O O' R (p, put) (p, put') /\ (inv m -> True)).
    { intros m p put put' H. split; auto. split; [apply rp_same_refl|]. intros w w' <-. exact (H w). }
    assert (Hm1 : forall m (i : res (K * V * (V -> vt O))) i', inv m -> sim_mut1 (O' := O') (O := O) abs inv i' i -> rres (rlens Logic.eq O O' R) i i').
    { intros m i i' Hm H [p put] E. destruct (H p put E) as [put' [E' H']]. eexists. split; [exact E'|]. apply (Hl m p put put' H'). }
    assert (Hm : forall m (i : res (option (K * V * (V -> vt O)))) i', inv m -> sim_mut (O' := O') (O := O) abs inv i' i -> rres (ropt (rlens Logic.eq O O' R)) i i').
    { intros m i i' Hm [Hn H] [[p put]|] E.
      - destruct (H p put E) as [put' [E' H']]. eexists. split; [exact E'|]. apply (Hl m p put put' H').
      - exists None. split; [exact (Hn E)|exact I]. }
    assert (Ho : forall i (i' : res (option (K * V))), sim_val i' i -> rres (ropt (rp Logic.eq)) i i').
    { intros i i' H a E. exists a. split; [apply H; exact E|]. destruct a; cbn; auto using rp_same_refl. }
    assert (Hp : forall i (i' : res (K * V)), sim_val i' i -> rres (rp Logic.eq) i i').
    { intros i i' H a E. exists a. split; [apply H; exact E|]. apply rp_same_refl. }
    assert (Ht : forall ot ot' (p : K * V), sim_opt (O' := O') (O := O) abs inv ot' ot -> rtaken Logic.eq O O' R (ot, p) (ot', p)).
    { intros ot ot' p H. split; [|apply rp_same_refl]. destruct ot, ot'; cbn in *; auto. }
    constructor; first [intros l m [Hi <-]|intros l m k [Hi <-]|intros l m k v v' [Hi <-] <-|intros k v v' <-]; eauto.
    - apply val_sim. auto.
    - intros [p|l'] E.
      + exists (Ok p). split; [apply X4; auto|apply rp_same_refl].
      + assert (l' = abs m). { clear -E. cbn [v_into_monad BTree_ops] in E. unfold bt_into_monad, bt_is_monad in E. cbn [bind] in E. destruct (_ =? 1)%N; [destruct (hd_error (abs m)); discriminate|congruence]. }
        subst l'. exists (Err m). split; [apply X5; auto|]. split; auto.
    - intros [l r] E. destruct (X16 m k v l r Hi E) as [m' [E' [H1 H2]]]. exists (m', r). split; auto. split; [split; auto|]. destruct r; cbn; auto using rp_same_refl.
    - intros [[ot p]|l'] E.
      + destruct (X17 m k ot p Hi E) as [ot' [E' H]]. exists (Ok (ot', p)). split; auto. apply Ht. exact H.
      + assert (l' = abs m).
        { clear -E. cbn [v_remove BTree_ops] in E. unfold bt_remove, bt_is_monad in E. cbn [bind] in E. destruct (_ =? 1)%N, (map_get cmp (abs m) k); congruence. }
        subst l'. exists (Err m). split; [apply X18; auto|]. split; auto.
    - intros [ot p] E. destruct (X19 m Hi ot p E) as [ot' [E' H]]. exists (ot', p). split; [exact E'|]. apply Ht. exact H.
    - intros [ot p] E. destruct (X20 m Hi ot p E) as [ot' [E' H]]. exists (ot', p). split; [exact E'|]. apply Ht. exact H.
  Qed.
End Gen.

(** *** The sorted list and the search tree keep the contract *)
Section Instances.
  Context {K V : Type} {cmp : K -> K -> comparison} (OL : OrdLaws cmp).
  Notation asc := (@ascending K V cmp).
  Implicit Types l : list (K * V).
  Lemma last_app l1 p l2 : last_error (l1 ++ p :: l2) = match last_error l2 with Some q => Some q | None => Some p end.
  Proof.
    destruct l2 as [|q l2 _] using rev_ind; [apply last_error_app|]. change (l1 ++ p :: l2 ++ [q]) with (l1 ++ (p :: l2) ++ [q]).
    rewrite app_assoc, !last_error_app. reflexivity.
  Qed.
  Lemma hd_app l1 p l2 : hd_error (l1 ++ p :: l2) = match hd_error l1 with Some q => Some q | None => Some p end.
  Proof. destruct l1; reflexivity. Qed.
  Lemma remove_absent (l : list (K * V)) k : asc l -> sp_find cmp k l = None -> sp_remove cmp k l = l.
  Proof.
    intros Hm E. rewrite <- (del_remove OL) by auto. rewrite <- (get_find OL) in E by auto. clear -E.
    induction l as [|[j x] l IH]; cbn in *; auto. destruct (cmp k j); [discriminate|auto|]. f_equal. auto.
  Qed.
  Definition List_contract : MapContract cmp (List_map V cmp).
  Proof.
    assert (Hr : forall m o, asc m -> match opt_put cmp m o with
      | Some (p, put) => o = Some p /\ forall w, asc (put w) /\ put w = sp_write cmp (fst p) w m | None => o = None end).
    { intros m [p|] Hm; cbn; auto. split; auto. intros w. rewrite (put_write OL) by auto. split; auto. apply sp_write_asc. auto. }
    refine {| mk_inv := fun m : mty (List_map V cmp) => asc m; mk_abs := fun m : mty (List_map V cmp) => m |}; cbn.
    - auto.
    - split; auto. apply asc_nil.
    - intros m k v Hm. rewrite (insert_insert OL) by auto. split; auto. apply (sp_insert_asc OL). auto.
    - reflexivity.
    - intros m _. destruct m; cbn; split; congruence.
    - reflexivity.
    - reflexivity.
    - intros m _. apply last_spec.
    - intros m Hm. apply Hr. auto.
    - intros m Hm. rewrite last_spec. apply Hr. auto.
    - intros m k Hm. apply (get_find OL). auto.
    - intros m k Hm. rewrite (get_find OL) by auto. destruct (sp_find cmp k m) as [[k' v]|] eqn:E; auto.
      assert (k' = k) by (apply (sp_find_in OL) in E; apply E). subst k'. split; auto. intros w. rewrite (put_write OL) by auto. split; auto. apply sp_write_asc. auto.
    - reflexivity.
    - intros m lo hi _ _. apply last_spec.
    - intros m lo hi Hm _. apply Hr. auto.
    - intros m lo hi Hm _. rewrite last_spec. apply Hr. auto.
    - intros m k Hm. rewrite (get_find OL) by auto. destruct (sp_find cmp k m) as [p|] eqn:E; cbn.
      + rewrite (del_remove OL) by auto. split; auto. split; [apply (sp_remove_asc OL); auto|]. split; [auto|discriminate].
      + split; auto. split; auto. split; auto. symmetry. apply remove_absent; auto.
    - intros m Hm. split; auto. split; auto. apply asc_tl. auto.
    - intros m Hm. rewrite last_spec, init_removelast. split; auto. split; auto. apply asc_init. auto.
  Defined.

  Lemma properb_ok lo hi : proper cmp lo hi -> properb cmp lo hi = true.
  Proof. destruct lo, hi; cbn; auto; unfold leb, ltb; destruct (cmp k k0); congruence. Qed.
  Definition Picky_contract : MapContract cmp (Picky_map V cmp).
  Proof.
    refine {| mk_inv := fun m : mty (Picky_map V cmp) => asc m; mk_abs := fun m : mty (Picky_map V cmp) => m |}.
    - exact (mk_asc _ _ List_contract).
    - exact (mk_new _ _ List_contract).
    - exact (mk_insert _ _ List_contract).
    - exact (mk_len _ _ List_contract).
    - exact (mk_is_empty _ _ List_contract).
    - exact (mk_into_first _ _ List_contract).
    - exact (mk_first _ _ List_contract).
    - exact (mk_last _ _ List_contract).
    - exact (mk_first_mut _ _ List_contract).
    - exact (mk_last_mut _ _ List_contract).
    - exact (mk_get_key_value _ _ List_contract).
    - exact (mk_get_mut _ _ List_contract).
    - intros m lo hi Hm Hp. cbn [Picky_map m_range_first]. rewrite properb_ok by auto. exact (mk_range_first _ _ List_contract m lo hi Hm Hp).
    - intros m lo hi Hm Hp. cbn [Picky_map m_range_last]. rewrite properb_ok by auto. exact (mk_range_last _ _ List_contract m lo hi Hm Hp).
    - intros m lo hi Hm Hp. cbn [Picky_map m_range_first_mut]. rewrite properb_ok by auto. exact (mk_range_first_mut _ _ List_contract m lo hi Hm Hp).
    - intros m lo hi Hm Hp. cbn [Picky_map m_range_last_mut]. rewrite properb_ok by auto. exact (mk_range_last_mut _ _ List_contract m lo hi Hm Hp).
    - exact (mk_remove_entry _ _ List_contract).
    - exact (mk_pop_first _ _ List_contract).
    - exact (mk_pop_last _ _ List_contract).
  Defined.

  (** the search tree, read from left to right, is the sorted list *)
  Notation T := (STree K V).
  Notation "'L' t" := (st_list t) (at level 9, t at level 9).
  Lemma node_asc (a : T) p (b : T) : asc L (Node a p b) -> asc L a /\ asc L b /\ (forall q, In q L a -> cmp (fst q) (fst p) = Lt) /\ (forall q, In q L b -> cmp (fst p) (fst q) = Lt).
  Proof.
    cbn. intros H. apply asc_app in H. destruct H as [H1 [H2 H3]]. apply asc_cons in H2. destruct H2 as [H2 H4]. repeat split; auto.
    intros q Hq. apply H3; auto. left. auto.
  Qed.
  Lemma left_gt (l : list (K * V)) k (p : K * V) : (forall q, In q l -> cmp (fst q) (fst p) = Lt) -> cmp k (fst p) = Gt \/ cmp k (fst p) = Eq -> forall q, In q l -> cmp k (fst q) = Gt.
  Proof.
    intros H [Hk|Hk] q Hq; apply H in Hq; apply (gt_of_lt OL).
    - apply (cmp_trans OL _ (fst p)); auto. apply (cmp_gt_lt OL). exact Hk.
    - apply (cmp_eq_eq OL) in Hk. congruence.
  Qed.
  Lemma l_insert l1 p l2 k v : (cmp k (fst p) <> Lt -> forall q, In q l1 -> cmp k (fst q) = Gt) ->
    map_insert cmp (l1 ++ p :: l2) k v = match cmp k (fst p) with Lt => map_insert cmp l1 k v ++ p :: l2 | Eq => l1 ++ (fst p, v) :: l2 | Gt => l1 ++ p :: map_insert cmp l2 k v end.
  Proof.
    intros H. induction l1 as [|[j x] l1 IH]; cbn.
    - destruct p as [j x]. cbn. destruct (cmp k j); reflexivity.
    - destruct (cmp k j) eqn:E.
      + destruct (cmp k (fst p)) eqn:E2; [|reflexivity|]; assert (X : cmp k j = Gt) by (apply (H ltac:(congruence) (j, x)); left; auto); congruence.
      + destruct (cmp k (fst p)) eqn:E2; [|reflexivity|]; assert (X : cmp k j = Gt) by (apply (H ltac:(congruence) (j, x)); left; auto); congruence.
      + rewrite IH by (intros Hn q Hq; apply H; auto; right; auto). destruct (cmp k (fst p)); reflexivity.
  Qed.
  Lemma l_put l1 p l2 k v : (cmp k (fst p) <> Lt -> forall q, In q l1 -> cmp k (fst q) = Gt) -> (cmp k (fst p) = Lt -> forall q, In q l2 -> cmp k (fst q) = Lt) ->
    map_put cmp (l1 ++ p :: l2) k v = match cmp k (fst p) with Lt => map_put cmp l1 k v ++ p :: l2 | Eq => l1 ++ (fst p, v) :: l2 | Gt => l1 ++ p :: map_put cmp l2 k v end.
  Proof.
    intros H H2. induction l1 as [|[j x] l1 IH]; cbn.
    - destruct p as [j x]. cbn in *. destruct (cmp k j); try reflexivity. f_equal. specialize (H2 Logic.eq_refl). clear -H2. induction l2 as [|[i y] l IH]; cbn; auto.
      assert (X := H2 (i, y) (or_introl Logic.eq_refl)). cbn in X. rewrite X. f_equal. apply IH. intros q Hq. apply H2. right. auto.
    - destruct (cmp k j) eqn:E.
      + destruct (cmp k (fst p)) eqn:E2; [|reflexivity|]; assert (X : cmp k j = Gt) by (apply (H ltac:(congruence) (j, x)); left; auto); congruence.
      + rewrite IH by (intros Hn q Hq; apply H; auto; right; auto). destruct (cmp k (fst p)) eqn:E2; reflexivity.
      + rewrite IH by (intros Hn q Hq; apply H; auto; right; auto). destruct (cmp k (fst p)) eqn:E2; reflexivity.
  Qed.
  Lemma l_get l1 p l2 k : (cmp k (fst p) <> Lt -> forall q, In q l1 -> cmp k (fst q) = Gt) ->
    map_get cmp (l1 ++ p :: l2) k = match cmp k (fst p) with Lt => map_get cmp l1 k | Eq => Some p | Gt => map_get cmp l2 k end.
  Proof.
    intros H. induction l1 as [|[j x] l1 IH]; cbn.
    - destruct p as [j x]. cbn. destruct (cmp k j); reflexivity.
    - destruct (cmp k j) eqn:E.
      + destruct (cmp k (fst p)) eqn:E2; [|reflexivity|]; assert (X : cmp k j = Gt) by (apply (H ltac:(congruence) (j, x)); left; auto); congruence.
      + destruct (cmp k (fst p)) eqn:E2; [|reflexivity|]; assert (X : cmp k j = Gt) by (apply (H ltac:(congruence) (j, x)); left; auto); congruence.
      + apply IH. intros Hn q Hq. apply H; auto. right. auto.
  Qed.
  Lemma l_del l1 p l2 k : (cmp k (fst p) <> Lt -> forall q, In q l1 -> cmp k (fst q) = Gt) ->
    map_del cmp (l1 ++ p :: l2) k = match cmp k (fst p) with Lt => map_del cmp l1 k ++ p :: l2 | Eq => l1 ++ l2 | Gt => l1 ++ p :: map_del cmp l2 k end.
  Proof.
    intros H. induction l1 as [|[j x] l1 IH]; cbn.
    - destruct p as [j x]. cbn. destruct (cmp k j); reflexivity.
    - destruct (cmp k j) eqn:E.
      + destruct (cmp k (fst p)) eqn:E2; [|reflexivity|]; assert (X : cmp k j = Gt) by (apply (H ltac:(congruence) (j, x)); left; auto); congruence.
      + destruct (cmp k (fst p)) eqn:E2; [|reflexivity|]; assert (X : cmp k j = Gt) by (apply (H ltac:(congruence) (j, x)); left; auto); congruence.
      + rewrite IH by (intros Hn q Hq; apply H; auto; right; auto). destruct (cmp k (fst p)); reflexivity.
  Qed.
  Lemma node_left (a : T) p (b : T) k : asc L (Node a p b) -> cmp k (fst p) <> Lt -> forall q, In q L a -> cmp k (fst q) = Gt.
  Proof.
    intros H Hk. apply node_asc in H. destruct H as [_ [_ [H _]]]. apply (left_gt _ k p H). destruct (cmp k (fst p)); auto. congruence.
  Qed.
  Lemma node_right (a : T) p (b : T) k : asc L (Node a p b) -> cmp k (fst p) = Lt -> forall q, In q L b -> cmp k (fst q) = Lt.
  Proof. intros H Hk q Hq. apply node_asc in H. destruct H as [_ [_ [_ H]]]. apply (cmp_trans OL _ (fst p)); auto. Qed.
  Lemma st_insert_list (t : T) k v : asc L t -> st_list (st_insert cmp t k v) = map_insert cmp L t k v.
  Proof.
    induction t as [|a IHa p b IHb]; auto. intros H. cbn [st_insert st_list]. rewrite l_insert by (apply (node_left a p b k H)).
    destruct (node_asc _ _ _ H) as [Ha [Hb _]]. destruct (cmp k (fst p)); cbn [st_list]; congruence || (rewrite ?IHa, ?IHb by auto; reflexivity).
  Qed.
  Lemma st_put_list (t : T) k v : asc L t -> st_list (st_put cmp t k v) = map_put cmp L t k v.
  Proof.
    induction t as [|a IHa p b IHb]; auto. intros H. cbn [st_put st_list]. rewrite l_put by (apply (node_left a p b k H) || apply (node_right a p b k H)).
    destruct (node_asc _ _ _ H) as [Ha [Hb _]]. destruct (cmp k (fst p)); cbn [st_list]; congruence || (rewrite ?IHa, ?IHb by auto; reflexivity).
  Qed.
  Lemma st_get_list (t : T) k : asc L t -> st_get cmp t k = map_get cmp L t k.
  Proof.
    induction t as [|a IHa p b IHb]; auto. intros H. cbn [st_get st_list]. rewrite l_get by (apply (node_left a p b k H)).
    destruct (node_asc _ _ _ H) as [Ha [Hb _]]. destruct (cmp k (fst p)); auto.
  Qed.
  Lemma st_size_list (t : T) : st_size t = N.of_nat (length L t).
  Proof. induction t as [|a IHa p b IHb]; auto. cbn. rewrite app_length, IHa, IHb. cbn [length]. lia. Qed.
  Lemma st_first_list (t : T) : st_first t = hd_error L t.
  Proof. induction t as [|a IHa p b IHb]; auto. cbn. rewrite hd_app, IHa. reflexivity. Qed.
  Lemma st_last_list (t : T) : st_last t = last_error L t.
  Proof. induction t as [|a IHa p b IHb]; auto. cbn. rewrite last_app, IHb. reflexivity. Qed.
  Lemma st_nil (t : T) : L t = [] -> t = Leaf.
  Proof. destruct t; auto. cbn. intros H. apply app_eq_nil in H. destruct H. discriminate. Qed.
  Lemma st_pop_first_list (t : T) : st_list (st_pop_first t) = tl L t.
  Proof.
    induction t as [|a IHa p b IHb]; auto. cbn [st_pop_first st_list]. destruct a as [|a1 p1 a2]; auto. cbn [st_list] in *. rewrite IHa.
    destruct (st_list a1); reflexivity.
  Qed.
  Lemma st_pop_last_list (t : T) : st_list (st_pop_last t) = removelast L t.
  Proof.
    induction t as [|a IHa p b IHb]; auto. cbn [st_pop_last st_list]. destruct b as [|b1 p1 b2].
    - cbn. symmetry. apply removelast_last.
    - cbn [st_list] in *. rewrite IHb, (removelast_app L a (l' := p :: st_list b1 ++ p1 :: st_list b2)) by discriminate. f_equal.
      assert (E : st_list b1 ++ p1 :: st_list b2 <> []) by (intros E; apply app_eq_nil in E; destruct E; discriminate).
      destruct (st_list b1 ++ p1 :: st_list b2); [congruence|reflexivity].
  Qed.
  Lemma st_join_list (a b : T) : st_list (st_join a b) = L a ++ L b.
  Proof.
    unfold st_join. rewrite st_first_list. destruct (st_list b) as [|q l] eqn:E; cbn; [rewrite app_nil_r; auto|]. rewrite st_pop_first_list, E. reflexivity.
  Qed.
  Lemma st_remove_list (t : T) k : asc L t -> st_list (st_remove cmp t k) = map_del cmp L t k.
  Proof.
    induction t as [|a IHa p b IHb]; auto. intros H. cbn [st_remove st_list]. rewrite l_del by (apply (node_left a p b k H)).
    destruct (node_asc _ _ _ H) as [Ha [Hb _]]. destruct (cmp k (fst p)); cbn [st_list]; [apply st_join_list| |]; rewrite ?IHa, ?IHb by auto; reflexivity.
  Qed.
  Lemma after_mono lo j k : cmp j k = Lt -> after cmp lo j = true -> after cmp lo k = true.
  Proof.
    destruct lo as [a|a|]; cbn; auto; unfold leb, ltb; intros H; destruct (cmp a j) eqn:E; try discriminate; intros _.
    - apply (cmp_eq_eq OL) in E. subst a. rewrite H. reflexivity.
    - rewrite (cmp_trans OL _ _ _ E H). reflexivity.
    - rewrite (cmp_trans OL _ _ _ E H). reflexivity.
  Qed.
  Lemma before_mono hi j k : cmp j k = Lt -> before cmp hi k = true -> before cmp hi j = true.
  Proof.
    destruct hi as [a|a|]; cbn; auto; unfold leb, ltb; intros H; destruct (cmp k a) eqn:E; try discriminate; intros _.
    - apply (cmp_eq_eq OL) in E. subst a. rewrite H. reflexivity.
    - rewrite (cmp_trans OL _ _ _ H E). reflexivity.
    - rewrite (cmp_trans OL _ _ _ H E). reflexivity.
  Qed.
  Notation aft lo := (fun p : K * V => after cmp lo (fst p)).
  Notation bef hi := (fun p : K * V => before cmp hi (fst p)).
  Lemma st_lower_list (t : T) lo : asc L t -> st_lower cmp t lo = hd_error (filter (aft lo) L t).
  Proof.
    induction t as [|a IHa p b IHb]; auto. intros H. destruct (node_asc _ _ _ H) as [Ha [Hb [H1 H2]]]. cbn [st_lower st_list]. rewrite filter_app. cbn [filter].
    destruct (after cmp lo (fst p)) eqn:E; [rewrite hd_app, IHa by auto; reflexivity|]. rewrite (filter_none _ L a); [cbn; auto|].
    intros q Hq. destruct (after cmp lo (fst q)) eqn:E2; auto. rewrite (after_mono lo _ _ (H1 q Hq) E2) in E. discriminate.
  Qed.
  Lemma st_upper_list (t : T) hi : asc L t -> st_upper cmp t hi = last_error (filter (bef hi) L t).
  Proof.
    induction t as [|a IHa p b IHb]; auto. intros H. destruct (node_asc _ _ _ H) as [Ha [Hb [H1 H2]]]. cbn [st_upper st_list]. rewrite filter_app. cbn [filter].
    destruct (before cmp hi (fst p)) eqn:E; [rewrite last_app, IHb by auto; reflexivity|]. rewrite (filter_none _ L b); [rewrite app_nil_r; auto|].
    intros q Hq. destruct (before cmp hi (fst q)) eqn:E2; auto. rewrite (before_mono hi _ _ (H2 q Hq) E2) in E. discriminate.
  Qed.
  Lemma within_first l lo hi : asc l ->
    hd_error (within cmp lo hi l) = match hd_error (filter (aft lo) l) with Some p => if before cmp hi (fst p) then Some p else None | None => None end.
  Proof.
    unfold within. induction l as [|p l IH]; auto. intros H. apply asc_cons in H. destruct H as [H1 H2]. cbn [filter].
    destruct (after cmp lo (fst p)); cbn [andb]; [|auto]. destruct (before cmp hi (fst p)) eqn:E; cbn [hd_error]; rewrite E; auto.
    rewrite filter_none; auto. intros q Hq. apply Bool.andb_false_iff. right. destruct (before cmp hi (fst q)) eqn:E2; auto.
    rewrite (before_mono hi _ _ (H2 q Hq) E2) in E. discriminate.
  Qed.
  Lemma within_last l lo hi : asc l ->
    last_error (within cmp lo hi l) = match last_error (filter (bef hi) l) with Some p => if after cmp lo (fst p) then Some p else None | None => None end.
  Proof.
    unfold within. induction l as [|p l IH] using rev_ind; auto. intros H. apply asc_app in H. destruct H as [H1 [_ H2]]. rewrite !filter_app. cbn [filter].
    destruct (before cmp hi (fst p)); [rewrite Bool.andb_true_r|rewrite Bool.andb_false_r, !app_nil_r; auto].
    rewrite last_error_app. destruct (after cmp lo (fst p)) eqn:E; [apply last_error_app|]. rewrite app_nil_r.
    rewrite filter_none; auto. intros q Hq. apply Bool.andb_false_iff. left. destruct (after cmp lo (fst q)) eqn:E2; auto.
    rewrite (after_mono lo (fst q) (fst p)) in E; [discriminate| |auto]. apply H2; auto. left. auto.
  Qed.
  Definition Tree_contract : MapContract cmp (Tree_map V cmp).
  Proof.
    assert (Hw : forall (t : T) k w, asc L t -> asc (st_list (st_put cmp t k w)) /\ st_list (st_put cmp t k w) = sp_write cmp k w L t).
    { intros t k w Ht. rewrite st_put_list, (put_write OL) by auto. split; auto. apply sp_write_asc. auto. }
    assert (Hr : forall t o, asc L t -> match st_ref cmp t o with
      | Some (p, put) => o = Some p /\ forall w, asc (st_list (put w)) /\ st_list (put w) = sp_write cmp (fst p) w L t | None => o = None end).
    { intros t [p|] Ht; cbn; auto. }
    assert (Hf : forall t lo hi, asc L t -> st_range_first cmp t lo hi = sp_min (within cmp lo hi L t)).
    { intros t lo hi Ht. unfold st_range_first, sp_min. rewrite within_first, st_lower_list by auto. reflexivity. }
    assert (Hl : forall t lo hi, asc L t -> st_range_last cmp t lo hi = sp_max (within cmp lo hi L t)).
    { intros t lo hi Ht. unfold st_range_last, sp_max. rewrite within_last, st_upper_list by auto. reflexivity. }
    refine {| mk_inv := fun t : mty (Tree_map V cmp) => asc (st_list t); mk_abs := fun t : mty (Tree_map V cmp) => st_list t |}; cbn [Tree_map m_new m_insert m_len m_is_empty m_into_first m_first m_last m_first_mut m_last_mut m_get_key_value m_get_mut m_range_first m_range_last m_range_first_mut m_range_last_mut m_remove_entry m_pop_first m_pop_last mty].
    - auto.
    - split; auto. apply asc_nil.
    - intros t k v Ht. rewrite st_insert_list, (insert_insert OL) by auto. split; auto. apply (sp_insert_asc OL). auto.
    - intros t _. apply st_size_list.
    - intros t _. destruct t; split; auto; try discriminate. intros H. apply st_nil in H. discriminate.
    - intros t _. apply st_first_list.
    - intros t _. apply st_first_list.
    - intros t _. apply st_last_list.
    - intros t Ht. rewrite st_first_list. apply Hr. auto.
    - intros t Ht. rewrite st_last_list. apply Hr. auto.
    - intros t k Ht. rewrite st_get_list, (get_find OL) by auto. auto.
    - intros t k Ht. rewrite st_get_list, (get_find OL) by auto. destruct (sp_find cmp k L t) as [[k' v]|] eqn:E; auto.
      assert (k' = k) by (apply (sp_find_in OL) in E; apply E). subst k'. split; auto.
    - auto.
    - auto.
    - intros t lo hi Ht _. rewrite Hf by auto. apply Hr. auto.
    - intros t lo hi Ht _. rewrite Hl by auto. apply Hr. auto.
    - intros t k Ht. rewrite st_get_list, (get_find OL) by auto. destruct (sp_find cmp k L t) as [p|] eqn:E; cbn [fst snd].
      + rewrite st_remove_list, (del_remove OL) by auto. split; auto. split; [apply (sp_remove_asc OL); auto|]. split; [auto|discriminate].
      + split; auto. split; auto. split; auto. symmetry. apply remove_absent; auto.
    - intros t Ht. rewrite st_first_list. cbn [fst snd]. rewrite st_pop_first_list. split; auto. split; auto. apply asc_tl. auto.
    - intros t Ht. rewrite st_last_list. cbn [fst snd]. rewrite st_pop_last_list. split; auto. split; auto. apply asc_init. auto.
  Defined.
End Instances.

(** *** The library's types with both maps exchanged *)
Section Rebuilt.
  Context (hf : HashFamily) (FC : forall Hi T eq, (forall a b : Hi, eq a b = true <-> a = b) -> HashContract (hf Hi T eq)).
  Context (mf : MapFamily) (MC : forall K V (cmp : K -> K -> comparison), OrdLaws cmp -> MapContract cmp (mf K V cmp)).
  Context {B : Build} (B' : Build) (Hd : dbg (Build := B) = true) (Hw : (usize_bits (B := B) <= usize_bits (B := B'))%N).
  Lemma rebuilt_sim {fixed K V cmp O} (T : @VebType B fixed K V cmp O) : exists R, Sim.Sim eq O (rebuilt B' hf mf T) R.
  Proof.
    assert (HB := lenient_checked B B' Hd Hw).
    induction T as [|V|K V cmp OL|K Hi Lo V ko KL S Tr C TS [RS XS] TT [RT XT] CT|K V cmp O T [R X]|K V cmp O T [R X]]; cbn [rebuilt].
    - apply (recompiled_sim B' Hd Hw (VT_ByteSet (B := B) fixed)).
    - apply (recompiled_sim B' Hd Hw (VT_ByteMap (B := B) fixed V)).
    - eexists. exact (gen_sim_run OL (MC K V cmp OL)).
    - eexists. eapply tree_sim; [exact HB|exact XS|exact XT|].
      apply (coll_sim (coll_laws CT) (coll_panics Hd CT) (rehashed_laws hf FC B' Hw CT (rebuilt B' hf mf TT)) XT (Lists.key_dec (KL_hi KL))).
    - eexists. exact (box_sim (box_sim' X)).
    - eexists. exact (sized2_sim X HB).
  Qed.
  Lemma rebuilt_run {fixed K V cmp O} (T : @VebType B fixed K V cmp O) cs ot os : run O cs None = Ret (ot, os) ->
    exists ot', run (rebuilt B' hf mf T) cs None = Ret (ot', os) /\ (ot = None <-> ot' = None).
  Proof.
    intros E. destruct (rebuilt_sim T) as [R X]. destruct (sim_run_eq X cs None ot os None I E) as [ot' [E' H]]. exists ot'. split; auto.
    destruct ot, ot'; cbn in H; try contradiction; split; congruence.
  Qed.
  Lemma rebuilt_same {fixed K V cmp O} (T : @VebType B fixed K V cmp O) cs : (N.of_nat (length cs) <= @usize_max B)%N ->
    exists ot ot' os, run O cs None = Ret (ot, os) /\ run (rebuilt B' hf mf T) cs None = Ret (ot', os) /\ (ot = None <-> ot' = None).
  Proof.
    intros Hl. assert (H := no_panic_run (type_laws T) cs Hl). destruct (run O cs None) as [[ot os]|] eqn:E; [|congruence].
    destruct (rebuilt_run T cs ot os E) as [ot' [E' H']]. eauto 6.
  Qed.
  Lemma rebuilt_iter {fixed K V cmp O} (T : @VebType B fixed K V cmp O) cs t os t' os' dirs it ps keq :
    run O cs None = Ret (Some t, os) -> run (rebuilt B' hf mf T) cs None = Ret (Some t', os') ->
    it_run (B := B) O keq t dirs it_new = Ret (it, ps) -> it_run (B := B') (rebuilt B' hf mf T) keq t' dirs it_new = Ret (it, ps).
  Proof.
    intros E E' Hi. destruct (rebuilt_sim T) as [R X]. destruct (sim_run_eq X cs None _ _ None I E) as [ot' [E1 H]].
    rewrite E' in E1. injection E1 as <- <-. cbn in H. destruct (iter_sim B' Hd Hw X keq t t' H dirs it_new _ Hi) as [x [E2 <-]]. exact E2.
  Qed.
  Lemma rebuilt_sorted {fixed K V cmp O} (T : @VebType B fixed K V cmp O) adm cs : allowed T adm -> admissible (B := B) cmp adm cs [] ->
    exists ot, run (rebuilt B' hf mf T) cs None = Ret (ot, snd (sp_run cmp cs [])) /\ (ot = None <-> fst (sp_run cmp cs []) = []).
  Proof.
    intros Ha Hc. destruct (sorted_map (type_ord T) (type_laws T) (allowed_covered T adm Ha) cs Hc) as [ot [E1 E2]].
    destruct (rebuilt_run T cs _ _ E1) as [ot' [E3 E4]]. exists ot'. split; auto. tauto.
  Qed.
End Rebuilt.
Lemma rebuilt_two (hf hf' : HashFamily) (FC : forall Hi T eq, (forall a b : Hi, eq a b = true <-> a = b) -> HashContract (hf Hi T eq))
  (FC' : forall Hi T eq, (forall a b : Hi, eq a b = true <-> a = b) -> HashContract (hf' Hi T eq))
  (mf mf' : MapFamily) (MC : forall K V (cmp : K -> K -> comparison), OrdLaws cmp -> MapContract cmp (mf K V cmp))
  (MC' : forall K V (cmp : K -> K -> comparison), OrdLaws cmp -> MapContract cmp (mf' K V cmp))
  (B B1 B2 : Build) : dbg (Build := B) = true -> (usize_bits (B := B) <= usize_bits (B := B1))%N -> (usize_bits (B := B) <= usize_bits (B := B2))%N ->
  forall fixed K V cmp (O : VebOps K V) (T : @VebType B fixed K V cmp O) cs, (N.of_nat (length cs) <= usize_max (B := B))%N ->
  exists ot ot' os, run (rebuilt B1 hf mf T) cs None = Ret (ot, os) /\ run (rebuilt B2 hf' mf' T) cs None = Ret (ot', os) /\ (ot = None <-> ot' = None).
Proof.
  intros Hd Hw1 Hw2 fixed K V cmp O T cs Hl. destruct (rebuilt_same hf FC mf MC B1 Hd Hw1 T cs Hl) as [o [o1 [os [E [E1 H1]]]]].
  destruct (rebuilt_run hf' FC' mf' MC' B2 Hd Hw2 T cs _ _ E) as [o2 [E2 H2]]. exists o1, o2, os. repeat split; auto; tauto.
Qed.
(** any history over a single ordered map *)
Lemma map_history {B : Build} {K V : Type} {cmp : K -> K -> comparison} (OL : OrdLaws cmp) {M : MapOps K V} (MC : MapContract cmp M) cs :
  admissible cmp (@adm_any K V) cs [] ->
  exists ot, run (BTreeOf M) cs None = Ret (ot, snd (sp_run cmp cs [])) /\
    match ot with Some m => mk_inv MC m /\ mk_abs MC m = fst (sp_run cmp cs []) /\ mk_abs MC m <> [] | None => fst (sp_run cmp cs []) = [] end.
Proof.
  intros Hc. destruct (run_refines OL (BTree_laws OL) (@adm_any K V) cs) with (ot := @None (vt (BTree_ops V cmp))) (l := @nil (K * V)) as [ot [E Hr]]; auto.
  { intros t l k _ _. exact I. }
  { reflexivity. }
  destruct (sim_run_eq (gen_sim_run OL MC) cs None ot _ None I E) as [ot' [E' H]]. exists ot'. split; auto.
  destruct ot as [l|], ot' as [m|]; cbn in H; try contradiction; [|exact Hr].
  destruct H as [H1 H2]. split; auto. rewrite H2. destruct Hr as [[Ha Hn] [_ [Hs Hp]]]. split; [|exact Hn].
  symmetry. apply (asc_perm_eq OL); auto.
Qed.
