(** The iterator consumes the sorted list from both ends. *)
From Verif Require Import Base Spec Ops Iter Lists Laws Hist HistProofs HistCor Boxed BTree SizedT ByteSet Types TypesProofs IterSpec.

Section ListFacts.
  Context {K V : Type} {cmp : K -> K -> comparison} (OL : OrdLaws cmp).
  Notation asc := (@ascending K V cmp).
  Implicit Types (l pre rem suf : list (K * V)).

  Lemma above_split pre k v rem : asc (pre ++ (k, v) :: rem) -> above cmp k (pre ++ (k, v) :: rem) = rem.
  Proof.
    intros H. apply (asc_app (cmp := cmp)) in H. destruct H as [_ [H1 H2]]. apply (asc_cons (cmp := cmp)) in H1. destruct H1 as [_ H1].
    unfold above. rewrite filter_app. cbn [filter fst]. assert (E : ltb cmp k k = false) by (apply ltb_ge; apply (lt_irrefl OL)).
    rewrite E. assert (E1 : filter (fun p => ltb cmp k (fst p)) pre = []).
    { clear - H2 OL. induction pre as [|p pre IH]; auto. cbn. assert (E : ltb cmp k (fst p) = false).
      { apply ltb_ge. intros Hc. apply (lt_asym OL _ _ Hc). apply (H2 p (k, v)); left; auto. }
      rewrite E. apply IH. intros a b Ha Hb. apply H2; auto. right. auto. }
    rewrite E1. cbn [app]. clear - H1. induction rem as [|p rem IH]; auto. cbn. assert (E : ltb cmp k (fst p) = true).
    { apply ltb_lt. apply (H1 p). left. auto. }
    rewrite E. f_equal. apply IH. intros q Hq. apply H1. right. auto.
  Qed.
  Lemma below_split pre k v rem : asc (pre ++ (k, v) :: rem) -> below cmp k (pre ++ (k, v) :: rem) = pre.
  Proof.
    intros H. apply (asc_app (cmp := cmp)) in H. destruct H as [_ [H1 H2]]. apply (asc_cons (cmp := cmp)) in H1. destruct H1 as [_ H1].
    unfold below. rewrite filter_app. cbn [filter fst]. assert (E : ltb cmp k k = false) by (apply ltb_ge; apply (lt_irrefl OL)).
    rewrite E. assert (E1 : filter (fun p => ltb cmp (fst p) k) rem = []).
    { clear - H1 OL. induction rem as [|p rem IH]; auto. cbn. assert (E : ltb cmp (fst p) k = false).
      { apply ltb_ge. intros Hc. apply (lt_asym OL _ _ Hc). apply (H1 p). left. auto. }
      rewrite E. apply IH. intros q Hq. apply H1. right. auto. }
    rewrite E1, app_nil_r. clear - H2. induction pre as [|p pre IH]; auto. cbn. assert (E : ltb cmp (fst p) k = true).
    { apply ltb_lt. apply (H2 p (k, v)); left; auto. }
    rewrite E. f_equal. apply IH. intros a b Ha Hb. apply H2; auto. right. auto.
  Qed.
  Lemma split_neq pre k v rem k' v' suf : asc (pre ++ (k, v) :: rem ++ (k', v') :: suf) -> k <> k'.
  Proof.
    intros H E. subst k'. apply (asc_nodup OL) in H. unfold keys in H. rewrite map_app in H. cbn in H.
    apply NoDup_remove_2 in H. apply H. rewrite map_app. cbn. apply in_or_app. right. apply in_or_app. right. left. auto.
  Qed.
End ListFacts.

Section Inv.
  Context {B : Build} {K V : Type} {cmp : K -> K -> comparison} (OL : OrdLaws cmp) {O : VebOps K V} (L : VebLaws cmp O).
  Context (t : vt O) (l : list (K * V)) (Hr : repr L t l) (Hlen : (N.of_nat (length l) <= usize_max)%N).
  Notation keq := (eqb cmp).

  (** [rem] is what the iterator has still to give *)
  Definition left_data (d : option (IterData K)) (rem : list (K * V)) : Prop :=
    match d with
    | None => rem = []
    | Some Start => rem = l
    | Some (Front k) => exists pre v, l = pre ++ (k, v) :: rem
    | Some (Back k) => exists v suf, l = rem ++ (k, v) :: suf
    | Some (Both f b) => exists pre v w suf, l = pre ++ (f, v) :: rem ++ (b, w) :: suf
    end.
  Definition it_inv (it : Iter K) (rem : list (K * V)) : Prop :=
    left_data (it_data it) rem /\ (it_emitted it + N.of_nat (length rem) = N.of_nat (length l))%N.

  Lemma inv_new : it_inv it_new l.
  Proof. split; reflexivity. Qed.

  Lemma emit_ok (it : Iter K) (d : IterData K) (p : K * V) rem rem' : it_inv it rem -> length rem = S (length rem') ->
    left_data (Some d) rem' -> exists it', emit it d p = Ret (it', Some p) /\ it_inv it' rem'.
  Proof.
    intros [_ He] Hl Hd. unfold emit, usize_add. assert (E : (it_emitted it + 1 <=? usize_max)%N = true).
    { apply N.leb_le. lia. }
    rewrite E. cbn [bind]. eexists. split; [reflexivity|]. split; [exact Hd|]. cbn. lia.
  Qed.
  Lemma stop_ok (it : Iter K) : it_inv it [] -> exists it', @stop K V it = Ret (it', None) /\ it_inv it' [].
  Proof. intros [_ He]. eexists. split; [reflexivity|]. split; [reflexivity|exact He]. Qed.

  Lemma next_ok it rem : it_inv it rem ->
    exists it', it_next O keq t it = Ret (it', hd_error rem) /\ it_inv it' (tl rem).
  Proof.
    intros H. assert (Ha : ascending cmp l) by apply Hr. assert (H0 := H). destruct H as [Hd He]. unfold it_next.
    destruct (repr_min OL L t l Hr) as [mn [Emn Smn]].
    destruct (it_data it) as [[|k|k|f b]|] eqn:Ed; cbn in Hd.
    - subst rem. rewrite Emn. cbn [bind]. assert (Ex := Smn). apply hd_error_in in Ex. destruct Ex as [l0 El].
      unfold sp_min in Smn. rewrite Smn.
      apply emit_ok with (rem := l); [exact H0|rewrite El; reflexivity|]. cbn. exists [], (snd mn). rewrite El at 1.
      destruct mn. rewrite El. reflexivity.
    - destruct Hd as [pre [v Hd]]. rewrite (repr_succ OL L t l k Hr). unfold sp_succ. rewrite Hd in Ha |- *.
      rewrite (above_split OL) by exact Ha. cbn [bind].
      destruct rem as [|p rem]; cbn [hd_error tl].
      + apply stop_ok. exact H0.
      + apply emit_ok with (rem := p :: rem); [exact H0|reflexivity|]. cbn. exists (pre ++ [(k, v)]), (snd p).
        rewrite Hd, <- app_assoc. destruct p. reflexivity.
    - destruct Hd as [v [suf Hd]]. rewrite Emn. cbn [bind]. rewrite Hd in Smn.
      destruct rem as [|p rem]; cbn [hd_error tl] in *.
      + cbn in Smn. injection Smn as <-. cbn [fst]. rewrite (eqb_refl OL). apply stop_ok. exact H0.
      + cbn in Smn. injection Smn as ->. assert (E : keq (fst mn) k = false).
        { apply (eqb_neq OL). rewrite Hd in Ha. destruct mn as [k0 v0]. apply (split_neq OL [] k0 v0 rem k v suf). exact Ha. }
        rewrite E. apply emit_ok with (rem := mn :: rem); [exact H0|reflexivity|]. cbn. exists [], (snd mn), v, suf.
        rewrite Hd. destruct mn. reflexivity.
    - destruct Hd as [pre [v [w [suf Hd]]]]. rewrite (repr_succ OL L t l f Hr). unfold sp_succ. rewrite Hd in Ha |- *.
      rewrite (above_split OL) by exact Ha. cbn [bind].
      destruct rem as [|p rem]; cbn [hd_error tl app].
      + cbn [fst]. rewrite (eqb_refl OL). apply stop_ok. exact H0.
      + assert (E : keq (fst p) b = false).
        { apply (eqb_neq OL). destruct p as [k0 v0]. apply (split_neq OL (pre ++ [(f, v)]) k0 v0 rem b w suf).
          rewrite <- app_assoc. exact Ha. }
        rewrite E. apply emit_ok with (rem := p :: rem); [exact H0|reflexivity|]. cbn.
        exists (pre ++ [(f, v)]), (snd p), w, suf. rewrite Hd, <- app_assoc. destruct p. reflexivity.
    - subst rem. cbn. apply stop_ok. exact H0.
  Qed.

  Lemma snoc_cases {A} (r : list A) : r = [] \/ exists r' a, r = r' ++ [a].
  Proof. destruct (last_error r) as [a|] eqn:E; [apply last_error_in in E; destruct E as [r' ->]; eauto|apply last_error_none in E; auto]. Qed.

  Lemma next_back_ok it rem : it_inv it rem ->
    exists it', it_next_back O keq t it = Ret (it', last_error rem) /\ it_inv it' (removelast rem).
  Proof.
    intros H. assert (Ha : ascending cmp l) by apply Hr. assert (H0 := H). destruct H as [Hd He]. unfold it_next_back.
    destruct (repr_max OL L t l Hr) as [mx [Emx Smx]].
    assert (Hlast : forall (r : list (K * V)) (a : K * V) l0, r ++ [a] = l0 -> length l0 = S (length r)).
    { intros r a l0 <-. rewrite app_length. cbn. lia. }
    destruct (it_data it) as [[|k|k|f b]|] eqn:Ed; cbn in Hd.
    - subst rem. rewrite Emx. cbn [bind]. assert (Ex := Smx). apply last_error_in in Ex. destruct Ex as [l0 El]. 
      unfold sp_max in Smx. rewrite Smx. rewrite El, removelast_app1.
      apply emit_ok with (rem := l); [exact H0|eapply Hlast; eauto|]. cbn. exists (snd mx), []. destruct mx. exact El.
    - destruct Hd as [pre [v Hd]]. rewrite Emx. cbn [bind].
      destruct (snoc_cases rem) as [->|[rem' [p ->]]].
      + rewrite Hd in Smx. unfold sp_max in Smx. rewrite last_error_app in Smx. injection Smx as <-. cbn [fst].
        rewrite (eqb_refl OL). apply stop_ok. exact H0.
      + rewrite Hd in Smx. unfold sp_max in Smx.
        replace (pre ++ (k, v) :: rem' ++ [p]) with ((pre ++ (k, v) :: rem') ++ [p]) in Smx by (rewrite <- app_assoc; reflexivity).
        rewrite last_error_app in Smx. injection Smx as ->. rewrite last_error_app, removelast_app1. assert (E : keq k (fst mx) = false).
        { apply (eqb_neq OL). rewrite Hd in Ha. destruct mx as [k0 v0]. apply (split_neq OL pre k v rem' k0 v0 []). exact Ha. }
        rewrite E. apply emit_ok with (rem := rem' ++ [mx]); [exact H0|eapply Hlast; eauto|]. cbn. exists pre, v, (snd mx), [].
        rewrite Hd. destruct mx. reflexivity.
    - destruct Hd as [v [suf Hd]]. rewrite (repr_pred OL L t l k Hr). unfold sp_pred. rewrite Hd in Ha |- *.
      rewrite (below_split OL) by exact Ha. cbn [bind].
      destruct (snoc_cases rem) as [->|[rem' [p ->]]].
      + cbn. apply stop_ok. exact H0.
      + rewrite last_error_app, removelast_app1.
        apply emit_ok with (rem := rem' ++ [p]); [exact H0|eapply Hlast; eauto|]. cbn. exists (snd p), ((k, v) :: suf).
        rewrite Hd, <- app_assoc. destruct p. reflexivity.
    - destruct Hd as [pre [v [w [suf Hd]]]]. rewrite (repr_pred OL L t l b Hr). unfold sp_pred.
      assert (Hd' : l = (pre ++ (f, v) :: rem) ++ (b, w) :: suf) by (rewrite Hd, <- app_assoc; reflexivity).
      rewrite Hd' in Ha |- *. rewrite (below_split OL) by exact Ha. cbn [bind]. rewrite <- Hd' in Ha.
      destruct (snoc_cases rem) as [->|[rem' [p ->]]].
      + rewrite last_error_app. cbn [fst]. rewrite (eqb_refl OL). apply stop_ok. exact H0.
      + replace (pre ++ (f, v) :: rem' ++ [p]) with ((pre ++ (f, v) :: rem') ++ [p]) by (rewrite <- app_assoc; reflexivity).
        rewrite !last_error_app, removelast_app1. assert (E : keq f (fst p) = false).
        { apply (eqb_neq OL). destruct p as [k0 v0]. apply (split_neq OL pre f v rem' k0 v0 ((b, w) :: suf)).
          rewrite Hd, <- app_assoc in Ha. exact Ha. }
        rewrite E. apply emit_ok with (rem := rem' ++ [p]); [exact H0|eapply Hlast; eauto|]. cbn.
        exists pre, v, (snd p), ((b, w) :: suf). rewrite Hd, <- app_assoc. destruct p. reflexivity.
    - subst rem. cbn. apply stop_ok. exact H0.
  Qed.

  Lemma it_run_ok dirs : forall it rem, it_inv it rem ->
    exists it', it_run O keq t dirs it = Ret (it', fst (sp_pops dirs rem)) /\ it_inv it' (snd (sp_pops dirs rem)).
  Proof.
    induction dirs as [|d ds IH]; intros it rem H; cbn [it_run sp_pops].
    - exists it. auto.
    - assert (H1 : exists it1, it_call O keq t d it = Ret (it1, if d then last_error rem else hd_error rem) /\
        it_inv it1 (if d then removelast rem else tl rem)).
      { destruct d; [apply next_back_ok|apply next_ok]; exact H. }
      destruct H1 as [it1 [E1 H1]]. rewrite E1. cbn [bind]. destruct (IH it1 _ H1) as [it2 [E2 H2]]. rewrite E2. cbn [bind].
      destruct d; destruct (sp_pops ds _) as [os rem2]; exists it2; auto.
  Qed.

  Lemma size_hint_ok it rem : it_inv it rem -> exists lo hi, it_size_hint O t it = Ret (lo, hi) /\
    (lo <= N.of_nat (length rem))%N /\ (forall h, hi = Some h -> (N.of_nat (length rem) <= h)%N).
  Proof.
    intros [Hd He]. unfold it_size_hint. destruct (it_data it) as [d|].
    - destruct (L_len_hint L t (proj1 Hr)) as [lo [hi [E [H1 H2]]]]. rewrite (repr_len L t l Hr) in *. rewrite E. cbn [bind].
      destruct hi as [h|]; cbn [bind].
      + specialize (H2 h eq_refl). unfold checked_sub. destruct (N.leb_spec (it_emitted it) h) as [H3|H3]; [|lia]. cbn [bind].
        eexists _, _. split; [reflexivity|]. split; [lia|]. intros h' Hh. injection Hh as <-. lia.
      + eexists _, None. split; [reflexivity|]. split; [lia|]. discriminate.
    - cbn in Hd. subst rem. exists 0%N, (Some 0%N). split; auto. split; [reflexivity|]. intros h Hh. injection Hh as <-. reflexivity.
  Qed.
  Lemma size_hint_exact it rem : (forall lo hi, v_len_hint O t = Ret (lo, hi) -> hi = Some lo) -> it_inv it rem ->
    it_size_hint O t it = Ret (N.of_nat (length rem), Some (N.of_nat (length rem))).
  Proof.
    intros E0 [Hd He]. unfold it_size_hint. destruct (it_data it) as [d|].
    - destruct (L_len_hint L t (proj1 Hr)) as [lo [hi [E [H1 H2]]]]. rewrite (repr_len L t l Hr) in *. rewrite E. cbn [bind].
      rewrite (E0 _ _ E) in *. specialize (H2 lo eq_refl). cbn [bind].
      unfold checked_sub. destruct (N.leb_spec (it_emitted it) lo) as [H4|H4]; [|lia]. cbn [bind]. do 3 f_equal; [|f_equal]; lia.
    - cbn in Hd. subst rem. reflexivity.
  Qed.
End Inv.

(** fused, for any tree and iterator *)
Lemma it_call_none {B : Build} {K V} (O : VebOps K V) keq t d it it' : it_call O keq t d it = Ret (it', None) -> it_data it' = None.
Proof.
  assert (He : forall (i : Iter K) (dd : IterData K) (p : K * V) i', emit i dd p <> Ret (i', None)).
  { intros i dd p i'. unfold emit. destruct (usize_add (it_emitted i) 1); discriminate. }
  assert (Hs : forall i i', @stop K V i = Ret (i', None) -> it_data i' = None).
  { intros i i' H. injection H as <-. reflexivity. }
  unfold it_call, it_next, it_next_back. destruct d; destruct (it_data it) as [[|k|k|f b]|]; try solve [apply Hs].
  - destruct (v_max_val O t); cbn; [intros H; elim (He _ _ _ _ H)|discriminate].
  - destruct (v_max_val O t) as [p|]; cbn; [|discriminate]. destruct (keq k (fst p)); [apply Hs|intros H; elim (He _ _ _ _ H)].
  - destruct (v_predecessor O t k) as [[p|]|]; cbn; [intros H; elim (He _ _ _ _ H)|apply Hs|discriminate].
  - destruct (v_predecessor O t b) as [[p|]|]; cbn; [| |discriminate].
    { destruct (keq f (fst p)); [apply Hs|intros H; elim (He _ _ _ _ H)]. } destruct dbg; cbn; [discriminate|apply Hs].
  - destruct (v_min_val O t); cbn; [intros H; elim (He _ _ _ _ H)|discriminate].
  - destruct (v_successor O t k) as [[p|]|]; cbn; [intros H; elim (He _ _ _ _ H)|apply Hs|discriminate].
  - destruct (v_min_val O t) as [p|]; cbn; [|discriminate]. destruct (keq (fst p) k); [apply Hs|intros H; elim (He _ _ _ _ H)].
  - destruct (v_successor O t f) as [[p|]|]; cbn; [| |discriminate].
    { destruct (keq (fst p) b); [apply Hs|intros H; elim (He _ _ _ _ H)]. } destruct dbg; cbn; [discriminate|apply Hs].
Qed.
Lemma it_fused {B : Build} {K V} (O : VebOps K V) keq t dirs : forall it, it_data it = None ->
  it_run O keq t dirs it = Ret (it, repeat None (length dirs)).
Proof.
  induction dirs as [|d ds IH]; intros it H; auto. cbn [it_run length repeat].
  assert (E : it_call O keq t d it = Ret (it, None)).
  { destruct it as [dd e]. cbn in H. subst dd. destruct d; reflexivity. }
  rewrite E. cbn [bind]. rewrite (IH it H). reflexivity.
Qed.

(** plain forward and backward sweeps *)
Lemma pops_front {A} (l : list A) m : sp_pops (repeat false (length l + m)) l = (map Some l ++ repeat None m, []).
Proof.
  induction l as [|a l IH]; cbn.
  - induction m as [|m IH]; auto. cbn. rewrite IH. auto.
  - rewrite IH. auto.
Qed.
Lemma pops_back {A} (l : list A) m : sp_pops (repeat true (length l + m)) l = (map Some (rev l) ++ repeat None m, []).
Proof.
  induction l as [|a l IH] using rev_ind; cbn.
  - induction m as [|m IH]; auto. cbn. rewrite IH. auto.
  - rewrite app_length. cbn. replace (length l + 1 + m) with (S (length l + m)) by lia. cbn [repeat sp_pops].
    rewrite last_error_app, removelast_app1, IH, rev_app_distr. auto.
Qed.

(** admissible lists fit in memory *)
Lemma sp_step_len {K V cmp} (OL : OrdLaws cmp) (c : op K V) l : ascending cmp l ->
  length (fst (sp_step cmp c l)) <= match c with Insert _ _ => S (length l) | _ => length l end.
Proof.
  intros Ha. assert (Hw : forall o w, length (fst (sp_mut cmp o w l)) = length l).
  { intros o w. destruct o; cbn; auto. unfold sp_write. apply map_length. }
  assert (Hba : forall k, length (below cmp k l ++ above cmp k l) <= length l).
  { intros k. rewrite (Permutation_length (below_above OL k l)). unfold others. clear. induction l as [|p l IH]; auto. cbn.
    destruct (negb _); cbn; lia. }
  destruct c; cbn [sp_step fst]; rewrite ?Hw; auto.
  - specialize (Hba k). unfold sp_insert. rewrite app_length in *. cbn. lia.
  - apply (Hba k).
  - destruct l; cbn; lia.
  - destruct (snoc_cases l) as [->|[l' [p ->]]]; [auto|]. rewrite removelast_app1, app_length. lia.
  - destruct l as [|p [|q l]]; cbn; lia.
Qed.
Lemma sp_step_asc {K V cmp} (OL : OrdLaws cmp) (c : op K V) l : ascending cmp l -> ascending cmp (fst (sp_step cmp c l)).
Proof.
  intros Ha. assert (Hw : forall o w, ascending cmp (fst (sp_mut cmp o w l))).
  { intros o w. destruct o; cbn; auto. apply sp_write_asc. auto. }
  destruct c; cbn [sp_step fst]; auto.
  - apply (sp_insert_asc OL). auto.
  - apply (sp_remove_asc OL). auto.
  - destruct l; auto. apply (asc_cons (cmp := cmp)) in Ha. apply Ha.
  - destruct (snoc_cases l) as [->|[l' [p ->]]]; auto. rewrite removelast_app1. apply (asc_app (cmp := cmp)) in Ha. apply Ha.
  - destruct l as [|p [|q l]]; auto. apply asc_nil.
Qed.
Lemma admissible_len {B : Build} {K V cmp} (OL : OrdLaws cmp) adm (cs : list (op K V)) : forall l, ascending cmp l ->
  (N.of_nat (length l) <= usize_max)%N -> admissible cmp adm cs l -> (N.of_nat (length (fst (sp_run cmp cs l))) <= usize_max)%N.
Proof.
  induction cs as [|c cs IH]; intros l Ha Hl H; auto. destruct H as [H1 H2]. rewrite sp_run_cons.
  assert (Hs := sp_step_len OL c l Ha). apply IH; auto.
  - apply (sp_step_asc OL); auto.
  - destruct c; try lia.
Qed.
Lemma reached_len {B : Build} {K V cmp} (OL : OrdLaws cmp) {O : VebOps K V} adm t l : reached cmp O adm t l -> (N.of_nat (length l) <= usize_max)%N.
Proof.
  intros [cs [os [H1 [_ <-]]]]. apply (admissible_len OL adm); auto.
  - apply asc_nil.
  - cbn. lia.
Qed.

Section Reached.
  Context {B : Build} {K V : Type} {cmp : K -> K -> comparison} (OL : OrdLaws cmp) {O : VebOps K V} (L : VebLaws cmp O)
          {adm : list (K * V) -> K -> Prop} (Hcov : covered L adm).
  Lemma iter_deque t l dirs : reached cmp O adm t l ->
    exists it, it_run O (eqb cmp) t dirs it_new = Ret (it, fst (sp_pops dirs l)).
  Proof.
    intros H. assert (Hl := reached_len OL adm t l H). apply (reached_repr OL L adm t l Hcov) in H.
    destruct (it_run_ok OL L t l H Hl dirs it_new l (inv_new l)) as [it [E _]]. eauto.
  Qed.
  Lemma iter_no_panic t l dirs : reached cmp O adm t l -> it_run O (eqb cmp) t dirs it_new <> Panic.
  Proof. intros H. destruct (iter_deque t l dirs H) as [it E]. congruence. Qed.
  Lemma iter_forward t l m : reached cmp O adm t l -> ascending cmp l /\
    (exists it, it_run O (eqb cmp) t (repeat false (length l + m)) it_new = Ret (it, map Some l ++ repeat None m)) /\
    (exists it, it_run O (eqb cmp) t (repeat true (length l + m)) it_new = Ret (it, map Some (rev l) ++ repeat None m)).
  Proof.
    intros H. split; [apply (reached_asc OL L Hcov t l H)|]. split.
    - destruct (iter_deque t l (repeat false (length l + m)) H) as [it E]. rewrite pops_front in E. eauto.
    - destruct (iter_deque t l (repeat true (length l + m)) H) as [it E]. rewrite pops_back in E. eauto.
  Qed.
  Lemma iter_hint t l dirs it os : reached cmp O adm t l -> it_run O (eqb cmp) t dirs it_new = Ret (it, os) ->
    exists lo hi, it_size_hint O t it = Ret (lo, hi) /\
      (lo <= N.of_nat (length (snd (sp_pops dirs l))))%N /\
      (forall h, hi = Some h -> (N.of_nat (length (snd (sp_pops dirs l))) <= h)%N).
  Proof.
    intros H E. assert (Hl := reached_len OL adm t l H). apply (reached_repr OL L adm t l Hcov) in H.
    destruct (it_run_ok OL L t l H Hl dirs it_new l (inv_new l)) as [it' [E' Hi]]. rewrite E in E'. injection E' as <- _.
    apply (size_hint_ok L t l H Hl it _ Hi).
  Qed.
  Lemma iter_hint_exact t l dirs it os : (forall t lo hi, v_len_hint O t = Ret (lo, hi) -> hi = Some lo) ->
    reached cmp O adm t l -> it_run O (eqb cmp) t dirs it_new = Ret (it, os) ->
    it_size_hint O t it = Ret (N.of_nat (length (snd (sp_pops dirs l))), Some (N.of_nat (length (snd (sp_pops dirs l))))).
  Proof.
    intros Hx H E. assert (Hl := reached_len OL adm t l H). apply (reached_repr OL L adm t l Hcov) in H.
    destruct (it_run_ok OL L t l H Hl dirs it_new l (inv_new l)) as [it' [E' Hi]]. rewrite E in E'. injection E' as <- _.
    apply (size_hint_exact L t l H Hl it _ (Hx t) Hi).
  Qed.
End Reached.

Lemma counts_exact {B : Build} {fixed K V cmp O} (T : VebType fixed K V cmp O) : counts T = true ->
  forall t lo hi, v_len_hint O t = Ret (lo, hi) -> hi = Some lo.
Proof.
  induction T; cbn [counts]; intros H t lo hi E; try discriminate.
  - cbn in E. unfold bs_len_hint in E. destruct (bs_len t); [|discriminate]. injection E as <- <-. reflexivity.
  - cbn in E. unfold bt_len_hint in E. injection E as <- <-. reflexivity.
  - exact (IHT H (unbox t) lo hi E).
  - cbn in E. injection E as <- <-. reflexivity.
Qed.
