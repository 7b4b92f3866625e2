(** A tree of one level that keeps its least key is a sorted map. *)
From Verif Require Import Base Spec Lists Ops Laws Tree Types TypesProofs Hist HistProofs HistCor IterProofs Fits FitsCor Sentinel.

Section Keep.
  Context {B : Build} {K V : Type} {cmp : K -> K -> comparison} (OL : OrdLaws cmp) (b : K) (Hb : bottom cmp b).
  Lemma sp_run_cons (c : op K V) cs l : fst (sp_run cmp (c :: cs) l) = fst (sp_run cmp cs (fst (sp_step cmp c l))).
  Proof. cbn [sp_run]. destruct (sp_step cmp c l) as [l' r]. cbn [fst]. destruct (sp_run cmp cs l'). reflexivity. Qed.
  Lemma above_bottom (l : list (K * V)) k : ascending cmp l -> In b (keys l) -> adm_above_min cmp l k.
  Proof.
    intros Ha Hi. destruct l as [|p [|q l]]; cbn [adm_above_min]; auto. enough (E : fst p = b) by (rewrite E; apply Hb).
    apply asc_cons in Ha. destruct Ha as [_ Ha]. destruct Hi as [E|Hi]; [exact E|]. apply in_map_iff in Hi. destruct Hi as [r [E Hr]].
    exfalso. apply (Hb (fst p)). rewrite <- E. apply Ha. exact Hr.
  Qed.
  Lemma kept_admissible cs : forall l : list (K * V), ascending cmp l -> keeps cmp b cs l -> roomy cmp cs l -> admissible cmp (adm_above_min cmp) cs l.
  Proof.
    induction cs as [|c cs IH]; intros l Ha Hk Hr; [exact I|]. cbn [admissible]. split.
    - destruct c; auto. split; [apply above_bottom; [exact Ha|exact (Hk [] _ eq_refl)]|exact (Hr [] cs _ _ eq_refl)].
    - apply IH; [apply (sp_step_asc OL); exact Ha| |].
      + intros cs1 cs2 E. rewrite <- sp_run_cons. apply (Hk (c :: cs1) cs2). cbn. rewrite E. reflexivity.
      + intros cs1 cs2 k v E. rewrite <- sp_run_cons. apply (Hr (c :: cs1) cs2 k v). cbn. rewrite E. reflexivity.
  Qed.
End Keep.
Lemma sentinel_ok {B : Build} {fixed K V cmp O} (T : VebType fixed K V cmp O) b (w : V) cs : shallow T = true -> bottom cmp b ->
  keeps cmp b cs [(b, w)] -> roomy cmp cs [(b, w)] -> exists ot, run O (Insert b w :: cs) None = Ret (ot, snd (sp_run cmp (Insert b w :: cs) [])).
Proof.
  intros Hs Hb Hk Hr.
  destruct (sorted_map (type_ord T) (type_laws T) (allowed_covered T _ (AL_shallow T Hs)) (Insert b w :: cs)) as [ot [E _]]; [|eauto].
  cbn [admissible sp_step fst sp_insert]. split; [split; [exact I|]|].
  - unfold usize_max, usize_bits. destruct ptr; reflexivity.
  - apply (kept_admissible (type_ord T) b Hb); auto. apply asc_cons. split; [apply asc_nil|intros q []].
Qed.

(** Deciding the conditions on concrete histories *)
Section Decide.
  Context {B : Build} {K V : Type} (cmp : K -> K -> comparison) (OL : OrdLaws cmp).
  Definition keeps_b (b : K) (cs : list (op K V)) l : bool :=
    forallb (fun n => existsb (fun k => match cmp k b with Eq => true | _ => false end) (keys (fst (sp_run cmp (firstn n cs) l)))) (seq 0 (S (length cs))).
  Definition roomy_b (cs : list (op K V)) l : bool :=
    forallb (fun n => (N.of_nat (length (fst (sp_run cmp (firstn n cs) l))) <? usize_max)%N) (seq 0 (S (length cs))).
  Lemma prefix_firstn {A} (a c : list A) : firstn (length a) (a ++ c) = a /\ In (length a) (seq 0 (S (length (a ++ c)))).
  Proof. split; [rewrite firstn_app, Nat.sub_diag, firstn_all, firstn_O, app_nil_r; reflexivity|]. apply in_seq. rewrite app_length. lia. Qed.
  Lemma keeps_b_ok b cs l : keeps_b b cs l = true -> keeps cmp b cs l.
  Proof.
    unfold keeps_b. intros H cs1 cs2 ->. destruct (prefix_firstn cs1 cs2) as [E Hi]. rewrite forallb_forall in H. specialize (H _ Hi). rewrite E in H.
    apply existsb_exists in H. destruct H as [k [Hk Hc]]. destruct (cmp k b) eqn:Ec; try discriminate Hc. apply (cmp_eq OL) in Ec. subst k. exact Hk.
  Qed.
  Lemma roomy_b_ok cs l : roomy_b cs l = true -> roomy cmp cs l.
  Proof.
    unfold roomy_b. intros H cs1 cs2 k v ->. destruct (prefix_firstn cs1 (Insert k v :: cs2)) as [E Hi]. rewrite forallb_forall in H.
    specialize (H _ Hi). rewrite E in H. apply N.ltb_lt. exact H.
  Qed.
End Decide.
