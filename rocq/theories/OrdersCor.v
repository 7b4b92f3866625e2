(** Which orders of insertion avoid the defect, and how many they are. *)
From Coq Require Import Factorial.
From Verif Require Import Base Spec Lists Ops Laws Tree TreeChildren Types TypesProofs Hist HistProofs HistCor IterProofs Fits FitsCor Orders.

(** ** All orders *)
Section Perms.
  Context {A : Type}.
  Fixpoint places (a : A) (p : list A) : list (list A) :=
    match p with
    | [] => [[a]]
    | x :: p' => (a :: p) :: map (cons x) (places a p')
    end.
  Fixpoint perms (l : list A) : list (list A) := match l with [] => [[]] | a :: l' => flat_map (places a) (perms l') end.

  Lemma in_places a p : forall q, In q (places a p) <-> exists p1 p2, p = p1 ++ p2 /\ q = p1 ++ a :: p2.
  Proof.
    induction p as [|x p IH]; intros q; cbn [places].
    - split.
      + intros [<-|[]]. exists [], []. auto.
      + intros [p1 [p2 [E ->]]]. destruct p1; [|discriminate E]. destruct p2; [|discriminate E]. left. reflexivity.
    - split.
      + intros [<-|H]; [exists [], (x :: p); auto|]. apply in_map_iff in H. destruct H as [q' [<- H]]. apply IH in H.
        destruct H as [p1 [p2 [-> ->]]]. exists (x :: p1), p2. auto.
      + intros [[|y p1] [p2 [E ->]]]; cbn in E.
        * subst p2. left. reflexivity.
        * injection E as <- ->. right. cbn. apply in_map. apply IH. eauto.
  Qed.
  Lemma places_perm a p q : In q (places a p) -> Permutation (a :: p) q.
  Proof. intros H. apply in_places in H. destruct H as [p1 [p2 [-> ->]]]. apply Permutation_middle. Qed.
  Lemma places_length a p : length (places a p) = S (length p).
  Proof. induction p as [|x p IH]; cbn; [reflexivity|]. rewrite map_length, IH. reflexivity. Qed.
  Lemma nodup_map_cons (x : A) ls : NoDup ls -> NoDup (map (cons x) ls).
  Proof.
    induction 1 as [|l ls H1 H2 IH]; cbn; constructor; auto. intros H. apply in_map_iff in H. destruct H as [l' [E H]]. injection E as ->. auto.
  Qed.
  Lemma places_nodup a p : ~ In a p -> NoDup (places a p).
  Proof.
    induction p as [|x p IH]; intros H; cbn; [repeat constructor; auto|]. constructor.
    - intros Hi. apply in_map_iff in Hi. destruct Hi as [q [E _]]. injection E as E _. apply H. left. exact E.
    - apply nodup_map_cons, IH. intros Hi. apply H. right. exact Hi.
  Qed.
  Lemma places_inj a : forall p p' q, ~ In a p -> ~ In a p' -> In q (places a p) -> In q (places a p') -> p = p'.
  Proof.
    induction p as [|x p IH]; intros p' q H H' Hq Hq'; apply in_places in Hq, Hq'; destruct Hq as [p1 [p2 [E ->]]], Hq' as [p1' [p2' [E' Eq]]].
    - destruct p1; [|discriminate E]. cbn in E. subst p2. destruct p1' as [|y p1']; cbn in *.
      + injection Eq as <-. auto.
      + injection Eq as _ Eq. destruct p1'; discriminate Eq.
    - destruct p1 as [|y p1]; cbn in E.
      + subst p2. destruct p1' as [|y p1']; cbn in *.
        * injection Eq as <-. auto.
        * injection Eq as E1 _. subst. exfalso. apply H'. left. reflexivity.
      + injection E as <- ->. destruct p1' as [|y p1']; cbn in *.
        * injection Eq as -> _. exfalso. apply H. left. reflexivity.
        * injection Eq as <- Eq. subst p'. f_equal. apply (IH (p1' ++ p2') (p1 ++ a :: p2)).
          -- intros Hi. apply H. right. exact Hi.
          -- intros Hi. apply H'. right. exact Hi.
          -- apply in_places. eauto.
          -- rewrite Eq. apply in_places. eauto.
  Qed.
  Lemma nodup_flat {X} (f : X -> list (list A)) ls : NoDup ls -> (forall x, In x ls -> NoDup (f x)) ->
    (forall x y q, In x ls -> In y ls -> In q (f x) -> In q (f y) -> x = y) -> NoDup (flat_map f ls).
  Proof.
    induction 1 as [|x ls H1 H2 IH]; intros Hf Hd; cbn; [constructor|]. apply NoDup_app_intro.
    - apply Hf. left. reflexivity.
    - apply IH; [intros; apply Hf; right; auto|]. intros; eapply Hd; eauto; right; auto.
    - intros q Hq Hi. apply in_flat_map in Hi. destruct Hi as [y [Hy Hq']].
      apply H1. rewrite (Hd x y q); auto; [left; reflexivity|right; exact Hy].
  Qed.
  Lemma in_perms l : forall p, In p (perms l) <-> Permutation l p.
  Proof.
    induction l as [|a l IH]; intros p; cbn [perms].
    - split; [intros [<-|[]]; constructor|]. intros H. apply Permutation_nil in H. left. auto.
    - rewrite in_flat_map. split.
      + intros [q [Hq Hp]]. apply IH in Hq. apply places_perm in Hp. rewrite Hq. exact Hp.
      + intros H. assert (Hi : In a p) by (apply (Permutation_in _ H); left; reflexivity). apply in_split in Hi. destruct Hi as [p1 [p2 ->]].
        exists (p1 ++ p2). split; [apply IH; apply (Permutation_cons_app_inv _ _ H)|apply in_places; eauto].
  Qed.
  Lemma perms_nodup l : NoDup l -> NoDup (perms l).
  Proof.
    induction 1 as [|a l Ha H IH]; cbn [perms]; [repeat constructor; auto|].
    assert (Hn : forall p, In p (perms l) -> ~ In a p) by (intros p Hp Hi; apply in_perms in Hp; apply Ha; apply (Permutation_in _ (Permutation_sym Hp)); exact Hi).
    apply nodup_flat; auto; [intros; apply places_nodup; auto|]. intros x y q Hx Hy. apply places_inj; auto.
  Qed.
  Lemma flat_length {X} (f : X -> list (list A)) n ls : (forall x, In x ls -> length (f x) = n) -> length (flat_map f ls) = n * length ls.
  Proof. induction ls as [|x ls IH]; intros H; cbn; [lia|]. rewrite app_length, H, IH by (intros; try apply H; cbn; auto). lia. Qed.
  Lemma perms_length l : length (perms l) = fact (length l).
  Proof.
    induction l as [|a l IH]; [reflexivity|]. cbn [perms length]. rewrite (flat_length _ (S (length l))); [rewrite IH; reflexivity|].
    intros p Hp. apply in_perms in Hp. rewrite places_length, (Permutation_length Hp). reflexivity.
  Qed.
  (** those with [m] first or second *)
  Definition early (m : A) (p : list A) : list (list A) := match p with [] => [[m]] | x :: r => [m :: p; x :: m :: r] end.
  Definition earlies (m : A) (l : list A) : list (list A) := flat_map (early m) (perms l).
  Lemma in_early m p q : In q (early m p) -> In q (places m p).
  Proof. destruct p as [|x r]; cbn; [auto|]. intros [H|[H|[]]]; auto. right. subst q. apply in_map. destruct r; cbn; auto. Qed.
  Lemma earlies_nodup m l : NoDup (m :: l) -> NoDup (earlies m l).
  Proof.
    intros H. assert (H1 : ~ In m l) by (inversion H; auto). assert (H2 : NoDup l) by (inversion H; auto).
    assert (Hn : forall p, In p (perms l) -> ~ In m p) by (intros p Hp Hi; apply in_perms in Hp; apply H1; apply (Permutation_in _ (Permutation_sym Hp)); exact Hi).
    apply nodup_flat; [apply perms_nodup; auto| |].
    - intros [|x r] Hp; cbn; repeat constructor; auto. intros [E|[]]. injection E as E. apply (Hn _ Hp). left. exact E.
    - intros p p' q Hp Hp' Hq Hq'. apply (places_inj m p p' q); auto; apply in_early; auto.
  Qed.
  Lemma earlies_length m l : l <> [] -> length (earlies m l) = 2 * fact (length l).
  Proof.
    intros H. unfold earlies. rewrite (flat_length _ 2), perms_length; [reflexivity|]. intros [|x r] Hp; [|reflexivity].
    apply in_perms in Hp. apply Permutation_sym, Permutation_nil in Hp. contradiction.
  Qed.
  Lemma in_earlies m l q : l <> [] -> In q (earlies m l) <-> Permutation (m :: l) q /\ In m (firstn 2 q).
  Proof.
    intros Hl. unfold earlies. rewrite in_flat_map. split.
    - intros [p [Hp Hq]]. split; [apply in_early, places_perm in Hq; apply in_perms in Hp; rewrite Hp; exact Hq|].
      destruct p as [|x r]; cbn in Hq; [destruct Hq as [<-|[]]; left; reflexivity|]. destruct Hq as [<-|[<-|[]]]; cbn; auto.
    - intros [HP Hi]. destruct q as [|x q]; [destruct Hi|]. destruct Hi as [->|Hi].
      + apply Permutation_cons_inv in HP. exists q. split; [apply in_perms; exact HP|]. destruct q; cbn; auto.
      + destruct q as [|y q]; [destruct Hi|]. destruct Hi as [->|[]].
        exists (x :: q). split; [|cbn; auto]. apply in_perms. apply (Permutation_cons_app_inv [x] q HP).
  Qed.
End Perms.

(** ** What an order does *)
Section Order.
  Context {B : Build} {K : Type} {cmp : K -> K -> comparison} (OL : OrdLaws cmp).
  (** each key from the third on has a smaller one before it *)
  Definition chained (ds ks : list K) : Prop := forall a k b, ks = a ++ k :: b -> 2 <= length (ds ++ a) -> exists x, In x (ds ++ a) /\ cmp x k = Lt.
  Lemma chained_cons ds k ks : chained ds (k :: ks) <-> (2 <= length ds -> exists x, In x ds /\ cmp x k = Lt) /\ chained (ds ++ [k]) ks.
  Proof.
    split.
    - intros H. split.
      + intros Hl. destruct (H [] k ks eq_refl) as [x Hx]; rewrite app_nil_r in *; eauto.
      + intros a k' b -> Hl. rewrite <- app_assoc in *. apply (H (k :: a) k' b); auto.
    - intros [H1 H2] [|k' a] k2 b E Hl; cbn in E.
      + injection E as <- _. rewrite app_nil_r in *. auto.
      + injection E as <- E. change (k :: a) with ([k] ++ a) in *. rewrite app_assoc in *. eauto.
  Qed.
  Lemma chained_early ks : chained [] ks <-> least_early cmp ks.
  Proof.
    split.
    - intros H. assert (G : forall n k, nth_error ks n = Some k -> 2 <= n -> exists x, In x (firstn 2 ks) /\ cmp x k = Lt).
      { intros n. induction n as [n IH] using (well_founded_induction lt_wf). intros k E Hn.
        destruct (nth_error_split ks n E) as [a [b [E1 E2]]]. destruct (H a k b E1) as [x [Hx Hl]]; [cbn; lia|]. cbn in Hx.
        apply In_nth_error in Hx. destruct Hx as [i Hi]. assert (Hi' : i < length a) by (apply nth_error_Some; congruence).
        assert (Ei : nth_error ks i = Some x) by (rewrite E1, nth_error_app1; auto).
        destruct (le_lt_dec 2 i) as [Hd|Hd].
        - destruct (IH i ltac:(lia) x Ei Hd) as [y [Hy Hyx]]. exists y. split; [exact Hy|]. exact (cmp_trans OL _ _ _ Hyx Hl).
        - exists x. split; [|exact Hl]. rewrite <- (firstn_skipn 2 ks) in Ei. rewrite nth_error_app1 in Ei; [apply nth_error_In in Ei; exact Ei|].
          rewrite firstn_length, E1, app_length. cbn [length]. lia. }
      intros k Hk. apply In_nth_error in Hk. destruct Hk as [n Hn]. apply (G (2 + n)); [|lia].
      rewrite <- (firstn_skipn 2 ks). destruct ks as [|a [|b ks]]; [destruct n; discriminate Hn|destruct n; discriminate Hn|]. exact Hn.
    - intros H a k b -> Hl. cbn in Hl |- *. destruct (H k) as [x [Hx Hc]].
      + destruct a as [|y [|z a]]; cbn in Hl; try lia. cbn. rewrite in_app_iff. right. left. reflexivity.
      + exists x. split; [|exact Hc]. destruct a as [|y [|z a]]; cbn in Hl; try lia. cbn in Hx. cbn. tauto.
  Qed.
  Context {V : Type} (v : K -> V).
  Lemma above_min_chained ks : forall l, ascending cmp l -> NoDup (keys l ++ ks) -> (N.of_nat (length l + length ks) <= usize_max)%N ->
    (admissible cmp (adm_above_min cmp) (inserts v ks) l <-> chained (keys l) ks).
  Proof.
    induction ks as [|k ks IH]; intros l Ha Hn Hl; [split; [intros _ a k b E; destruct a; discriminate E|intros _; exact I]|].
    cbn [inserts map admissible sp_step fst] in *. cbn [length] in Hl. rewrite chained_cons.
    assert (Hk : ~ In k (keys l)) by (apply NoDup_remove_2 in Hn; intros H; apply Hn; apply in_or_app; auto).
    assert (HP := sp_insert_perm_new OL k (v k) l Hk).
    assert (HK : Permutation (keys (sp_insert cmp k (v k) l)) (keys l ++ [k])).
    { unfold keys. rewrite (Permutation_map fst HP). cbn. apply Permutation_cons_append. }
    specialize (IH (sp_insert cmp k (v k) l) (sp_insert_asc OL k (v k) l Ha)).
    assert (E : chained (keys (sp_insert cmp k (v k) l)) ks <-> chained (keys l ++ [k]) ks).
    { assert (Q : forall d d', Permutation d d' -> chained d ks -> chained d' ks).
      { intros d d' Hd H a k' b E Hb. rewrite app_length, <- (Permutation_length Hd), <- app_length in Hb.
        destruct (H a k' b E Hb) as [x [Hx Hc]]. exists x. split; [|exact Hc]. rewrite in_app_iff in *. destruct Hx; [left; apply (Permutation_in _ Hd); auto|auto]. }
      split; apply Q; [exact HK|apply Permutation_sym; exact HK]. }
    rewrite <- E. rewrite IH.
    - assert (F : adm_above_min cmp l k <-> (2 <= length (keys l) -> exists x, In x (keys l) /\ cmp x k = Lt)).
      { unfold keys. rewrite map_length. destruct l as [|p [|q l]]; [split; [cbn; lia|intros _; exact I]|split; [cbn; lia|intros _; exact I]|]. cbn [adm_above_min].
        assert (Hne : forall x, In x (keys (p :: q :: l)) -> cmp x k <> Eq) by (intros x Hx Hc; apply (cmp_eq OL) in Hc; subst; auto).
        split.
        - intros H _. exists (fst p). split; [left; reflexivity|]. destruct (cmp (fst p) k) eqn:Ec; auto.
          + exfalso. apply (Hne (fst p)); [left; reflexivity|exact Ec].
          + exfalso. apply H. rewrite (cmp_opp OL (fst p) k), Ec. reflexivity.
        - intros H Hc. destruct H as [x [Hx Hxk]]; [cbn; lia|]. assert (Hpx := cmp_trans OL _ _ _ Hxk Hc).
          apply asc_cons in Ha. destruct Ha as [_ Ha]. destruct Hx as [<-|Hx]; [rewrite (proj2 (cmp_eq OL _ _) eq_refl) in Hpx; discriminate Hpx|].
          apply in_map_iff in Hx. destruct Hx as [r [<- Hr]]. specialize (Ha r Hr). rewrite (cmp_opp OL (fst p) (fst r)), Ha in Hpx. discriminate Hpx. }
      rewrite F. split; [tauto|]. intros [H1 H3]. split; [split; [exact H1|lia]|exact H3].
    - apply (Permutation_NoDup (l := keys l ++ k :: ks)); [|exact Hn]. rewrite HK, <- app_assoc. reflexivity.
    - rewrite (Permutation_length HP). cbn [length]. lia.
  Qed.
End Order.

Section OfType.
  Context {B : Build} {K V : Type} {cmp : K -> K -> comparison} {O : VebOps K V}.
  Lemma admissible_prefix (adm : list (K * V) -> K -> Prop) cs1 cs2 : forall l, admissible cmp adm (cs1 ++ cs2) l -> admissible cmp adm cs1 l.
  Proof. induction cs1 as [|c cs1 IH]; intros l; [intros _; exact I|]. cbn. intros [H1 H2]. split; auto. Qed.
  Lemma admissible_mono (adm adm' : list (K * V) -> K -> Prop) (OL : OrdLaws cmp) : (forall l k, ascending cmp l -> adm l k -> adm' l k) ->
    forall cs l, ascending cmp l -> admissible cmp adm cs l -> admissible cmp adm' cs l.
  Proof.
    intros H. induction cs as [|c cs IH]; intros l Ha; [auto|]. cbn. intros [H1 H2]. split; [destruct c; auto; destruct H1; auto|].
    apply IH; [|exact H2]. apply (sp_step_asc OL); auto.
  Qed.
  Lemma fits_sound {fixed} (T : VebType fixed K V cmp O) cs : admissible cmp (adm_fits T) cs [] -> sound cmp O cs.
  Proof.
    intros H cs1 cs2 c -> Hc. apply admissible_prefix in H.
    destruct (sorted_map (type_ord T) (type_laws T) (allowed_covered T _ (AL_fits T)) (cs1 ++ [c])) as [ot [E _]]; [|eauto].
    apply admissible_app; [exact H|]. cbn. destruct c as [k w| | | | | | | | | | | | | | | ]; auto. contradiction (Hc k w eq_refl).
  Qed.
End OfType.

Lemma fits_above {B : Build} {fixed K V cmp O} (T : VebType fixed K V cmp O) : fixed = false -> plain T = false ->
  forall (l : list (K * V)) k, fits T (keys l) k = true -> adm_above_min cmp l k.
Proof.
  intros Hf. induction T as [| | |K Hi Lo V ko KL S Tr C TS IHS TT IHT CT|K V cmp O T IH|K V cmp O T IH]; cbn [plain fits]; intros Hp l k H; try discriminate Hp; auto.
  destruct l as [|p [|q l]]; cbn [adm_above_min]; auto. subst fixed. revert H. unfold fits_tree. cbn [keys map ends].
  destruct (rev (fst q :: map fst l)) as [|b m] eqn:E.
  - apply (f_equal (@length _)) in E. rewrite rev_length in E. discriminate E.
  - intros H Hc. rewrite Hc in H. discriminate H.
Qed.

Lemma inserts_any {B : Build} {K V : Type} {cmp : K -> K -> comparison} (OL : OrdLaws cmp) (v : K -> V) ks : forall l : list (K * V), (N.of_nat (length l + length ks) <= usize_max)%N -> ascending cmp l -> admissible cmp adm_any (inserts v ks) l.
Proof.
  induction ks as [|k ks IH]; intros l Hl Ha; [exact I|]. cbn [inserts map admissible sp_step fst]. cbn [length] in Hl.
  split; [split; [exact I|lia]|]. apply IH; [|apply sp_insert_asc; auto].
  assert (H := sp_step_len OL (Insert k (v k)) l Ha). cbn [sp_step fst] in H. lia.
Qed.
Section Which.
  Context {B : Build} {K V : Type} {cmp : K -> K -> comparison} {O : VebOps K V} (T : VebType false K V cmp O) (v : K -> V).
  Lemma sound_early ks : plain T = false -> NoDup ks -> (N.of_nat (length ks) <= usize_max)%N -> sound cmp O (inserts v ks) -> least_early cmp ks.
  Proof.
    intros Hp Hn Hl H. apply (chained_early (type_ord T)). apply (above_min_chained (type_ord T) v ks []); cbn [keys map app length plus]; auto; [apply asc_nil|].
    apply (admissible_mono (adm_fits T) _ (type_ord T)); [intros l k _; apply (fits_above T eq_refl Hp)|apply asc_nil|].
    apply fits_exactly; [apply (inserts_any (type_ord T) v ks []); [exact Hl|apply asc_nil]|]. intros cs1 cs2 q E. exact (H cs1 cs2 (Succ q) E ltac:(discriminate)).
  Qed.
  Lemma early_sound ks : shallow T = true -> NoDup ks -> (N.of_nat (length ks) <= usize_max)%N -> least_early cmp ks -> sound cmp O (inserts v ks).
  Proof.
    intros Hs Hn Hl H. apply (fits_sound T). apply (admissible_mono (adm_above_min cmp) _ (type_ord T)); [intros l k _; apply (fits_shallow T); exact Hs|apply asc_nil|].
    apply (above_min_chained (type_ord T) v ks []); cbn [keys map app length plus]; auto; [apply asc_nil|]. apply (chained_early (type_ord T)). exact H.
  Qed.
  Lemma sound_iff ks : shallow T = true -> plain T = false -> NoDup ks -> (N.of_nat (length ks) <= usize_max)%N ->
    (sound cmp O (inserts v ks) <-> least_early cmp ks).
  Proof. intros. split; [apply sound_early|apply early_sound]; auto. Qed.
End Which.
Lemma sound_all {B : Build} {fixed K V cmp O} (T : VebType fixed K V cmp O) cs : plain T = true \/ fixed = true -> admissible cmp adm_any cs [] -> sound cmp O cs.
Proof.
  intros Hp H. apply (fits_sound T). revert H. apply (admissible_mono adm_any (adm_fits T) (type_ord T)); [|apply asc_nil].
  intros l k Ha _. exact (proj1 (fits_conditions T l k Ha) Hp).
Qed.

Lemma inserts_all {B : Build} {fixed K V cmp O} (T : VebType fixed K V cmp O) (v : K -> V) ks : plain T = true \/ fixed = true ->
  (N.of_nat (length ks) <= usize_max)%N -> sound cmp O (inserts v ks).
Proof. intros Hp Hl. apply (sound_all T); [exact Hp|]. apply (inserts_any (type_ord T) v ks []); [exact Hl|apply asc_nil]. Qed.

Section Least.
  Context {B : Build} {K : Type} {cmp : K -> K -> comparison} (OL : OrdLaws cmp).
  Lemma least_one ks : ks <> [] -> exists m, In m ks /\ forall x, In x ks -> x = m \/ cmp m x = Lt.
  Proof.
    induction ks as [|a ks IH]; intros H; [contradiction|]. destruct ks as [|b ks].
    - exists a. split; [left; reflexivity|]. intros x [<-|[]]. auto.
    - destruct IH as [m [Hm Hl]]; [discriminate|]. destruct (cmp a m) eqn:E.
      + apply (cmp_eq OL) in E. subst a. exists m. split; [left; reflexivity|]. intros x [<-|Hx]; auto.
      + exists a. split; [left; reflexivity|]. intros x [<-|Hx]; auto. right. destruct (Hl x Hx) as [->|Hx']; [exact E|exact (cmp_trans OL _ _ _ E Hx')].
      + exists m. split; [right; exact Hm|]. intros x [<-|Hx]; auto. right. rewrite (cmp_opp OL a m), E. reflexivity.
  Qed.
  Lemma lt_not x y : cmp x y = Lt -> cmp y x = Lt -> False.
  Proof. intros H1 H2. rewrite (cmp_opp OL x y), H1 in H2. discriminate H2. Qed.
  Lemma lt_self x : cmp x x = Lt -> False.
  Proof. intros H. exact (lt_not x x H H). Qed.
  Lemma early_least m q : NoDup q -> In m q -> (forall x, In x q -> x = m \/ cmp m x = Lt) -> (least_early cmp q <-> In m (firstn 2 q)).
  Proof.
    intros Hn Hm Hl. rewrite <- (firstn_skipn 2 q) in Hm. apply in_app_or in Hm. split.
    - intros H. destruct Hm as [Hm|Hm]; [exact Hm|]. destruct (H m Hm) as [x [Hx Hc]]. exfalso.
      destruct (Hl x) as [->|Hx']; [rewrite <- (firstn_skipn 2 q); apply in_or_app; auto|exact (lt_self _ Hc)|exact (lt_not _ _ Hc Hx')].
    - intros H k Hk. exists m. split; [exact H|]. destruct (Hl k) as [->|Hx]; auto; [rewrite <- (firstn_skipn 2 q); apply in_or_app; auto|].
      exfalso. rewrite <- (firstn_skipn 2 q) in Hn. apply in_split in Hk. destruct Hk as [a [b E]]. rewrite E in Hn. rewrite app_assoc in Hn.
      apply NoDup_remove_2 in Hn. apply Hn. apply in_or_app. left. apply in_or_app. auto.
  Qed.
  Lemma early_orders ks : NoDup ks -> 2 <= length ks ->
    exists ps gs, NoDup ps /\ NoDup gs /\ (forall p, In p ps <-> Permutation ks p) /\ (forall p, In p gs <-> Permutation ks p /\ least_early cmp p) /\
      length ps = fact (length ks) /\ length gs = 2 * fact (length ks - 1).
  Proof.
    intros Hn H2. destruct (least_one ks) as [m [Hm Hl]]; [intros ->; cbn in H2; lia|]. apply in_split in Hm. destruct Hm as [a [b E]].
    assert (HP : Permutation ks (m :: a ++ b)) by (rewrite E; apply Permutation_sym, Permutation_middle).
    assert (Hab : a ++ b <> []) by (intros F; apply Permutation_length in HP; rewrite F in HP; cbn in HP; lia).
    assert (HL := Permutation_length HP). cbn [length] in HL.
    exists (perms ks), (earlies m (a ++ b)). split; [|split; [|split; [|split; [|split]]]].
    - apply perms_nodup. exact Hn.
    - apply earlies_nodup. apply (Permutation_NoDup HP). exact Hn.
    - apply in_perms.
    - intros p. rewrite (in_earlies m (a ++ b) p Hab), <- HP. split; intros [H3 H4]; split; auto;
        (apply (early_least m p); [apply (Permutation_NoDup H3 Hn)|apply (Permutation_in _ H3); rewrite E; apply in_or_app; right; left; reflexivity|
          intros x Hx; apply Hl; apply (Permutation_in _ (Permutation_sym H3)); exact Hx|exact H4]).
    - apply perms_length.
    - rewrite (earlies_length m (a ++ b) Hab). f_equal. f_equal. lia.
  Qed.
End Least.

Section Count.
  Context {B : Build} {K V : Type} {cmp : K -> K -> comparison} {O : VebOps K V} (T : VebType false K V cmp O) (v : K -> V).
  Lemma orders_count ks : shallow T = true -> plain T = false -> NoDup ks -> 2 <= length ks -> (N.of_nat (length ks) <= usize_max)%N ->
    exists ps gs, NoDup ps /\ NoDup gs /\ (forall p, In p ps <-> Permutation ks p) /\ (forall p, In p gs <-> Permutation ks p /\ sound cmp O (inserts v p)) /\
      length ps = fact (length ks) /\ length gs = 2 * fact (length ks - 1).
  Proof.
    intros Hs Hp Hn H2 Hl. destruct (early_orders (type_ord T) ks Hn H2) as [ps [gs [H3 [H4 [H5 [H6 [H7 H8]]]]]]].
    exists ps, gs. split; [exact H3|]. split; [exact H4|]. split; [exact H5|]. split; [|split; assumption]. intros p. rewrite H6.
    split; intros [Q1 Q2]; split; auto; apply (sound_iff T v p); auto; try apply (Permutation_NoDup Q1 Hn); rewrite <- (Permutation_length Q1); exact Hl.
  Qed.
  Lemma orders_few ks gs : plain T = false -> NoDup ks -> 2 <= length ks -> (N.of_nat (length ks) <= usize_max)%N ->
    NoDup gs -> (forall p, In p gs -> Permutation ks p /\ sound cmp O (inserts v p)) -> length gs <= 2 * fact (length ks - 1).
  Proof.
    intros Hp Hn H2 Hl Hg Q. destruct (early_orders (type_ord T) ks Hn H2) as [ps [gs' [H3 [H4 [H5 [H6 [H7 H8]]]]]]].
    rewrite <- H8. apply NoDup_incl_length; [exact Hg|]. intros p Hi. destruct (Q p Hi) as [Q1 Q2]. apply H6. split; [exact Q1|].
    apply (sound_early T v p); auto; [apply (Permutation_NoDup Q1 Hn)|rewrite <- (Permutation_length Q1); exact Hl].
  Qed.
End Count.
