(** Every method counts itself: no call goes uncounted. *)
From Verif Require Import Base Ints Ops ByteSet ByteMap Coll Boxed BTree SizedT Tree Types Cost.
Open Scope N_scope.

Definition paid {A} (m : cres A) : Prop := forall a, outcome m = Ret a -> 1 <= calls m.
Lemma paid_pay {A} (m : res A) c s : 1 <= c -> paid (pay c s m).
Proof. intros H a _. unfold pay, tick; cbn [calls]. lia. Qed.
Lemma paid_tick {A} (m : cres A) : paid (tick m).
Proof. intros a _. unfold pay, tick; cbn [calls]. lia. Qed.
Lemma paid_bind {A B} (m : cres A) (f : A -> cres B) : paid m -> paid (cbind m f).
Proof. intros H b E. unfold cbind in *. destruct (outcome m) as [a|] eqn:Em; [|discriminate E]. cbn [calls]. specialize (H a Em). lia. Qed.
Lemma paid_then {A B} (m : cres A) (f : A -> cres B) : (forall a, paid (f a)) -> paid (cbind m f).
Proof. intros H b E. unfold cbind in *. destruct (outcome m) as [a|] eqn:Em; [|discriminate E]. cbn [calls outcome] in *. specialize (H a b E). lia. Qed.
Lemma paid_map {A B} (f : A -> B) (m : cres A) : paid m -> paid (cmap f m).
Proof. apply paid_bind. Qed.

Definition all_paid {K V} {O : VebOps K V} (CO : CVeb O) : Prop :=
  (forall k v, paid (cv_from_monad CO k v)) /\ (forall t, paid (cv_is_monad CO t)) /\ (forall t, paid (cv_into_monad CO t)) /\
  (forall t, paid (cv_min_val CO t)) /\ (forall t, paid (cv_min_val_mut CO t)) /\ (forall t, paid (cv_max_val CO t)) /\ (forall t, paid (cv_max_val_mut CO t)) /\
  (forall t k, paid (cv_find CO t k)) /\ (forall t k, paid (cv_find_mut CO t k)) /\
  (forall t k, paid (cv_predecessor CO t k)) /\ (forall t k, paid (cv_predecessor_mut CO t k)) /\
  (forall t k, paid (cv_successor CO t k)) /\ (forall t k, paid (cv_successor_mut CO t k)) /\
  (forall t k v, paid (cv_insert CO t k v)) /\ (forall t k, paid (cv_remove CO t k)) /\
  (forall t, paid (cv_remove_min CO t)) /\ (forall t, paid (cv_remove_max CO t)).
Definition coll_paid {Hi Lo V} {Tr : VebOps Lo V} {C : CollOps Hi Lo V Tr} (CC : CColl C) : Prop :=
  (forall h t, paid (cc_create CC h t)) /\ (forall c h, paid (cc_get CC c h)) /\ (forall c h, paid (cc_get_mut CC c h)) /\
  (forall c h lv, paid (cc_insert_key CC c h lv)) /\ (forall c h f, paid (cc_remove_key CC c h f)) /\ (forall c h f, paid (cc_maybe_remove_key CC c h f)).

Lemma type_paid {B : Build} {fixed K V cmp O} (T : VebType fixed K V cmp O) : all_paid (type_cost T).
Proof.
  induction T as [|V|K V cmp OL|K Hi Lo V ko KL S Tr C TS IHS TT IHT CT|K V cmp O T IH|K V cmp O T IH]; cbn [type_cost].
  1-3: repeat split; intros; apply paid_pay; lia.
  - repeat split; intros; ((apply paid_pay; lia) || apply paid_tick || (cbn [tree_cost cv_insert]; unfold ctr_insert; apply paid_tick)).
  - destruct IH as [? [? [? [? [? [? [? [? [? [? [? [? [? [? [? [? ?]]]]]]]]]]]]]]]].
    repeat split; intros; cbn [box_cost cv_from_monad cv_is_monad cv_into_monad cv_min_val cv_min_val_mut cv_max_val cv_max_val_mut cv_find cv_find_mut
      cv_predecessor cv_predecessor_mut cv_successor cv_successor_mut cv_insert cv_remove cv_remove_min cv_remove_max]; auto; try apply paid_map; auto; apply paid_bind; auto.
  - destruct IH as [? [? [? [? [? [? [? [? [? [? [? [? [? [? [? [? ?]]]]]]]]]]]]]]]].
    repeat split; intros; cbn [sized_cost cv_from_monad cv_is_monad cv_into_monad cv_min_val cv_min_val_mut cv_max_val cv_max_val_mut cv_find cv_find_mut
      cv_predecessor cv_predecessor_mut cv_successor cv_successor_mut cv_insert cv_remove cv_remove_min cv_remove_max]; auto; try (apply paid_map; auto; fail);
      try (apply paid_bind; auto; fail); unfold csz_insert, csz_remove, csz_remove_end; try (apply paid_bind; auto; fail); apply paid_then; intros; apply paid_bind; auto.
Qed.
Lemma colls_paid {B : Build} {Lo V} {Tr : VebOps Lo V} (CT : CVeb Tr) {Hi C} (X : CollType Tr Hi C) : coll_paid (coll_cost CT X).
Proof.
  induction X as [Hi ix L|Hi eq Heq| |Hi C X IH]; cbn [coll_cost].
  1-3: repeat split; intros; (apply paid_pay; lia) || apply paid_tick.
  destruct IH as [? [? [? [? [? ?]]]]]. repeat split; intros; cbn [boxcoll_cost cc_create cc_get cc_get_mut cc_insert_key cc_remove_key cc_maybe_remove_key]; auto;
    try (apply paid_map; auto; fail); apply paid_bind; auto.
Qed.
(** ... and what a part of a computation costs the whole costs *)
Lemma cost_adds {A B} (m : cres A) (f : A -> cres B) a : outcome m = Ret a ->
  calls (cbind m f) = calls m + calls (f a) /\ slots (cbind m f) = slots m + slots (f a) /\ outcome (cbind m f) = outcome (f a).
Proof. intros E. unfold cbind. rewrite E. auto. Qed.
(** The conditions [plain] and [shallow] of the theorems are conditions on the number of [Tree]s nested in each other. *)
Lemma plain_depth {B : Build} {fixed K V cmp O} (T : VebType fixed K V cmp O) : plain T = true <-> depth T = 0.
Proof.
  induction T as [|V|K V cmp OL|K Hi Lo V ko KL S Tr C TS IHS TT IHT CT|K V cmp O T IH|K V cmp O T IH]; cbn [plain depth]; try (split; auto; fail); auto.
  split; intros E; [discriminate E|lia].
Qed.
Lemma shallow_depth {B : Build} {fixed K V cmp O} (T : VebType fixed K V cmp O) : shallow T = true <-> depth T <= 1.
Proof.
  induction T as [|V|K V cmp OL|K Hi Lo V ko KL S Tr C TS IHS TT IHT CT|K V cmp O T IH|K V cmp O T IH]; cbn [shallow depth];
    try (split; intros; [lia|reflexivity]); auto.
  rewrite andb_true_iff, !plain_depth. lia.
Qed.
Lemma levels {B : Build} {fixed K V cmp O} (T : VebType fixed K V cmp O) : (plain T = true <-> depth T = 0) /\ (shallow T = true <-> depth T <= 1).
Proof. split; [apply plain_depth|apply shallow_depth]. Qed.
(** At the bottom [remove] counts itself and nothing else *)
Lemma bind_free {A B} (m : cres A) (f : A -> cres B) : (forall a, calls (f a) = 0) -> calls (cbind m f) = calls m.
Proof. intros H. unfold cbind. destruct (outcome m) as [a|]; cbn [calls]; [rewrite H; lia|reflexivity]. Qed.
Lemma bottom_remove {B : Build} {fixed K V cmp O} (T : VebType fixed K V cmp O) : depth T = 0 -> forall t k, calls (cv_remove (type_cost T) t k) = 1.
Proof.
  induction T as [|V|K V cmp OL|K Hi Lo V ko KL S Tr C TS IHS TT IHT CT|K V cmp O T IH|K V cmp O T IH]; cbn [depth type_cost]; intros Hd t k; try reflexivity.
  - exfalso. lia.
  - cbn [box_cost cv_remove]. rewrite bind_free; [apply IH; exact Hd|]. intros [p|t']; reflexivity.
  - cbn [sized_cost cv_remove]. unfold csz_remove. rewrite bind_free; [apply IH; exact Hd|]. intros [[[t'|] p]|t']; try reflexivity.
    rewrite bind_free; [reflexivity|]. intros n. rewrite bind_free; reflexivity.
Qed.
