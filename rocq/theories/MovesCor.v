(** The rebuildings inside a whole tree move at most [moves_each] pairs for each insertion.  A computation is given credit, one unit for each pair that
    it may move; what is not used is held by the trees, and pays for later rebuildings. *)
From Verif Require Import Base Ints Ops Spec ByteSet ByteMap Coll Boxed BTree SizedT Tree Laws Lists Hist Types Cost CostCor CostIter CostIterCor HashGen HashGenCor
  Probe ProbeCor Amort AmortCor Moves.
From Coq Require Import Lia Permutation.
Local Open Scope N_scope.

(** ** Credit *)
(** moves nothing, and the answer is so *)
Definition idle {A} (m : cres A) (Q : A -> Prop) : Prop := slots m = 0 /\ forall a, outcome m = Ret a -> Q a.
(** given [b], moves pairs for at most that, and what is left is enough for the answer *)
Definition paid {A} (m : cres A) (b : N) (R : A -> N -> Prop) : Prop :=
  slots m <= b /\ forall a, outcome m = Ret a -> exists q, R a q /\ slots m + q <= b.

Lemma idle_ret {A} (a : A) (Q : A -> Prop) : Q a -> idle (cret a) Q.
Proof. intros H. split; [reflexivity|]. intros a' E. injection E as <-. exact H. Qed.
Lemma idle_free {A} (m : res A) (Q : A -> Prop) : (forall a, m = Ret a -> Q a) -> idle (free m) Q.
Proof. intros H. split; [reflexivity|exact H]. Qed.
Lemma idle_pay {A} c (m : res A) (Q : A -> Prop) : (forall a, m = Ret a -> Q a) -> idle (pay c 0 m) Q.
Proof. intros H. split; [reflexivity|exact H]. Qed.
Lemma idle_bind {A B} (m : cres A) (f : A -> cres B) Q Q' : idle m Q -> (forall a, Q a -> idle (f a) Q') -> idle (cbind m f) Q'.
Proof.
  intros [H1 H2] H. unfold idle, cbind. destruct (outcome m) as [a|] eqn:E; cbn [slots outcome]; [|split; [lia|discriminate]].
  destruct (H a (H2 a eq_refl)) as [H3 H4]. split; [lia|exact H4].
Qed.
Lemma idle_tick {A} (m : cres A) Q : idle m Q -> idle (tick m) Q.
Proof. intros H. exact H. Qed.
Lemma idle_weak {A} (m : cres A) (Q Q' : A -> Prop) : idle m Q -> (forall a, Q a -> Q' a) -> idle m Q'.
Proof. intros [H1 H2] H. split; auto. Qed.

Lemma paid_ret {A} (a : A) b (R : A -> N -> Prop) : R a b -> paid (cret a) b R.
Proof. intros H. split; [cbn; lia|]. intros a' E. injection E as <-. exists b. split; [exact H|cbn; lia]. Qed.
Lemma paid_panic {A} b (R : A -> N -> Prop) : paid cpanic b R.
Proof. split; [cbn; lia|discriminate]. Qed.
Lemma paid_idle {A} (m : cres A) Q b (R : A -> N -> Prop) : idle m Q -> (forall a, Q a -> R a b) -> paid m b R.
Proof. intros [H1 H2] H. split; [lia|]. intros a E. exists b. split; [auto|lia]. Qed.
Lemma paid_bind {A B} (m : cres A) (f : A -> cres B) b R R' : paid m b R -> (forall a p, R a p -> paid (f a) p R') -> paid (cbind m f) b R'.
Proof.
  intros [H1 H2] H. unfold paid, cbind. destruct (outcome m) as [a|] eqn:E; cbn [slots outcome]; [|split; [exact H1|discriminate]].
  destruct (H2 a eq_refl) as [p [H3 H4]]. destruct (H a p H3) as [H5 H6]. split; [lia|]. intros c Ec. destruct (H6 c Ec) as [q [H7 H8]]. exists q. split; [exact H7|lia].
Qed.
Lemma paid_tick {A} (m : cres A) b R : paid m b R -> paid (tick m) b R.
Proof. intros H. exact H. Qed.
Lemma paid_weak {A} (m : cres A) b b' (R R' : A -> N -> Prop) : paid m b R -> b <= b' -> (forall a q, R a q -> R' a q) -> paid m b' R'.
Proof. intros [H1 H2] H H'. split; [lia|]. intros a E. destruct (H2 a E) as [q [H3 H4]]. exists q. split; [auto|lia]. Qed.
Lemma paid_frame {A} (m : cres A) b c (R : A -> N -> Prop) : paid m b R -> paid m (b + c) (fun a q => exists q', q = q' + c /\ R a q').
Proof. intros [H1 H2]. split; [lia|]. intros a E. destruct (H2 a E) as [q [H3 H4]]. exists (q + c). split; [eauto|lia]. Qed.

(** ** What a tree type must do *)
Definition opt {A} (W : A -> N -> Prop) (o : option A) (p : N) : Prop := match o with Some t => W t p | None => True end.
Definition writes {K V T} (W : T -> N -> Prop) (p : N) (x : K * V * (V -> T)) : Prop := forall v, W (snd x v) p.
Definition owrites {K V T} (W : T -> N -> Prop) (p : N) (o : option (K * V * (V -> T))) : Prop := match o with Some x => writes W p x | None => True end.
Definition left_over {T K V} (W : T -> N -> Prop) (r : result (option T * (K * V)) T) (p : N) : Prop :=
  match r with Ok x => opt W (fst x) p | Err t => W t p end.
Definition left_err {P T} (W : T -> N -> Prop) (p : N) (r : result P T) : Prop := match r with Ok _ => True | Err t => W t p end.
Record saves {K V} {O : VebOps K V} (CO : CVeb O) (W : vt O -> N -> Prop) (a : N) : Prop := {
  sv_mono : forall t p q, W t p -> p <= q -> W t q;
  sv_from_monad : forall k v, idle (cv_from_monad CO k v) (fun t => W t 0);
  sv_is_monad : forall t, idle (cv_is_monad CO t) (fun _ => True);
  sv_into_monad : forall t p, W t p -> idle (cv_into_monad CO t) (left_err W p);
  sv_min_val : forall t, idle (cv_min_val CO t) (fun _ => True);
  sv_min_val_mut : forall t p, W t p -> idle (cv_min_val_mut CO t) (writes W p);
  sv_max_val : forall t, idle (cv_max_val CO t) (fun _ => True);
  sv_max_val_mut : forall t p, W t p -> idle (cv_max_val_mut CO t) (writes W p);
  sv_find : forall t k, idle (cv_find CO t k) (fun _ => True);
  sv_find_mut : forall t k p, W t p -> idle (cv_find_mut CO t k) (owrites W p);
  sv_predecessor : forall t k, idle (cv_predecessor CO t k) (fun _ => True);
  sv_predecessor_mut : forall t k p, W t p -> idle (cv_predecessor_mut CO t k) (owrites W p);
  sv_successor : forall t k, idle (cv_successor CO t k) (fun _ => True);
  sv_successor_mut : forall t k p, W t p -> idle (cv_successor_mut CO t k) (owrites W p);
  sv_insert : forall t k v p, W t p -> paid (cv_insert CO t k v) (p + a) (fun x => W (fst x));
  sv_remove : forall t k p, W t p -> paid (cv_remove CO t k) p (left_over W);
  sv_remove_min : forall t p, W t p -> paid (cv_remove_min CO t) p (fun x => opt W (fst x));
  sv_remove_max : forall t p, W t p -> paid (cv_remove_max CO t) p (fun x => opt W (fst x)) }.
(** ... and a collection: a new child costs [e], and leaves [s] for the summary *)
Definition keeps {P T C} (W : T -> N -> Prop) (WC : C -> N -> Prop) (o : option (T * (T -> C)) * P) (p : N) : Prop :=
  match fst o with None => True | Some (t, put) => exists pt pr, pt + pr <= p /\ W t pt /\ forall t' p', W t' p' -> WC (put t') (p' + pr) end.
Record csaves {Hi Lo V} {Tr : VebOps Lo V} {C : CollOps Hi Lo V Tr} (CC : CColl C) (W : vt Tr -> N -> Prop) (WC : ct C -> N -> Prop) (a e : N) : Prop := {
  sc_mono : forall c p q, WC c p -> p <= q -> WC c q;
  sc_create : forall h t p, W t p -> paid (cc_create CC h t) (p + e) WC;
  sc_get : forall c h, idle (cc_get CC c h) (fun _ => True);
  sc_get_mut : forall c h p, WC c p -> idle (cc_get_mut CC c h) (fun o => keeps W WC (o, tt) p);
  sc_insert_key : forall c h lv p s, WC c p -> paid (cc_insert_key CC c h lv) (p + N.max a (e + s))
    (fun x q => match snd x with Ok _ => exists q', q = q' + s /\ WC (fst x) q' | Err _ => WC (fst x) q end);
  sc_remove_key : forall c h f p, WC c p -> (forall t p, W t p -> paid (f t) p (fun x => opt W (fst x))) ->
    paid (cc_remove_key CC c h f) p (fun x => opt (fun y => WC (fst y)) (fst x));
  sc_maybe_remove_key : forall c h f p, WC c p -> (forall t p, W t p -> paid (f t) p (left_over W)) ->
    paid (cc_maybe_remove_key CC c h f) p (fun r q => match r with Ok x => opt (fun y => WC (fst y)) (fst x) q | Err c => WC c q end) }.

Lemma leaf_saves {K V} (O : VebOps K V) : saves (leaf_cost O) (fun _ _ => True) 0.
Proof.
  split; intros; cbn [leaf_cost cv_from_monad cv_is_monad cv_into_monad cv_min_val cv_min_val_mut cv_max_val cv_max_val_mut cv_find cv_find_mut
    cv_predecessor cv_predecessor_mut cv_successor cv_successor_mut cv_insert cv_remove cv_remove_min cv_remove_max]; auto;
    try (apply idle_pay; intros a _); try (eapply paid_idle; [apply (idle_pay _ _ (fun _ => True)); auto|intros a _]); auto.
  - destruct a; cbn; auto.
  - intros v. exact I.
  - intros v. exact I.
  - destruct a as [x|]; cbn; auto. intros v. exact I.
  - destruct a as [x|]; cbn; auto. intros v. exact I.
  - destruct a as [x|]; cbn; auto. intros v. exact I.
  - destruct a as [[[t'|] x]|]; cbn; auto.
  - destruct a as [[t'|] x]; cbn; auto.
  - destruct a as [[t'|] x]; cbn; auto.
Qed.

(** case analysis down to the calls *)
Ltac step := match goal with
  | |- idle (tick _) _ => apply idle_tick
  | |- paid (tick _) _ _ => apply paid_tick
  | |- idle (cret _) _ => apply idle_ret
  | |- idle cpanic _ => apply idle_free; discriminate
  | |- paid cpanic _ _ => apply paid_panic
  | |- idle (cmap _ _) _ => unfold cmap
  | |- paid (cmap _ _) _ _ => unfold cmap
  end.

Section Wrap.
  Context {K V : Type} {O : VebOps K V} (CO : CVeb O) (W : vt O -> N -> Prop) (a : N) (H : saves CO W a).
  Lemma box_saves : saves (box_cost CO) (fun t => W (unbox t)) a.
  Proof.
    destruct H. split; intros; cbn [box_cost cv_from_monad cv_is_monad cv_into_monad cv_min_val cv_min_val_mut cv_max_val cv_max_val_mut cv_find cv_find_mut
      cv_predecessor cv_predecessor_mut cv_successor cv_successor_mut cv_insert cv_remove cv_remove_min cv_remove_max]; eauto.
    - step. eapply idle_bind; [eauto|]. intros t Ht. step. exact Ht.
    - eapply idle_bind; [eauto|]. intros [x|t'] Ht; step; exact Ht.
    - step. eapply idle_bind; [eauto|]. intros [[k v] put] Ht. step. exact Ht.
    - step. eapply idle_bind; [eauto|]. intros [[k v] put] Ht. step. exact Ht.
    - step. eapply idle_bind; [eauto|]. intros [[[k' v] put]|] Ht; step; exact Ht.
    - step. eapply idle_bind; [eauto|]. intros [[[k' v] put]|] Ht; step; exact Ht.
    - step. eapply idle_bind; [eauto|]. intros [[[k' v] put]|] Ht; step; exact Ht.
    - eapply paid_bind; [eauto|]. intros [t' r] q Ht. apply paid_ret. exact Ht.
    - eapply paid_bind; [eauto|]. intros [[[t'|] x]|t'] q Ht; apply paid_ret; exact Ht.
    - step. eapply paid_bind; [eauto|]. intros [[t'|] x] q Ht; apply paid_ret; exact Ht.
    - step. eapply paid_bind; [eauto|]. intros [[t'|] x] q Ht; apply paid_ret; exact Ht.
  Qed.
  Lemma paid_free {A B} (m : res A) (f : A -> cres B) b R : (forall x, paid (f x) b R) -> paid (cbind (free m) f) b R.
  Proof. intros G. eapply paid_bind; [apply (paid_idle _ (fun _ => True) b (fun _ q => q = b)); [apply idle_free; auto|auto]|]. intros x p ->. apply G. Qed.
  Lemma idle_frees {A B} (m : res A) (f : A -> cres B) Q : (forall x, idle (f x) Q) -> idle (cbind (free m) f) Q.
  Proof. intros G. eapply (idle_bind _ _ (fun _ => True)); [apply idle_free; auto|]. auto. Qed.
  Context {Bd : Build}.
  Lemma sized_saves : saves (sized_cost CO) (fun t => W (sz_tree t)) a.
  Proof.
    destruct H. split; intros; cbn [sized_cost cv_from_monad cv_is_monad cv_into_monad cv_min_val cv_min_val_mut cv_max_val cv_max_val_mut cv_find cv_find_mut
      cv_predecessor cv_predecessor_mut cv_successor cv_successor_mut cv_insert cv_remove cv_remove_min cv_remove_max]; eauto.
    - step. eapply idle_bind; [eauto|]. intros t Ht. step. exact Ht.
    - eapply idle_bind; [eauto|]. intros [|] _; [apply idle_frees; intros _|]; step; exact I.
    - eapply idle_bind; [eauto|]. intros [x|t'] Ht; step; exact Ht.
    - step. eapply idle_bind; [eauto|]. intros [[k v] put] Ht. step. exact Ht.
    - step. eapply idle_bind; [eauto|]. intros [[k v] put] Ht. step. exact Ht.
    - step. eapply idle_bind; [eauto|]. intros [[[k' v] put]|] Ht; step; exact Ht.
    - step. eapply idle_bind; [eauto|]. intros [[[k' v] put]|] Ht; step; exact Ht.
    - step. eapply idle_bind; [eauto|]. intros [[[k' v] put]|] Ht; step; exact Ht.
    - unfold csz_insert. eapply paid_bind; [eauto|]. intros [t' [r|]] q Ht; [|apply paid_free; intros n]; apply paid_ret; exact Ht.
    - unfold csz_remove. eapply paid_bind; [eauto|]. intros [[[t'|] x]|t'] q Ht; try (apply paid_ret; exact Ht).
      apply paid_free; intros n. apply paid_free; intros n'. apply paid_ret. exact Ht.
    - unfold csz_remove_end. apply paid_free; intros n. eapply paid_bind; [eauto|]. intros [[t'|] x] q Ht; [apply paid_free; intros n'|]; apply paid_ret; exact Ht.
    - unfold csz_remove_end. apply paid_free; intros n. eapply paid_bind; [eauto|]. intros [[t'|] x] q Ht; [apply paid_free; intros n'|]; apply paid_ret; exact Ht.
  Qed.
End Wrap.

Lemma boxcoll_saves {Hi Lo V} {Tr : VebOps Lo V} {C : CollOps Hi Lo V Tr} (CC : CColl C) W WC a e :
  csaves CC W WC a e -> csaves (boxcoll_cost CC) W (fun c => WC (unbox c)) a e.
Proof.
  intros []. split; intros; cbn [boxcoll_cost cc_create cc_get cc_get_mut cc_insert_key cc_remove_key cc_maybe_remove_key]; eauto.
  - step. eapply paid_bind; [eauto|]. intros c q Hc. apply paid_ret. exact Hc.
  - step. eapply idle_bind; [eauto|]. intros [[t put]|] Hc; step; exact Hc.
  - eapply paid_bind; [eauto|]. intros [c' [r|r]] q Hc; apply paid_ret; exact Hc.
  - step. eapply paid_bind; [eauto|]. intros [[[c' b]|] x] q Hc; apply paid_ret; exact Hc.
  - eapply paid_bind; [eauto|]. intros [[[[c' b]|] x]|c'] q Hc; apply paid_ret; exact Hc.
Qed.

(** ** Trees *)
Section TreeSaves.
  Context {Bd : Build} (fixed : bool) {K Hi Lo V : Type} (ko : KeyOps K Hi Lo) {S : VebOps Hi unit} {Tr : VebOps Lo V} {C : CollOps Hi Lo V Tr}
    (CS : CVeb S) (CT : CVeb Tr) (CC : CColl C) (WS : vt S -> N -> Prop) (W : vt Tr -> N -> Prop) (WC : ct C -> N -> Prop) (s a e : N)
    (HS : saves CS WS s) (HT : saves CT W a) (HC : csaves CC W WC a e).
  Notation T := (@Tree K Hi Lo V S Tr C).
  Definition ch_worth (och : option (vt S * ct C)) (p : N) : Prop :=
    match och with Some (sm, ch) => exists ps pc, ps + pc <= p /\ WS sm ps /\ WC ch pc | None => True end.
  Definition tr_worth (t : T) (p : N) : Prop := match t_data t with Some d => ch_worth (d_children d) p | None => True end.
  Lemma ch_mono och p q : ch_worth och p -> p <= q -> ch_worth och q.
  Proof. destruct och as [[sm ch]|]; cbn; auto. intros [ps [pc [H1 H2]]] H. exists ps, pc. split; [lia|exact H2]. Qed.
  Lemma put_child_worth (t : T) d sm pt pr ps p putv put : ps + (pt + pr) <= p -> WS sm ps -> (forall v, W (putv v) pt) ->
    (forall t' p', W t' p' -> WC (put t') (p' + pr)) -> forall v, tr_worth (put_child S Tr C t d sm put putv v) p.
  Proof. intros H1 H2 H3 H4 v. exists ps, (pt + pr). auto. Qed.
  Lemma child_end_idle ch hi ext : (forall t, idle (ext t) (fun _ => True)) -> idle (cchild_end ko CC ch hi ext) (fun _ => True).
  Proof.
    intros H. unfold cchild_end. eapply idle_bind; [apply (sc_get _ _ _ _ _ HC)|]. intros oc _. apply idle_frees. intros c. eapply idle_bind; [apply H|].
    intros [lo v] _. step. exact I.
  Qed.
  Lemma child_end_mut_idle (t : T) d sm ch hi ext p ps pc : ps + pc <= p -> WS sm ps -> WC ch pc ->
    (forall t p, W t p -> idle (ext t) (writes W p)) -> idle (cchild_end_mut ko CC t d sm ch hi ext) (owrites tr_worth p).
  Proof.
    intros H1 H2 H3 H. unfold cchild_end_mut. eapply idle_bind; [apply (sc_get_mut _ _ _ _ _ HC _ _ _ H3)|]. intros [[c put]|] Ho; cbn in Ho.
    2:{ eapply (idle_bind _ _ (fun _ => False)); [apply idle_free; discriminate|intros _ []]. }
    destruct Ho as [pt [pr [Q1 [Q2 Q3]]]]. eapply idle_bind; [apply (idle_free _ (fun x => x = (c, put))); cbn; congruence|]. intros x ->.
    eapply idle_bind; [apply (H _ _ Q2)|]. intros [[lo v] putv] Hw. step. cbn. intros v'. apply (put_child_worth t d sm pt pr ps p putv put); auto; lia.
  Qed.
  Lemma push_paid mn mx och k v p b : ch_worth och p -> p + N.max a (e + s) <= b -> paid (ctr_push ko CS CT CC mn mx och k v) b (fun x => tr_worth (fst x)).
  Proof.
    intros H Hb. apply (paid_weak _ (p + N.max a (e + s)) _ (fun x => tr_worth (fst x))); auto. clear b Hb. unfold ctr_push.
    destruct (k_split_val ko k) as [hi lo]. destruct och as [[sm ch]|].
    - destruct H as [ps [pc [H1 [H2 H3]]]].
      apply (paid_weak _ (pc + N.max a (e + s) + ps) _ (fun x => tr_worth (fst x))); [|lia|auto].
      eapply paid_bind; [apply paid_frame, (sc_insert_key _ _ _ _ _ HC _ hi (lo, v) _ s H3)|]. cbn beta. intros [ch' r] q [q1 [-> Hr]]. cbn [fst snd] in Hr.
      destruct r as [hi'|[hi' [[lo' v']|]]].
      + destruct Hr as [q' [-> Hr]]. apply (paid_weak _ (ps + s + q') _ (fun x => tr_worth (fst x))); [|lia|auto].
        eapply paid_bind; [apply paid_frame, (sv_insert _ _ _ HS _ hi' tt _ H2)|]. cbn beta. intros [sm' x] q2 [q3 [-> Hs]]. apply paid_ret.
        exists q3, q'. cbn in Hs. split; [lia|auto].
      + apply paid_ret. exists ps, q1. split; [lia|auto].
      + apply paid_ret. exists ps, q1. split; [lia|auto].
    - eapply paid_bind; [eapply (paid_idle _ _ _ (fun t q => W t 0 /\ q = p + N.max a (e + s))); [apply (sv_from_monad _ _ _ HT)|auto]|].
      cbn beta. intros t0 q [H0 ->]. apply (paid_weak _ (0 + e) _ (fun x => tr_worth (fst x))); [|lia|auto].
      eapply paid_bind; [apply (sc_create _ _ _ _ _ HC hi _ _ H0)|]. intros ch q Hc.
      eapply paid_bind; [eapply (paid_idle _ _ _ (fun t q' => WS t 0 /\ q' = q)); [apply (sv_from_monad _ _ _ HS)|auto]|].
      cbn beta. intros sm q' [Hs ->]. apply paid_ret. exists 0, q. split; [lia|auto].
  Qed.
  Lemma insert_paid (t : T) k v p : tr_worth t p -> paid (ctr_insert fixed ko CS CT CC t k v) (p + N.max a (e + s)) (fun x => tr_worth (fst x)).
  Proof.
    intros H. unfold ctr_insert. step. destruct t as [mn od]. unfold tr_worth in H. cbn [t_data t_min] in *.
    destruct (k_cmp ko k (fst mn)), od as [d|]; try (apply paid_ret; cbn; exact I).
    - apply paid_ret. apply (ch_mono _ p); [exact H|lia].
    - destruct mn as [k1 v1]. destruct (k_cmp ko (fst (d_max d)) k1).
      + apply paid_ret. apply (ch_mono _ p); [exact H|lia].
      + eapply push_paid; eauto. lia.
      + destruct fixed; eapply push_paid; eauto; lia.
    - destruct (k_cmp ko k (fst (d_max d))).
      + apply paid_ret. apply (ch_mono _ p); [exact H|lia].
      + eapply push_paid; eauto. lia.
      + eapply push_paid; eauto. lia.
  Qed.
  Lemma after_paid sm r rm ps q : WS sm ps -> opt (fun y => WC (fst y)) r q -> (forall t p, WS t p -> paid (rm t) p (fun x => opt WS (fst x))) ->
    paid (cafter_end (C := C) sm r rm) (q + ps) ch_worth.
  Proof.
    intros H1 H2 H. unfold cafter_end. destruct r as [[ch [|]]|]; cbn in H2.
    - apply (paid_weak _ (ps + q) _ ch_worth); [|lia|auto]. eapply paid_bind; [apply paid_frame, (H _ _ H1)|]. cbn beta.
      intros [[sm'|] x] q2 [q3 [-> Hs]]; cbn in Hs.
      + eapply paid_bind; [eapply (paid_idle _ (fun y => y = sm') _ (fun y q' => y = sm' /\ q' = q3 + q)); [apply idle_free; cbn; congruence|auto]|].
        cbn beta. intros y q' [-> ->]. apply paid_ret. exists q3, q. split; [lia|auto].
      + split; cbn; [lia|discriminate].
    - apply paid_ret. exists ps, q. split; [lia|auto].
    - apply paid_ret. exact I.
  Qed.
  Lemma take_paid {A} sm ch hi rmT rmS ps pc p (fin : Lo -> V -> option (vt S * ct C) -> A) (R : A -> N -> Prop) : ps + pc <= p -> WS sm ps -> WC ch pc ->
    (forall t p, W t p -> paid (rmT t) p (fun x => opt W (fst x))) -> (forall t p, WS t p -> paid (rmS t) p (fun x => opt WS (fst x))) ->
    (forall lo v och q, ch_worth och q -> R (fin lo v och) q) ->
    paid (' (r, (lo, val)) <~ cc_remove_key CC ch hi rmT ;; ch' <~ cafter_end (C := C) sm r rmS ;; cret (fin lo val ch')) p R.
  Proof.
    intros H1 H2 H3 HT' HS' H. apply (paid_weak _ (pc + ps) _ R); [|lia|auto].
    eapply paid_bind; [apply paid_frame, (sc_remove_key _ _ _ _ _ HC _ hi _ _ H3 HT')|]. cbn beta. intros [r [lo v]] q [q1 [-> Hr]]. cbn [fst] in Hr.
    eapply paid_bind; [apply (after_paid _ _ _ _ _ H2 Hr HS')|]. intros och q2 Ho. apply paid_ret. auto.
  Qed.
  Lemma ask {A B} (m : cres A) (f : A -> cres B) p R : idle m (fun _ => True) -> (forall x, paid (f x) p R) -> paid (cbind m f) p R.
  Proof. intros H G. eapply paid_bind; [apply (paid_idle _ _ p (fun _ q => q = p) H); auto|]. intros x q ->. apply G. Qed.
  Lemma remove_min_paid (t : T) p : tr_worth t p -> paid (ctr_remove_min ko CS CT CC t) p (fun x => opt tr_worth (fst x)).
  Proof.
    intros H. unfold ctr_remove_min. step. destruct t as [mn [d|]]; unfold tr_worth in H; cbn [t_data t_min] in *; [|apply paid_ret; exact I].
    destruct (d_children d) as [[sm ch]|]; [|apply paid_ret; exact I]. destruct H as [ps [pc [H1 [H2 H3]]]].
    apply ask; [apply (sv_min_val _ _ _ HS)|]. intros [hi x].
    apply (take_paid sm ch hi _ _ ps pc p (fun lo val ch => (Some (TR (k_join ko hi lo, val) (Some (TD (d_max d) ch))), mn))); auto.
    - apply (sv_remove_min _ _ _ HT).
    - apply (sv_remove_min _ _ _ HS).
  Qed.
  Lemma remove_max_paid (t : T) p : tr_worth t p -> paid (ctr_remove_max ko CS CT CC t) p (fun x => opt tr_worth (fst x)).
  Proof.
    intros H. unfold ctr_remove_max. step. destruct t as [mn [d|]]; unfold tr_worth in H; cbn [t_data t_min] in *; [|apply paid_ret; exact I].
    destruct (d_children d) as [[sm ch]|]; [|apply paid_ret; exact I]. destruct H as [ps [pc [H1 [H2 H3]]]].
    apply ask; [apply (sv_max_val _ _ _ HS)|]. intros [hi x].
    apply (take_paid sm ch hi _ _ ps pc p (fun lo val ch => (Some (TR mn (Some (TD (k_join ko hi lo, val) ch))), d_max d))); auto.
    - apply (sv_remove_max _ _ _ HT).
    - apply (sv_remove_max _ _ _ HS).
  Qed.
  Lemma remove_paid (t : T) k p : tr_worth t p -> paid (ctr_remove ko CS CT CC t k) p (left_over tr_worth).
  Proof.
    intros H. unfold ctr_remove. step. destruct (eqb (k_cmp ko) k (fst (t_min t))).
    - eapply paid_bind; [apply (remove_min_paid t p H)|]. intros r q Hr. apply paid_ret. exact Hr.
    - destruct t as [mn [d|]]; unfold tr_worth in H; cbn [t_data t_min] in *; [|apply paid_ret; exact I].
      destruct (d_children d) as [[sm ch]|] eqn:Ed.
      + destruct H as [ps [pc [H1 [H2 H3]]]]. destruct (eqb (k_cmp ko) k (fst (d_max d))).
        * apply ask; [apply (sv_max_val _ _ _ HS)|]. intros [hi x].
          apply (take_paid sm ch hi _ _ ps pc p (fun lo val ch => Ok (Some (TR mn (Some (TD (k_join ko hi lo, val) ch))), d_max d))); auto.
          -- apply (sv_remove_max _ _ _ HT).
          -- apply (sv_remove_max _ _ _ HS).
        * destruct (k_split_ref ko k) as [hi lo]. apply (paid_weak _ (pc + ps) _ (left_over tr_worth)); [|lia|auto].
          eapply paid_bind; [apply paid_frame, (sc_maybe_remove_key _ _ _ _ _ HC _ hi _ _ H3 (fun c q Hq => sv_remove _ _ _ HT c lo q Hq))|].
          cbn beta. intros r q [q1 [-> Hr]]. destruct r as [[[[ch' [|]]|] [lo' v']]|ch']; cbn in Hr.
          -- apply (paid_weak _ (ps + q1) _ (left_over tr_worth)); [|lia|auto].
             eapply paid_bind; [apply paid_frame, (sv_remove _ _ _ HS _ hi _ H2)|]. cbn beta. intros [[[sm'|] x]|sm'] q2 [q3 [-> Hs]]; cbn in Hs.
             ++ split; cbn; [lia|]. intros z E. injection E as <-. exists (q3 + q1). split; [|lia]. exists q3, q1. split; [lia|auto].
             ++ split; cbn; [lia|discriminate].
             ++ split; cbn; [lia|discriminate].
          -- apply paid_ret. exists ps, q1. split; [lia|auto].
          -- apply paid_ret. exact I.
          -- apply paid_ret. exists ps, q1. split; [lia|auto].
      + destruct (eqb (k_cmp ko) (fst (d_max d)) k); apply paid_ret; [exact I|]. cbn. unfold tr_worth. cbn. rewrite Ed. exact I.
  Qed.
  Lemma min_mut_worth (t : T) p : tr_worth t p -> forall v, tr_worth (put_min S Tr C t v) p.
  Proof. intros H v. exact H. Qed.
  Lemma max_mut_worth (t : T) d p : tr_worth t p -> t_data t = Some d -> forall v, tr_worth (put_max S Tr C t d v) p.
  Proof. intros H E v. unfold tr_worth in *. rewrite E in H. exact H. Qed.
  Ltac quiet := repeat match goal with
    | |- idle (tick _) _ => apply idle_tick
    | |- idle (cret _) _ => apply idle_ret; exact I
    | |- idle (cchild_end _ _ _ _ _) _ => apply child_end_idle
    | |- idle (cbind _ _) (fun _ => True) => eapply (idle_bind _ _ (fun _ => True)); [|intros ? _]
    | |- idle (free _) _ => apply idle_free; auto
    | |- idle (cc_get CC _ _) _ => apply (sc_get _ _ _ _ _ HC)
    | |- idle (cv_find CT _ _) _ => apply (sv_find _ _ _ HT)
    | |- idle (cv_predecessor CT _ _) _ => apply (sv_predecessor _ _ _ HT)
    | |- idle (cv_predecessor CS _ _) _ => apply (sv_predecessor _ _ _ HS)
    | |- idle (cv_successor CT _ _) _ => apply (sv_successor _ _ _ HT)
    | |- idle (cv_successor CS _ _) _ => apply (sv_successor _ _ _ HS)
    | |- idle (cv_min_val CS _) _ => apply (sv_min_val _ _ _ HS)
    | |- idle (cv_max_val CS _) _ => apply (sv_max_val _ _ _ HS)
    | |- forall t, idle (cv_min_val CT t) _ => apply (sv_min_val _ _ _ HT)
    | |- forall t, idle (cv_max_val CT t) _ => apply (sv_max_val _ _ _ HT)
    | |- idle (match ?x with _ => _ end) _ => destruct x
    end.
  Lemma find_idle (t : T) k : idle (ctr_find ko CT CC t k) (fun _ => True).
  Proof. unfold ctr_find. quiet. Qed.
  Lemma pred_idle (t : T) k : idle (ctr_predecessor ko CS CT CC t k) (fun _ => True).
  Proof. unfold ctr_predecessor. quiet. Qed.
  Lemma succ_idle (t : T) k : idle (ctr_successor ko CS CT CC t k) (fun _ => True).
  Proof. unfold ctr_successor. quiet. Qed.
  Lemma find_mut_idle (t : T) k p : tr_worth t p -> idle (ctr_find_mut ko CT CC t k) (owrites tr_worth p).
  Proof.
    intros H. unfold ctr_find_mut. step. destruct (k_cmp ko k (fst (t_min t))); [step; exact (min_mut_worth t p H)|step; exact I|].
    destruct (t_data t) as [d|] eqn:Et; [|step; exact I]. destruct (eqb (k_cmp ko) k (fst (d_max d))); [step; exact (max_mut_worth t d p H Et)|].
    assert (H' := H). unfold tr_worth in H'. rewrite Et in H'.
    destruct (d_children d) as [[sm ch]|]; [|step; exact I]. destruct (k_split_ref ko k) as [hi lo]. destruct H' as [ps [pc [H1 [H2 H3]]]].
    eapply idle_bind; [apply (sc_get_mut _ _ _ _ _ HC _ _ _ H3)|]. intros [[c put]|] Ho; cbn in Ho; [|step; exact I].
    destruct Ho as [pt [pr [Q1 [Q2 Q3]]]]. eapply idle_bind; [apply (sv_find_mut _ _ _ HT _ _ _ Q2)|]. intros [[[lo' v] putv]|] Hw; step; [|exact I].
    intros v'. apply (put_child_worth t d sm pt pr ps p putv put); auto; lia.
  Qed.
  Lemma near_idle {X} (t : T) d sm ch hi p ps pc (q : vt Tr -> cres (option (Lo * V * (V -> vt Tr)))) (os : cres (option (Hi * X))) ext fin :
    ps + pc <= p -> WS sm ps -> WC ch pc -> (forall c p, W c p -> idle (q c) (owrites W p)) -> idle os (fun _ => True) ->
    (forall t p, W t p -> idle (ext t) (writes W p)) -> owrites tr_worth p (Some fin) ->
    idle (oc <~ cc_get_mut CC ch hi ;;
          o <~ (match oc with
                | Some (child, put) => o' <~ q child ;; cret (match o' with Some x => Some (x, put) | None => None end)
                | None => cret None
                end) ;;
          match o with
          | Some (lo', val, putv, put) => cret (Some (k_join ko hi lo', val, put_child S Tr C t d sm put putv))
          | None => oh <~ os ;; match oh with Some (hi', _) => cchild_end_mut ko CC t d sm ch hi' ext | None => cret (Some fin) end
          end) (owrites tr_worth p).
  Proof.
    intros H1 H2 H3 Hq Hos Hext Hfin. eapply idle_bind; [apply (sc_get_mut _ _ _ _ _ HC _ _ _ H3)|]. intros oc Ho.
    eapply (idle_bind _ _ (fun o : option (Lo * V * (V -> vt Tr) * (vt Tr -> ct C)) => match o with
       Some (x, put) => exists pt pr, pt + pr <= pc /\ writes W pt x /\ forall t' p', W t' p' -> WC (put t') (p' + pr) | None => True end)).
    - destruct oc as [[c put]|]; [|step; exact I]. destruct Ho as [pt [pr [Q1 [Q2 Q3]]]]. eapply idle_bind; [apply (Hq _ _ Q2)|]. intros [x|] Hx; step; [|exact I].
      exists pt, pr. auto.
    - intros [[[[lo' v] putv] put]|] Hx.
      + destruct Hx as [pt [pr [Q1 [Q2 Q3]]]]. step. intros v'. apply (put_child_worth t d sm pt pr ps p putv put); auto; lia.
      + eapply idle_bind; [exact Hos|]. intros [[hi' x]|] _; [|step; exact Hfin]. apply (child_end_mut_idle _ _ _ _ _ _ p ps pc); auto.
  Qed.
  Lemma pred_mut_idle (t : T) k p : tr_worth t p -> idle (ctr_predecessor_mut ko CS CT CC t k) (owrites tr_worth p).
  Proof.
    intros H. unfold ctr_predecessor_mut. step. destruct (leb (k_cmp ko) k (fst (t_min t))); [step; exact I|].
    destruct (t_data t) as [d|] eqn:Et; [|step; exact (min_mut_worth t p H)].
    assert (H' := H). unfold tr_worth in H'. rewrite Et in H'.
    destruct (k_cmp ko k (fst (d_max d))); [| |step; exact (max_mut_worth t d p H Et)];
      (destruct (d_children d) as [[sm ch]|]; [|step; exact (min_mut_worth t p H)]); destruct H' as [ps [pc [H1 [H2 H3]]]].
    - apply idle_frees. intros _. eapply idle_bind; [apply (sv_max_val _ _ _ HS)|]. intros [hi x] _.
      apply (child_end_mut_idle _ _ _ _ _ _ p ps pc); auto. apply (sv_max_val_mut _ _ _ HT).
    - destruct (k_split_ref ko k) as [hi lo]. apply (near_idle t d sm ch hi p ps pc (fun c => cv_predecessor_mut CT c lo)); auto.
      + intros c q. apply (sv_predecessor_mut _ _ _ HT).
      + apply (sv_predecessor _ _ _ HS).
      + apply (sv_max_val_mut _ _ _ HT).
      + exact (min_mut_worth t p H).
  Qed.
  Lemma succ_mut_idle (t : T) k p : tr_worth t p -> idle (ctr_successor_mut ko CS CT CC t k) (owrites tr_worth p).
  Proof.
    intros H. unfold ctr_successor_mut. step. destruct (ltb (k_cmp ko) k (fst (t_min t))); [step; exact (min_mut_worth t p H)|].
    destruct (t_data t) as [d|] eqn:Et; [|step; exact I].
    assert (H' := H). unfold tr_worth in H'. rewrite Et in H'.
    destruct (leb (k_cmp ko) (fst (d_max d)) k); [step; exact I|].
    destruct (d_children d) as [[sm ch]|]; [|step; exact (max_mut_worth t d p H Et)]. destruct H' as [ps [pc [H1 [H2 H3]]]].
    destruct (eqb (k_cmp ko) k (fst (t_min t))).
    - eapply idle_bind; [apply (sv_min_val _ _ _ HS)|]. intros [hi x] _.
      apply (child_end_mut_idle _ _ _ _ _ _ p ps pc); auto. apply (sv_min_val_mut _ _ _ HT).
    - destruct (k_split_ref ko k) as [hi lo]. apply (near_idle t d sm ch hi p ps pc (fun c => cv_successor_mut CT c lo)); auto.
      + intros c q. apply (sv_successor_mut _ _ _ HT).
      + apply (sv_successor _ _ _ HS).
      + apply (sv_min_val_mut _ _ _ HT).
      + exact (max_mut_worth t d p H Et).
  Qed.
  Lemma tree_saves : saves (tree_cost fixed ko CS CT CC) tr_worth (N.max a (e + s)).
  Proof.
    split; intros; cbn [tree_cost cv_from_monad cv_is_monad cv_into_monad cv_min_val cv_min_val_mut cv_max_val cv_max_val_mut cv_find cv_find_mut
      cv_predecessor cv_predecessor_mut cv_successor cv_successor_mut cv_insert cv_remove cv_remove_min cv_remove_max].
    - unfold tr_worth in *. destruct (t_data t); auto. eapply ch_mono; eauto.
    - apply idle_pay. intros t E. injection E as <-. exact I.
    - apply idle_pay. auto.
    - apply idle_pay. unfold tr_into_monad. intros r E. destruct (tr_is_monad S Tr C t) as [[|]|]; cbn in E; try discriminate; injection E as <-; [exact I|exact H].
    - apply idle_pay. auto.
    - apply idle_pay. intros x E. injection E as <-. exact (min_mut_worth t p H).
    - apply idle_pay. auto.
    - apply idle_pay. intros x E. injection E as <-. destruct (t_data t) as [d|] eqn:Et; [exact (max_mut_worth t d p H Et)|exact (min_mut_worth t p H)].
    - apply find_idle.
    - apply find_mut_idle, H.
    - apply pred_idle.
    - apply pred_mut_idle, H.
    - apply succ_idle.
    - apply succ_mut_idle, H.
    - apply insert_paid, H.
    - apply remove_paid, H.
    - apply remove_min_paid, H.
    - apply remove_max_paid, H.
  Qed.
End TreeSaves.

Ltac er := repeat (cbn [outcome tick pay free cret cpanic];
  match goal with
  | |- ?x = ?x => reflexivity
  | |- outcome (cbind _ _) = bind _ _ => rewrite outcome_bind; apply bind_ext; [|intros ?]
  | |- bind _ _ = bind _ _ => apply bind_ext; [|intros ?]
  | |- outcome (cmap _ _) = _ => rewrite outcome_map; unfold rmap
  | |- context [match ?x with _ => _ end] => destruct x
  | _ => solve [eauto]
  end).
(** ** Collections *)
(** the worth of every member, together *)
Fixpoint worths {X} (P : X -> N -> Prop) (l : list X) (p : N) : Prop :=
  match l with
  | [] => True
  | x :: l' => exists a b, a + b <= p /\ P x a /\ worths P l' b
  end.
Lemma worths_mono {X} (P : X -> N -> Prop) l : forall p q, worths P l p -> p <= q -> worths P l q.
Proof. destruct l as [|x l]; cbn; auto. intros p q [a [b [H1 H2]]] H. exists a, b. split; [lia|exact H2]. Qed.
Lemma worths_perm {X} (P : X -> N -> Prop) l l' : Permutation l l' -> forall p, worths P l p -> worths P l' p.
Proof.
  induction 1 as [|x l l' _ IH|x y l|l l' l'' _ IH1 _ IH2]; intros p; cbn [worths]; auto.
  - intros [a [b [H1 [H2 H3]]]]. exists a, b. auto.
  - intros [a [b [H1 [H2 [c [d [H3 [H4 H5]]]]]]]]. exists c, (a + d). split; [lia|]. split; auto. exists a, d. split; [lia|auto].
Qed.

Section ProbeSaves.
  Context {Bd : Build} {Seed Hi Lo V : Type} {Tr : VebOps Lo V} (w : nat) (eq : Hi -> Hi -> bool) (eq_spec : forall a b, eq a b = true <-> a = b)
    (hash : Seed -> Hi -> N) (tag : N -> N) (draw : Hi -> vt Tr -> Seed) (bits0 : nat) (CT : CVeb Tr) (W : vt Tr -> N -> Prop) (a : N) (HT : saves CT W a).
  Notation T := (vt Tr).
  Notation M := (Swiss Seed Hi T).
  Notation inv := (sw_inv (T := T) w hash tag).
  Notation HH := (Swiss_hash w eq hash tag draw bits0 std_policy).
  Implicit Types m : M.
  (** what the table holds: the room there is no slot left for, twice *)
  Definition hoard m : N := N.of_nat (room (2 ^ sw_bits m) - 2 * sw_left m).
  Definition members : list (Hi * T) -> N -> Prop := worths (fun x => W (snd x)).
  Definition pr_worth m (p : N) : Prop := inv m /\ exists q, hoard m + q <= p /\ members (pairs_of (sw_slots m)) q.
  Lemma hoard_insert m h t : inv m -> N.of_nat (sw_moves w hash m h) + hoard (sw_insert w hash tag std_policy m h t) <= hoard m + 2.
  Proof.
    intros Hm. unfold hoard. assert (Hr := items_room w hash tag m (proj1 Hm)). unfold buckets in Hr.
    destruct (insert_costs w hash tag m h t (proj1 Hm)) as [[-> [-> G]]|[E0 [-> [G1 [G2 _]]]]]; lia.
  Qed.
  Lemma hoard_one h t : hoard (h_one HH h t) <= 2.
  Proof. unfold hoard. destruct (first_fields w eq hash tag draw bits0 std_policy h t) as [-> G]. lia. Qed.
  Lemma hoard_put m i t : hoard (sw_put m i t) = hoard m.
  Proof. unfold hoard. destruct (put_fields m i t) as [-> [-> _]]. reflexivity. Qed.
  Lemma hoard_erase m i : hoard (fst (sw_replace w m i None)) <= hoard m.
  Proof. unfold hoard. destruct (erase_left w m i) as [-> G]. lia. Qed.
  (** the tree found, and the rest *)
  Lemma found m h i t p : pr_worth m p -> sw_lookup w eq hash tag m h = Some (i, t) -> exists pt pr, pt + pr <= p /\ W t pt /\
    (forall t' q, W t' q -> pr_worth (sw_put m i t') (q + pr)) /\ (forall ot q, opt W ot q -> pr_worth (fst (sw_replace w m i ot)) (q + pr)).
  Proof.
    intros [Hm [q [H1 H2]]] E. destruct (at_ok w eq eq_spec hash tag m h i t Hm E) as [rest [P1 [P2 [_ [P3 [_ [P4 P5]]]]]]].
    apply (worths_perm _ _ _ P1) in H2. destruct H2 as [pt [pr [H2 [H3 H4]]]]. cbn in H3. exists pt, (pr + hoard m). split; [lia|]. split; auto.
    assert (G : forall t' q, W t' q -> pr_worth (sw_put m i t') (q + (pr + hoard m))).
    { intros t' q' Hq. destruct (P2 t') as [Q1 Q2]. split; auto. exists (q' + pr). rewrite hoard_put. split; [lia|].
      apply (worths_perm _ _ _ (Permutation_sym Q2)). exists q', pr. split; [lia|auto]. }
    split; [exact G|]. intros [t'|] q' Hq; [rewrite P3; apply G, Hq|]. split; auto. exists pr. assert (Hh := hoard_erase m i). split; [lia|].
    apply (worths_perm _ _ _ (Permutation_sym P5)), H4.
  Qed.
  Lemma probe_saves : csaves (probe_cost w eq hash tag draw bits0 CT) W pr_worth a 2.
  Proof.
    split; [intros c p q H0 L|intros h t p H0|intros c h|intros c h p H0|intros c h lv p s H0|intros c h f p H0 H1|intros c h f p H0 H1];
      cbn [probe_cost cc_create cc_get cc_get_mut cc_insert_key cc_remove_key cc_maybe_remove_key].
    - destruct H0 as [Hm [q' [H2 H3]]]. split; auto. exists q'. split; [lia|auto].
    - eapply (paid_idle _ (fun c => c = h_one HH h t)).
      + apply idle_pay. unfold ho_create. intros c E. destruct (debug_assert _); cbn [bind] in E; [|discriminate]. destruct (debug_assert _); cbn [bind] in E; [|discriminate]. injection E as <-. reflexivity.
      + intros c ->. destruct (one_ok w hash tag draw bits0 std_policy h t) as [Q1 Q2]. split; auto. exists p. assert (G := hoard_one h t). split; [lia|].
        cbn [h_one Swiss_hash]. rewrite Q2. exists p, 0. split; [lia|]. split; [assumption|exact I].
    - apply idle_pay. auto.
    - apply idle_pay. intros o E. injection E as <-. unfold keeps. cbn [fst h_get_mut Swiss_hash].
      destruct (sw_lookup w eq hash tag c h) as [[i t]|] eqn:El; auto. destruct (found c h i t p H0 El) as [pt [pr [Q1 [Q2 [Q3 _]]]]].
      exists pt, pr. auto.
    - unfold cpr_insert_key. step. destruct (sw_lookup w eq hash tag c h) as [[i t]|] eqn:El.
      + destruct (found c h i t p H0 El) as [pt [pr [Q1 [Q2 [Q3 _]]]]].
        apply (paid_weak _ (pt + a + pr) _ (fun x q => match snd x with Ok _ => exists q', q = q' + s /\ pr_worth (fst x) q' | Err _ => pr_worth (fst x) q end)); [|lia|auto].
        eapply paid_bind; [apply paid_frame, (sv_insert _ _ _ HT _ (fst lv) (snd lv) _ Q2)|]. cbn beta. intros [t' r] q [q' [-> Hq]]. apply paid_ret. cbn. apply Q3, Hq.
      + assert (Hni := proj2 (lookup_spec w eq eq_spec hash tag c h (proj1 H0))). rewrite El in Hni.
        eapply paid_bind; [eapply (paid_idle _ _ _ (fun t q => W t 0 /\ q = p + N.max a (2 + s))); [apply (sv_from_monad _ _ _ HT)|auto]|].
        cbn beta. intros t0 q [Ht ->]. destruct H0 as [Hm [q [H1 H2]]]. assert (G := hoard_insert c h t0 Hm).
        destruct (sw_insert_ok w hash tag std_policy c h t0 (proj1 Hm)) as [_ P].
        unfold paid, cbind, cret, free, pay. cbn [slots outcome]. split; [lia|]. intros x E. injection E as <-. cbn [fst snd]. exists (hoard (sw_insert w hash tag std_policy c h t0) + q + s). split; [|lia].
        exists (hoard (sw_insert w hash tag std_policy c h t0) + q). split; [reflexivity|]. split; [apply sw_insert_inv; auto|]. exists q. split; [lia|].
        apply (worths_perm _ _ _ (Permutation_sym P)). exists 0, q. split; [lia|auto].
    - unfold cpr_remove_key. step. destruct (sw_lookup w eq hash tag c h) as [[i t]|] eqn:El; [|step].
      destruct (found c h i t p H0 El) as [pt [pr [Q1 [Q2 [_ Q3]]]]].
      apply (paid_weak _ (pt + pr) _ (fun x => opt (fun y => pr_worth (fst y)) (fst x))); [|lia|auto].
      eapply paid_bind; [apply paid_frame, (H1 _ _ Q2)|]. cbn beta. intros [ot v] q [q' [-> Hq]]. specialize (Q3 _ _ Hq). cbn [fst] in Q3.
      destruct (sw_replace w c i ot) as [m' b]. destruct (_ =? _)%nat; apply paid_ret; [exact I|exact Q3].
    - unfold cpr_maybe_remove_key. step. destruct (sw_lookup w eq hash tag c h) as [[i t]|] eqn:El; [|apply paid_ret; exact H0].
      destruct (found c h i t p H0 El) as [pt [pr [Q1 [Q2 [_ Q3]]]]].
      apply (paid_weak _ (pt + pr) _ (fun r q => match r with Ok x => opt (fun y => pr_worth (fst y)) (fst x) q | Err c => pr_worth c q end)); [|lia|auto].
      eapply paid_bind; [apply paid_frame, (H1 _ _ Q2)|]. cbn beta. intros r q [q' [-> Hq]].
      assert (Hr : exists ot ov, (match r with Err t' => (Some t', None) | Ok (ot, val) => (ot, Some val) end) = (ot, ov) /\ opt W ot q').
      { destruct r as [[ot x]|t']; [exists ot, (Some x)|exists (Some t'), None]; auto. }
      destruct Hr as [ot [ov [-> Ho]]]. specialize (Q3 _ _ Ho). destruct (sw_replace w c i ot) as [m' b]. destruct ov as [v|], (_ =? _)%nat; try apply paid_ret; try exact Q3; try exact I.
      step.
  Qed.
  Lemma probe_erases : erases CT -> cerases (probe_cost w eq hash tag draw bits0 CT).
  Proof.
    intros E. assert (EF := e_from_monad _ E). split; intros; cbn [probe_cost cc_create cc_get cc_get_mut cc_insert_key cc_remove_key cc_maybe_remove_key HashOf c_create c_get c_get_mut c_insert_key
      c_remove_key c_maybe_remove_key]; auto;
      unfold cpr_insert_key, cpr_remove_key, cpr_maybe_remove_key, ho_insert_key, ho_remove_key, ho_maybe_remove_key; cbn [h_entry h_is_empty Swiss_hash];
      destruct (sw_lookup w eq hash tag c h) as [[i t]|]; cbn [outcome tick]; auto; destruct E; er.
    rewrite outcome_bind, EF. reflexivity.
  Qed.
End ProbeSaves.

Lemma paid_get {A B} (m : res A) (f : A -> cres B) b R : (forall x, m = Ret x -> paid (f x) b R) -> paid (cbind (free m) f) b R.
Proof. intros G. eapply paid_bind; [apply (paid_idle _ (fun x => m = Ret x) b (fun x q => m = Ret x /\ q = b)); [apply idle_free; auto|auto]|]. intros x p [E ->]. apply G, E. Qed.
Lemma worths_at {X} (P : X -> N -> Prop) l : forall n p x, worths P l p -> nth_error l n = Some x ->
  exists a b, a + b <= p /\ P x a /\ (forall y q, P y q -> worths P (list_set l n y) (q + b)) /\ worths P (list_del l n) b.
Proof.
  induction l as [|y l IH]; intros [|n] p x H E; try discriminate; cbn [worths nth_error] in *; destruct H as [a [b [H1 [H2 H3]]]].
  - injection E as <-. exists a, b. split; auto. split; auto. split; [|exact H3]. intros z q Hz. cbn [list_set worths]. exists q, b. split; [lia|auto].
  - destruct (IH n b x H3 E) as [c [d [Q1 [Q2 [Q3 Q4]]]]]. exists c, (a + d). split; [lia|]. split; auto. split.
    + intros z q Hz. cbn [list_set worths]. exists a, (q + d). split; [lia|auto].
    + unfold list_del in *. cbn [firstn skipn app worths]. exists a, d. split; [lia|auto].
Qed.
Lemma vd_get_at {X} (l : list X) n x : vd_get l n = Ret x -> nth_error l (N.to_nat n) = Some x.
Proof. unfold vd_get. destruct (nth_error l (N.to_nat n)); cbn; congruence. Qed.

Section OtherSaves.
  Context {Bd : Build} {Lo V : Type} {Tr : VebOps Lo V} (CT : CVeb Tr) (W : vt Tr -> N -> Prop) (a : N) (HT : saves CT W a).
  Notation T := (vt Tr).
  Definition bm_worth (m : ByteMap (list T)) : N -> Prop := worths W (bm_list m).
  Lemma vd_insert_worth (l : list T) i t l' p : worths W l p -> W t 0 -> vd_insert l i t = Ret l' -> worths W l' p.
  Proof.
    unfold vd_insert. intros H Ht E. destruct (_ <=? _); [|discriminate]. injection E as <-.
    apply (worths_perm _ (t :: l)); [|exists 0, p; split; [lia|auto]]. rewrite <- (firstn_skipn (N.to_nat i) l) at 1. apply Permutation_middle.
  Qed.
  Lemma replace_worth (l : list T) n t ot p : worths W l p -> vd_get l n = Ret t -> exists pt pr, pt + pr <= p /\ W t pt /\
    (forall t' q, W t' q -> worths W (list_set l (N.to_nat n) t') (q + pr)) /\ (forall q, opt W ot q -> worths W (replace_at l (N.to_nat n) ot) (q + pr)).
  Proof.
    intros H E. destruct (worths_at W l _ p t H (vd_get_at _ _ _ E)) as [pt [pr [Q1 [Q2 [Q3 Q4]]]]]. exists pt, pr. repeat split; auto.
    intros q Hq. destruct ot as [t'|]; cbn; [apply Q3, Hq|]. apply (worths_mono _ _ pr); [exact Q4|lia].
  Qed.
  Lemma bytemap_saves : csaves (bytemap_cost CT) W bm_worth a 0.
  Proof.
    split; [intros c p q H0 L|intros h t p H0|intros c h|intros c h p H0|intros c h lv p s H0|intros c h f p H0 H1|intros c h f p H0 H1];
      cbn [bytemap_cost cc_create cc_get cc_get_mut cc_insert_key cc_remove_key cc_maybe_remove_key].
    - apply (worths_mono _ _ p); auto.
    - eapply (paid_idle _ (fun c => bm_worth c p)); [|intros c Hc; apply (worths_mono _ _ p); [exact Hc|lia]].
      apply idle_pay. intros c E. injection E as <-. exists p, 0. split; [lia|]. split; [exact H0|exact I].
    - apply idle_pay. auto.
    - apply idle_pay. unfold bc_get_mut. intros o E. destruct (negb _); [injection E as <-; exact I|]. unfold vd_get_mut in E.
      destruct (vd_get (bm_list c) (count_below (bm_set c) h)) as [t|] eqn:Ev; cbn [bind] in E; [|discriminate]. injection E as <-.
      destruct (replace_worth _ _ _ None p H0 Ev) as [pt [pr [Q1 [Q2 [Q3 _]]]]]. exists pt, pr. auto.
    - unfold cbc_insert_key. step. apply paid_free. intros [set [r|]].
      + apply paid_get. intros [t put] E. unfold vd_get_mut in E. destruct (vd_get (bm_list c) _) as [t0|] eqn:Ev; cbn [bind] in E; [|discriminate].
        injection E as <- <-. destruct (replace_worth _ _ _ None p H0 Ev) as [pt [pr [Q1 [Q2 [Q3 _]]]]].
        apply (paid_weak _ (pt + a + pr) _ (fun x q => match snd x with Ok _ => exists q', q = q' + s /\ bm_worth (fst x) q' | Err _ => bm_worth (fst x) q end)); [|lia|auto].
        eapply paid_bind; [apply paid_frame, (sv_insert _ _ _ HT _ (fst lv) (snd lv) _ Q2)|]. cbn beta. intros [t' o] q [q' [-> Hq]]. apply paid_ret. apply Q3, Hq.
      + eapply paid_bind; [eapply (paid_idle _ _ _ (fun t q => W t 0 /\ q = p + N.max a (0 + s))); [apply (sv_from_monad _ _ _ HT)|auto]|].
        cbn beta. intros t0 q [Ht ->]. apply paid_get. intros l E. apply paid_ret. cbn [fst snd]. exists (p + N.max a (0 + s) - s). split; [lia|].
        apply (worths_mono _ _ p); [|lia]. cbn [bm_list]. apply (vd_insert_worth _ _ _ _ _ H0 Ht E).
    - unfold cbc_remove_key. step. apply paid_free. intros o. apply paid_free. intros _.
      eapply (paid_bind _ _ _ (fun x => opt (fun y : list T * bool => worths W (fst y)) (fst x))).
      + unfold ctl_remove_key. apply paid_get. intros t E. destruct (worths_at W _ _ p t H0 (vd_get_at _ _ _ E)) as [pt [pr [Q1 [Q2 [Q3 Q4]]]]].
        apply (paid_weak _ (pt + pr) _ (fun x => opt (fun y : list T * bool => worths W (fst y)) (fst x))); [|lia|auto].
        eapply paid_bind; [apply paid_frame, (H1 _ _ Q2)|]. cbn beta. intros [ot v] q [q' [-> Hq]]. cbn [fst] in Hq.
        destruct (is_nil _); [apply paid_free; intros _; apply paid_ret; exact I|]. apply paid_ret. cbn.
        destruct ot as [t'|]; cbn; [apply Q3, Hq|]. apply (worths_mono _ _ pr); [exact Q4|lia].
      + intros [[[l b]|] v] q Hq; [|apply paid_ret; exact I]. cbn in Hq. apply paid_get. unfold bc_after. intros mb E. apply paid_ret. cbn.
        destruct b; [destruct (debug_assert _); cbn [bind] in E; [|discriminate]|]; injection E as <-; exact Hq.
    - unfold cbc_maybe_remove_key. step. apply paid_free. intros o. destruct (is_none o); [apply paid_ret; exact H0|].
      eapply (paid_bind _ _ _ (fun r q => match r with Ok x => opt (fun y : list T * bool => worths W (fst y)) (fst x) q | Err l => worths W l q end)).
      + unfold ctl_maybe_remove_key. apply paid_get. intros t E. destruct (worths_at W _ _ p t H0 (vd_get_at _ _ _ E)) as [pt [pr [Q1 [Q2 [Q3 Q4]]]]].
        apply (paid_weak _ (pt + pr) _ (fun r q => match r with Ok x => opt (fun y : list T * bool => worths W (fst y)) (fst x) q | Err l => worths W l q end)); [|lia|auto].
        eapply paid_bind; [apply paid_frame, (H1 _ _ Q2)|]. cbn beta. intros [[ot v]|t'] q [q' [-> Hq]]; cbn in Hq; [|apply paid_ret; apply Q3, Hq].
        destruct (is_nil _); [apply paid_free; intros _; apply paid_ret; exact I|]. apply paid_ret. cbn.
        destruct ot as [t'|]; cbn; [apply Q3, Hq|]. apply (worths_mono _ _ pr); [exact Q4|lia].
      + intros [[[[l b]|] v]|l] q Hq; try (apply paid_ret; exact Hq). cbn in Hq. apply paid_get. unfold bc_after. intros mb E. apply paid_ret. cbn.
        destruct b; [destruct (debug_assert _); cbn [bind] in E; [|discriminate]|]; injection E as <-; exact Hq.
  Qed.

  Context {Hi : Type} (ix : IdxOps Hi).
  Definition ac_worth (c : ArrayColl T) : N -> Prop := worths (opt W) (ac_array c).
  Lemma oa_at (l : list (option T)) n o p : worths (opt W) l p -> oa_get l n = Ret o -> exists po b, po + b <= p /\ opt W o po /\
    forall o' q l', opt W o' q -> oa_set l n o' = Ret l' -> worths (opt W) l' (q + b).
  Proof.
    intros H E. assert (E' := E). unfold oa_get in E'. destruct (nth_error l (N.to_nat n)) as [o'|] eqn:En; cbn in E'; [|discriminate]. injection E' as ->.
    destruct (worths_at _ l _ p o H En) as [po [b [Q1 [Q2 [Q3 _]]]]]. exists po, b. repeat split; auto.
    intros o' q l' Ho El. unfold oa_set in El. rewrite E in El. cbn [bind] in El. injection El as <-. apply Q3, Ho.
  Qed.
  Lemma oa_set_get (l l' : list (option T)) n o : oa_set l n o = Ret l' -> exists x, oa_get l n = Ret x.
  Proof. unfold oa_set. destruct (oa_get l n) as [x|]; [eauto|discriminate]. Qed.
  Lemma oa_over (l l' : list (option T)) n o p q : worths (opt W) l p -> opt W o q -> oa_set l n o = Ret l' -> worths (opt W) l' (q + p).
  Proof.
    intros H Ho E. destruct (oa_set_get _ _ _ _ E) as [x Ex]. destruct (oa_at l n x p H Ex) as [po [b [Q1 [_ Q3]]]].
    apply (worths_mono _ _ (q + b)); [eapply Q3; eauto|lia].
  Qed.
  Lemma nones n p : worths (opt W) (repeat None n) p.
  Proof. revert p. induction n as [|n IH]; intros p; cbn; auto. exists 0, p. split; [lia|]. split; [exact I|apply IH]. Qed.
  Lemma store_worth l n h ot r p q : worths (opt W) l p -> opt W ot q -> ac_store ix Tr l n h ot = Ret r -> opt (fun y => ac_worth (fst y)) r (q + p).
  Proof.
    intros H Ho. unfold ac_store. destruct (if is_none ot then _ else _) as [n'|]; cbn [bind]; [|discriminate].
    destruct (oa_set l (i_index ix h) ot) as [l'|] eqn:E; cbn [bind]; [|discriminate]. intros Er. injection Er as <-. destruct (_ =? _); cbn; auto.
    apply (oa_over _ _ _ _ _ _ H Ho E).
  Qed.
  Lemma array_saves : csaves (array_cost ix CT) W ac_worth a (i_card ix).
  Proof.
    split; [intros c p q H0 L|intros h t p H0|intros c h|intros c h p H0|intros c h lv p s H0|intros c h f p H0 H1|intros c h f p H0 H1];
      cbn [array_cost cc_create cc_get cc_get_mut cc_insert_key cc_remove_key cc_maybe_remove_key].
    - apply (worths_mono _ _ p); auto.
    - assert (Hc : card_usize (i_card ix) <= i_card ix) by (apply N.mod_le, N.pow_nonzero; discriminate).
      split; cbn [pay slots outcome]; [lia|]. unfold ac_create. intros c E. destruct (oa_set _ _ _) as [l|] eqn:El; cbn [bind] in E; [|discriminate].
      injection E as <-. exists p. split; [|lia]. unfold ac_worth. cbn [ac_array]. replace p with (p + 0) by lia. eapply oa_over; [apply nones| |exact El]. exact H0.
    - apply idle_pay. auto.
    - apply idle_pay. unfold ac_get_mut. intros o E. destruct (oa_get (ac_array c) (i_index ix h)) as [[t|]|] eqn:Eg; cbn [bind] in E; try discriminate;
        injection E as <-; [|exact I]. destruct (oa_at _ _ _ _ H0 Eg) as [po [b [Q1 [Q2 Q3]]]]. exists po, b. split; auto. split; auto.
      intros t' p' Ht. apply (Q3 (Some t')); [exact Ht|]. unfold oa_set. rewrite Eg. reflexivity.
    - unfold cac_insert_key. step. apply paid_get. intros [t|] Eg; destruct (oa_at _ _ _ _ H0 Eg) as [po [b [Q1 [Q2 Q3]]]].
      + apply (paid_weak _ (po + a + b) _ (fun x q => match snd x with Ok _ => exists q', q = q' + s /\ ac_worth (fst x) q' | Err _ => ac_worth (fst x) q end)); [|lia|auto].
        eapply paid_bind; [apply paid_frame, (sv_insert _ _ _ HT _ (fst lv) (snd lv) _ Q2)|]. cbn beta. intros [t' o] q [q' [-> Hq]].
        apply paid_get. intros l E. apply paid_ret. apply (Q3 (Some t') q' l Hq E).
      + eapply paid_bind; [eapply (paid_idle _ _ _ (fun t q => W t 0 /\ q = p + N.max a (i_card ix + s))); [apply (sv_from_monad _ _ _ HT)|auto]|].
        cbn beta. intros t0 q [Ht ->]. apply paid_get. intros l E. apply paid_free. intros n. apply paid_ret. cbn [fst snd].
        exists (p + N.max a (i_card ix + s) - s). split; [lia|]. apply (worths_mono _ _ (0 + b)); [apply (Q3 (Some t0) 0 l Ht E)|lia].
    - unfold cac_remove_key. step. apply paid_get. intros o Eg. destruct (oa_at _ _ _ _ H0 Eg) as [po [b [Q1 [Q2 Q3]]]].
      apply paid_get. intros l El. specialize (Q3 None 0 l I El). apply paid_get. intros t Et. destruct o as [t0|]; cbn in Et; [|discriminate]. injection Et as ->.
      apply (paid_weak _ (po + b) _ (fun x => opt (fun y => ac_worth (fst y)) (fst x))); [|lia|auto].
      eapply paid_bind; [apply paid_frame, (H1 _ _ Q2)|]. cbn beta. intros [ot v] q [q' [-> Hq]]. apply paid_get. intros r Er. apply paid_ret.
      apply (store_worth _ _ _ _ _ _ _ Q3 Hq Er).
    - unfold cac_maybe_remove_key. step. apply paid_get. intros o Eg. destruct (oa_at _ _ _ _ H0 Eg) as [po [b [Q1 [Q2 Q3]]]].
      apply paid_get. intros l El. specialize (Q3 None 0 l I El). destruct o as [t|]; [|apply paid_ret; apply (worths_mono _ _ (0 + b)); [exact Q3|lia]].
      apply (paid_weak _ (po + b) _ (fun r q => match r with Ok x => opt (fun y => ac_worth (fst y)) (fst x) q | Err c => ac_worth c q end)); [|lia|auto].
      eapply paid_bind; [apply paid_frame, (H1 _ _ Q2)|]. cbn beta. intros [[ot v]|t'] q [q' [-> Hq]]; apply paid_get; intros r Er; apply paid_ret.
      + apply (store_worth _ _ _ _ _ _ _ Q3 Hq Er).
      + apply (oa_over _ _ _ (Some t') _ _ Q3 Hq Er).
  Qed.
End OtherSaves.

(** ** All types *)
Section AllTypes.
  Context (B' : Build) (w : nat) {Seed : Type -> Type -> Type} (hash : forall Hi T, (Hi -> Hi -> bool) -> Seed Hi T -> Hi -> N) (tag : N -> N)
    (draw : forall Hi T, Hi -> T -> Seed Hi T) (bits0 : nat).
  Notation fam := (probed w hash tag draw bits0).
  Lemma coll_saved {B : Build} {Lo V Tr Hi C} (X : @CollType B Lo V Tr Hi C) {Tr' : VebOps Lo V} (CT : CVeb Tr') W a : saves CT W a ->
    exists WC, csaves (moves_coll B' w hash tag draw bits0 X CT) W WC a (coll_each X).
  Proof.
    intros HT. induction X as [Hi ix IL|Hi eq Heq| |Hi C X [WC IH]]; cbn [moves_coll coll_each].
    - eexists. apply (array_saves (Bd := B') CT W a HT ix).
    - eexists. apply (probe_saves (Bd := B') w eq Heq _ tag _ bits0 CT W a HT).
    - eexists. apply (bytemap_saves (Bd := B') CT W a HT).
    - eexists. apply (boxcoll_saves _ _ _ _ _ IH).
  Qed.
  Lemma type_saved {B : Build} {fixed K V cmp O} (T : @VebType B fixed K V cmp O) : exists W, saves (moves_type B' w hash tag draw bits0 T) W (moves_each T).
  Proof.
    induction T as [|V|K V cmp OL|K Hi Lo V ko KL S Tr C TS [WS HS] TT [WT HT] X|K V cmp O T [W H]|K V cmp O T [W H]]; cbn [moves_type moves_each].
    - eexists. apply leaf_saves.
    - eexists. apply leaf_saves.
    - eexists. apply leaf_saves.
    - destruct (coll_saved X _ _ _ HT) as [WC HC]. eexists. apply (tree_saves (Bd := B') fixed ko _ _ _ _ _ _ _ _ _ HS HT HC).
    - eexists. apply (box_saves _ _ _ H).
    - eexists. apply (sized_saves (Bd := B') _ _ _ H).
  Qed.
  Lemma coll_same {B : Build} {Lo V Tr Hi C} (X : @CollType B Lo V Tr Hi C) {Tr' : VebOps Lo V} (CT : CVeb Tr') : erases CT ->
    cerases (moves_coll B' w hash tag draw bits0 X CT).
  Proof.
    intros HT. induction X as [Hi ix IL|Hi eq Heq| |Hi C X IH]; cbn [moves_coll].
    - apply (array_erases (Bd := B')), HT.
    - apply (probe_erases (Bd := B')), HT.
    - apply (bytemap_erases (Bd := B')), HT.
    - apply boxcoll_erases, IH.
  Qed.
  Lemma type_same {B : Build} {fixed K V cmp O} (T : @VebType B fixed K V cmp O) : erases (moves_type B' w hash tag draw bits0 T).
  Proof.
    induction T as [|V|K V cmp OL|K Hi Lo V ko KL S Tr C TS IHS TT IHT X|K V cmp O T IH|K V cmp O T IH]; cbn [moves_type].
    - apply leaf_erases.
    - apply leaf_erases.
    - apply leaf_erases.
    - apply (tree_erases (Bd := B')); auto. apply coll_same, IHT.
    - apply box_erases, IH.
    - apply (sized_erases (Bd := B')), IH.
  Qed.
End AllTypes.

(** ** Histories *)
Section History.
  Context {K V : Type} {O : VebOps K V} (CO : CVeb O) (W : vt O -> N -> Prop) (a : N) (H : saves CO W a).
  Lemma cstep_paid c ot p : opt W ot p -> paid (cstep CO c ot) (p + match c with Insert _ _ => a | _ => 0 end) (fun x => opt W (fst x)).
  Proof.
    intros Hw. assert (Hq : forall A (m : cres A) (Q : A -> Prop) (f : A -> cres (option (vt O) * out K V)), idle m Q ->
      (forall x, Q x -> exists y, f x = cret y /\ opt W (fst y) p) -> paid (cbind m f) (p + 0) (fun x => opt W (fst x))).
    { intros A m Q f Hm Hf. rewrite N.add_0_r. eapply paid_bind; [eapply (paid_idle _ _ _ (fun x q => Q x /\ q = p)); [exact Hm|auto]|].
      cbn beta. intros x q [Hx ->]. destruct (Hf x Hx) as [y [-> Hy]]. apply paid_ret, Hy. }
    destruct ot as [t|]; cbn in Hw.
    - destruct H. destruct c; cbn [cstep]; unfold cquery, cquery1, cwrite, cwrite1.
      + eapply paid_bind; [apply sv_insert0, Hw|]. intros [t' r] q Hq'. apply paid_ret, Hq'.
      + rewrite N.add_0_r. eapply paid_bind; [apply sv_remove0, Hw|]. intros [[ot x]|t'] q Hq'; apply paid_ret, Hq'.
      + rewrite N.add_0_r. eapply paid_bind; [apply sv_remove_min0, Hw|]. intros [ot x] q Hq'; apply paid_ret, Hq'.
      + rewrite N.add_0_r. eapply paid_bind; [apply sv_remove_max0, Hw|]. intros [ot x] q Hq'; apply paid_ret, Hq'.
      + eapply Hq; [apply (sv_into_monad0 _ _ Hw)|]. intros [x|t'] Hx; eexists; split; try reflexivity; exact Hx || exact I.
      + eapply Hq; [apply sv_is_monad0|]. intros x _. eexists. split; [reflexivity|exact Hw].
      + eapply Hq; [apply sv_min_val0|]. intros x _. eexists. split; [reflexivity|exact Hw].
      + eapply Hq; [apply sv_max_val0|]. intros x _. eexists. split; [reflexivity|exact Hw].
      + eapply Hq; [apply sv_find0|]. intros x _. eexists. split; [reflexivity|exact Hw].
      + eapply Hq; [apply sv_predecessor0|]. intros x _. eexists. split; [reflexivity|exact Hw].
      + eapply Hq; [apply sv_successor0|]. intros x _. eexists. split; [reflexivity|exact Hw].
      + eapply Hq; [apply (sv_min_val_mut0 _ _ Hw)|]. intros [x put] Hx. eexists. split; [reflexivity|apply Hx].
      + eapply Hq; [apply (sv_max_val_mut0 _ _ Hw)|]. intros [x put] Hx. eexists. split; [reflexivity|apply Hx].
      + eapply Hq; [apply (sv_find_mut0 _ _ _ Hw)|]. intros [[x put]|] Hx; eexists; (split; [reflexivity|]); [apply Hx|exact Hw].
      + eapply Hq; [apply (sv_predecessor_mut0 _ _ _ Hw)|]. intros [[x put]|] Hx; eexists; (split; [reflexivity|]); [apply Hx|exact Hw].
      + eapply Hq; [apply (sv_successor_mut0 _ _ _ Hw)|]. intros [[x put]|] Hx; eexists; (split; [reflexivity|]); [apply Hx|exact Hw].
    - destruct c; cbn [cstep]; try (apply paid_ret; exact I).
      eapply paid_bind; [eapply (paid_idle _ _ _ (fun t q => W t 0)); [apply (sv_from_monad _ _ _ H)|auto]|].
      cbn beta. intros t q Ht. apply paid_ret. apply (sv_mono _ _ _ H _ 0); [exact Ht|lia].
  Qed.
  Lemma crun_paid cs : forall ot p, opt W ot p -> paid (crun CO cs ot) (p + insertions cs * a) (fun x => opt W (fst x)).
  Proof.
    induction cs as [|c cs IH]; intros ot p Hw; cbn [crun].
    - apply paid_ret. cbn. destruct ot as [t|]; auto. apply (sv_mono _ _ _ H _ p); [exact Hw|lia].
    - assert (Ei : insertions (c :: cs) * a = match c with Insert _ _ => a | _ => 0 end + insertions cs * a).
      { unfold insertions. cbn [filter]. destruct c; cbn [length]; rewrite ?Nat2N.inj_succ; lia. }
      rewrite Ei, N.add_assoc. eapply paid_bind; [apply paid_frame, (cstep_paid c ot p Hw)|]. cbn beta. intros [ot1 o] q [q' [-> Hq]].
      eapply paid_bind; [apply (IH ot1 q' Hq)|]. intros [ot2 os] q2 H2. apply paid_ret, H2.
  Qed.
End History.

Lemma history_moves (B' : Build) w Seed (hash : forall Hi T, (Hi -> Hi -> bool) -> Seed Hi T -> Hi -> N) tag (draw : forall Hi T, Hi -> T -> Seed Hi T) bits0
  (B : Build) fixed K V cmp O (T : @VebType B fixed K V cmp O) cs :
  outcome (crun (moves_type B' w hash tag draw bits0 T) cs None) = run (rehashed B' (probed w hash tag draw bits0) T) cs None /\
  slots (crun (moves_type B' w hash tag draw bits0 T) cs None) <= insertions cs * moves_each T.
Proof.
  split; [apply crun_erases, type_same|]. destruct (type_saved B' w hash tag draw bits0 T) as [W HW].
  destruct (crun_paid _ W _ HW cs None 0 I) as [G _]. exact G.
Qed.

(** ** Nothing but an insertion moves a pair, or makes an array *)
Definition still {A} (m : cres A) : Prop := slots m = 0.
Lemma still_bind {A B} (m : cres A) (f : A -> cres B) : still m -> (forall x, still (f x)) -> still (cbind m f).
Proof. unfold still, cbind. intros H1 H2. destruct (outcome m) as [x|]; cbn [slots]; [rewrite H1, H2; reflexivity|exact H1]. Qed.
Record calm {K V} {O : VebOps K V} (CO : CVeb O) : Prop := {
  ca_from_monad : forall k v, still (cv_from_monad CO k v);
  ca_is_monad : forall t, still (cv_is_monad CO t);
  ca_into_monad : forall t, still (cv_into_monad CO t);
  ca_min_val : forall t, still (cv_min_val CO t);
  ca_min_val_mut : forall t, still (cv_min_val_mut CO t);
  ca_max_val : forall t, still (cv_max_val CO t);
  ca_max_val_mut : forall t, still (cv_max_val_mut CO t);
  ca_find : forall t k, still (cv_find CO t k);
  ca_find_mut : forall t k, still (cv_find_mut CO t k);
  ca_predecessor : forall t k, still (cv_predecessor CO t k);
  ca_predecessor_mut : forall t k, still (cv_predecessor_mut CO t k);
  ca_successor : forall t k, still (cv_successor CO t k);
  ca_successor_mut : forall t k, still (cv_successor_mut CO t k);
  ca_remove : forall t k, still (cv_remove CO t k);
  ca_remove_min : forall t, still (cv_remove_min CO t);
  ca_remove_max : forall t, still (cv_remove_max CO t) }.
Record ccalm {Hi Lo V} {Tr : VebOps Lo V} {C : CollOps Hi Lo V Tr} (CC : CColl C) : Prop := {
  cl_get : forall c h, still (cc_get CC c h);
  cl_get_mut : forall c h, still (cc_get_mut CC c h);
  cl_remove_key : forall c h f, (forall t, still (f t)) -> still (cc_remove_key CC c h f);
  cl_maybe_remove_key : forall c h f, (forall t, still (f t)) -> still (cc_maybe_remove_key CC c h f) }.
Ltac calmly := repeat (cbv beta zeta; match goal with
  | |- still (tick ?m) => change (still m)
  | |- still (cmap _ _) => unfold cmap
  | |- still (cbind _ _) => apply still_bind; [|intros ?]
  | |- still (free _) => reflexivity
  | |- still (cret _) => reflexivity
  | |- still cpanic => reflexivity
  | |- still (pay _ 0 _) => reflexivity
  | |- still (match ?x with _ => _ end) => destruct x
  | |- still (let (_, _) := ?x in _) => destruct x
  | _ => solve [auto]
  end).
Lemma leaf_calm {K V} (O : VebOps K V) : calm (leaf_cost O).
Proof. split; intros; reflexivity. Qed.
Lemma box_calm {K V} {O : VebOps K V} (CO : CVeb O) : calm CO -> calm (box_cost CO).
Proof.
  intros []. split; intros; cbn [box_cost cv_from_monad cv_is_monad cv_into_monad cv_min_val cv_min_val_mut cv_max_val cv_max_val_mut cv_find cv_find_mut
    cv_predecessor cv_predecessor_mut cv_successor cv_successor_mut cv_remove cv_remove_min cv_remove_max]; calmly.
Qed.
Section Calm.
  Context {Bd : Build}.
  Lemma sized_calm {K V} {O : VebOps K V} (CO : CVeb O) : calm CO -> calm (sized_cost CO).
  Proof.
    intros []. split; intros; cbn [sized_cost cv_from_monad cv_is_monad cv_into_monad cv_min_val cv_min_val_mut cv_max_val cv_max_val_mut cv_find cv_find_mut
      cv_predecessor cv_predecessor_mut cv_successor cv_successor_mut cv_remove cv_remove_min cv_remove_max]; unfold csz_remove, csz_remove_end; calmly.
  Qed.
  Context {Hi Lo V : Type} {Tr : VebOps Lo V} (CT : CVeb Tr).
  Lemma array_calm (ix : IdxOps Hi) : ccalm (array_cost ix CT).
  Proof. split; intros; cbn [array_cost cc_get cc_get_mut cc_remove_key cc_maybe_remove_key]; unfold cac_remove_key, cac_maybe_remove_key; calmly. Qed.
  Lemma bytemap_calm : ccalm (bytemap_cost CT).
  Proof.
    split; intros; cbn [bytemap_cost cc_get cc_get_mut cc_remove_key cc_maybe_remove_key]; unfold cbc_remove_key, cbc_maybe_remove_key, ctl_remove_key, ctl_maybe_remove_key; calmly.
  Qed.
  Lemma probe_calm {Seed} w eq (hash : Seed -> Hi -> N) tag draw bits0 : ccalm (probe_cost w eq hash tag draw bits0 CT).
  Proof. split; intros; cbn [probe_cost cc_get cc_get_mut cc_remove_key cc_maybe_remove_key]; unfold cpr_remove_key, cpr_maybe_remove_key; calmly. Qed.
  Lemma boxcoll_calm {C : CollOps Hi Lo V Tr} (CC : CColl C) : ccalm CC -> ccalm (boxcoll_cost CC).
  Proof. intros []. split; intros; cbn [boxcoll_cost cc_get cc_get_mut cc_remove_key cc_maybe_remove_key]; calmly. Qed.
  Lemma tree_calm fixed {K} (ko : KeyOps K Hi Lo) {S : VebOps Hi unit} {C : CollOps Hi Lo V Tr} (CS : CVeb S) (CC : CColl C) :
    calm CS -> calm CT -> ccalm CC -> calm (tree_cost fixed ko CS CT CC).
  Proof.
    intros [] [] []. split; intros; cbn [tree_cost cv_from_monad cv_is_monad cv_into_monad cv_min_val cv_min_val_mut cv_max_val cv_max_val_mut cv_find cv_find_mut
      cv_predecessor cv_predecessor_mut cv_successor cv_successor_mut cv_remove cv_remove_min cv_remove_max];
      unfold ctr_find, ctr_find_mut, ctr_predecessor, ctr_predecessor_mut, ctr_successor, ctr_successor_mut, ctr_remove, ctr_remove_min, ctr_remove_max,
        cchild_end, cchild_end_mut, cafter_end; calmly.
  Qed.
End Calm.
Section CalmTypes.
  Context (B' : Build) (w : nat) {Seed : Type -> Type -> Type} (hash : forall Hi T, (Hi -> Hi -> bool) -> Seed Hi T -> Hi -> N) (tag : N -> N)
    (draw : forall Hi T, Hi -> T -> Seed Hi T) (bits0 : nat).
  Lemma coll_calm {B : Build} {Lo V Tr Hi C} (X : @CollType B Lo V Tr Hi C) {Tr' : VebOps Lo V} (CT : CVeb Tr') : ccalm (moves_coll B' w hash tag draw bits0 X CT).
  Proof. induction X; cbn [moves_coll]; [apply (array_calm (Bd := B'))|apply (probe_calm (Bd := B'))|apply (bytemap_calm (Bd := B'))|apply boxcoll_calm; auto]. Qed.
  Lemma type_calm {B : Build} {fixed K V cmp O} (T : @VebType B fixed K V cmp O) : calm (moves_type B' w hash tag draw bits0 T).
  Proof.
    induction T; cbn [moves_type]; try apply leaf_calm; [apply (tree_calm (Bd := B')); auto; apply coll_calm|apply box_calm; auto|apply (sized_calm (Bd := B')); auto].
  Qed.
  Lemma step_calm {B : Build} {fixed K V cmp O} (T : @VebType B fixed K V cmp O) c ot : (forall k v, c <> Insert k v) ->
    slots (cstep (moves_type B' w hash tag draw bits0 T) c ot) = 0.
  Proof.
    intros Hc. change (still (cstep (moves_type B' w hash tag draw bits0 T) c ot)). destruct (type_calm T).
    destruct ot as [t|], c; cbn [cstep]; unfold cquery, cquery1, cwrite, cwrite1; calmly. elim (Hc k v). reflexivity.
  Qed.
End CalmTypes.

Lemma coll_two {B : Build} {Lo V} {Tr : VebOps Lo V} {Hi C} (X : CollType Tr Hi C) : table_coll X = true -> coll_each X = 2.
Proof. induction X; cbn; auto; discriminate. Qed.
Lemma each_depth {B : Build} {fixed K V cmp O} (T : VebType fixed K V cmp O) : tables_only T = true -> moves_each T <= 2 * depth T.
Proof.
  induction T as [|V|K V cmp OL|K Hi Lo V ko KL S Tr C TS IHS TT IHT X|K V cmp O T IH|K V cmp O T IH]; cbn [tables_only moves_each depth]; auto; try lia.
  intros H. apply andb_prop in H. destruct H as [H H3]. apply andb_prop in H. destruct H as [H1 H2]. rewrite (coll_two X H1). specialize (IHS H2). specialize (IHT H3). lia.
Qed.
Lemma history_tables (B' : Build) w Seed (hash : forall Hi T, (Hi -> Hi -> bool) -> Seed Hi T -> Hi -> N) tag (draw : forall Hi T, Hi -> T -> Seed Hi T) bits0
  (B : Build) fixed K V cmp O (T : @VebType B fixed K V cmp O) cs : tables_only T = true ->
  slots (crun (moves_type B' w hash tag draw bits0 T) cs None) <= insertions cs * (2 * depth T).
Proof.
  intros H. etransitivity; [apply history_moves|]. apply N.mul_le_mono_l, each_depth, H.
Qed.
Lemma moves_counted (B : Build) Seed Hi Lo V (Tr : VebOps Lo V) w eq (hash : Seed -> Hi -> N) tag draw bits0 (CT : CVeb Tr) (m : Swiss Seed Hi (vt Tr)) h lv :
  slots (cc_insert_key (probe_cost w eq hash tag draw bits0 CT) m h lv) =
  match sw_lookup w eq hash tag m h with
  | None => match outcome (cv_from_monad CT (fst lv) (snd lv)) with Ret _ => N.of_nat (sw_moves w hash m h) | Panic => 0 end + slots (cv_from_monad CT (fst lv) (snd lv))
  | Some (_, t) => slots (cv_insert CT t (fst lv) (snd lv))
  end.
Proof.
  cbn [probe_cost cc_insert_key]. unfold cpr_insert_key, tick. cbn [slots]. destruct (sw_lookup w eq hash tag m h) as [[i t]|]; unfold cbind.
  - destruct (outcome (cv_insert CT t (fst lv) (snd lv))) as [[t' v]|]; cbn; lia.
  - destruct (outcome (cv_from_monad CT (fst lv) (snd lv))) as [t0|]; cbn [outcome slots pay cret free]; lia.
Qed.
