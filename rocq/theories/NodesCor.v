(** The B-tree of Nodes.v is a correct ordered map, and its nodes keep their shape. *)
From Verif Require Import Base Ints Ops Spec ByteSet ByteMap Coll BTree Lists Laws BTreeProofs Hist Types HistProofs HashGen HashGenCor MapGen MapGenCor Nodes.
From Coq Require Import Lia.

Section Context.
  Context {K V : Type} {cmp : K -> K -> comparison} (OL : OrdLaws cmp).
  Implicit Types b m a l : list (K * V).
  Notation lows b k := (forall q : K * V, In q b -> cmp (fst q) k = Lt).
  Notation highs a k := (forall q : K * V, In q a -> cmp k (fst q) = Lt).
  Lemma drop_low {X} (f : list (K * V) -> X) (g : K * V -> X -> X) k b m : (forall p l, cmp k (fst p) = Gt -> f (p :: l) = g p (f l)) -> lows b k ->
    f (b ++ m) = fold_right g (f m) b.
  Proof.
    intros Hf. induction b as [|p b IH]; auto. intros H. cbn [app fold_right]. rewrite Hf, IH; auto; [intros; apply H; right; auto|].
    apply (gt_of_lt OL). apply H. left. auto.
  Qed.
  Lemma fold_cons b m : fold_right cons m b = b ++ m.
  Proof. induction b; cbn; congruence. Qed.
  Lemma ctx_get b m a k : lows b k -> highs a k -> map_get cmp (b ++ m ++ a) k = map_get cmp m k.
  Proof.
    intros Hb Ha. rewrite (drop_low (fun l => map_get cmp l k) (fun _ x => x) k); [|intros [j x] l E; cbn in *; rewrite E; auto|auto].
    transitivity (map_get cmp (m ++ a) k); [clear; induction b; auto|]. clear b Hb.
    induction m as [|[j x] m IH]; cbn; [|destruct (cmp k j); auto].
    destruct a as [|[j x] a]; auto. cbn. assert (E := Ha (j, x) (or_introl Logic.eq_refl)). cbn in E. rewrite E. auto.
  Qed.
  Lemma ctx_insert b m a k v : lows b k -> highs a k -> map_insert cmp (b ++ m ++ a) k v = b ++ map_insert cmp m k v ++ a.
  Proof.
    intros Hb Ha. rewrite (drop_low (fun l => map_insert cmp l k v) cons k); [|intros [j x] l E; cbn in *; rewrite E; auto|auto].
    rewrite fold_cons. f_equal. clear b Hb. induction m as [|[j x] m IH]; cbn; [|destruct (cmp k j); auto; rewrite IH; auto].
    destruct a as [|[j x] a]; auto. cbn. assert (E := Ha (j, x) (or_introl Logic.eq_refl)). cbn in E. rewrite E. auto.
  Qed.
  Lemma ctx_del b m a k : lows b k -> highs a k -> map_del cmp (b ++ m ++ a) k = b ++ map_del cmp m k ++ a.
  Proof.
    intros Hb Ha. rewrite (drop_low (fun l => map_del cmp l k) cons k); [|intros [j x] l E; cbn in *; rewrite E; auto|auto].
    rewrite fold_cons. f_equal. clear b Hb. induction m as [|[j x] m IH]; cbn; [|destruct (cmp k j); auto; rewrite IH; auto].
    destruct a as [|[j x] a]; auto. cbn. assert (E := Ha (j, x) (or_introl Logic.eq_refl)). cbn in E. rewrite E. auto.
  Qed.
  Lemma put_high a k v : highs a k -> map_put cmp a k v = a.
  Proof.
    induction a as [|[j x] a IH]; auto. intros H. cbn. assert (E := H (j, x) (or_introl Logic.eq_refl)). cbn in E. rewrite E, IH; auto. intros q Hq. apply H. right. auto.
  Qed.
  Lemma ctx_put b m a k v : lows b k -> highs a k -> map_put cmp (b ++ m ++ a) k v = b ++ map_put cmp m k v ++ a.
  Proof.
    intros Hb Ha. rewrite (drop_low (fun l => map_put cmp l k v) cons k); [|intros [j x] l E; cbn in *; rewrite E; auto|auto].
    rewrite fold_cons. f_equal. clear b Hb. induction m as [|[j x] m IH]; cbn; [apply put_high; auto|destruct (cmp k j); auto; rewrite IH; auto].
  Qed.
  Lemma insert_length m k v : length m <= length (map_insert cmp m k v) <= S (length m).
  Proof. induction m as [|[j x] m IH]; cbn; [lia|]. destruct (cmp k j); cbn; lia. Qed.
  Lemma del_length m k : pred (length m) <= length (map_del cmp m k) <= length m.
  Proof. induction m as [|[j x] m IH]; cbn; [lia|]. destruct (cmp k j); cbn; lia. Qed.
  Lemma put_length m k v : length (map_put cmp m k v) = length m.
  Proof. induction m as [|[j x] m IH]; cbn; [lia|]. destruct (cmp k j); cbn; lia. Qed.
  Lemma insert_count m k v : length (map_insert cmp m k v) = match map_get cmp m k with Some _ => length m | None => S (length m) end.
  Proof. induction m as [|[j x] m IH]; cbn; auto. destruct (cmp k j); cbn; auto. rewrite IH. destruct (map_get cmp m k); auto. Qed.
  Lemma del_count m k : length (map_del cmp m k) = match map_get cmp m k with Some _ => pred (length m) | None => length m end.
  Proof. induction m as [|[j x] m IH]; cbn; auto. destruct (cmp k j); cbn; auto. rewrite IH. destruct (map_get cmp m k) eqn:E; auto. destruct m; [discriminate|auto]. Qed.
End Context.

Section Trees.
  Context {K V : Type} {cmp : K -> K -> comparison} (OL : OrdLaws cmp).
  Notation P := (K * V)%type.
  Notation nd := (node P).
  Notation asc := (@ascending K V cmp).
  Notation lows b k := (forall q : K * V, In q b -> cmp (fst q) k = Lt).
  Notation highs a k := (forall q : K * V, In q a -> cmp k (fst q) = Lt).
  Definition elL (h : nat) (ls : list (nd h * P)) : list P := flat_map (fun bp => elems h (fst bp) ++ [snd bp]) (rev ls).
  Definition elR (h : nat) (r : list (P * nd h)) : list P := flat_map (fun pc => fst pc :: elems h (snd pc)) r.
  Lemma kid0_pair h (c : nd h) (r : list (P * nd h)) : kid0 (h := h) (c, r) = c.
  Proof. reflexivity. Qed.
  Lemma kids_pair h (c : nd h) (r : list (P * nd h)) : kids (h := h) (c, r) = r.
  Proof. reflexivity. Qed.
  Lemma elL_cons h b p ls : elL h ((b, p) :: ls) = elL h ls ++ elems h b ++ [p].
  Proof. unfold elL. cbn [rev]. rewrite flat_map_app. cbn [flat_map fst snd]. rewrite app_nil_r. reflexivity. Qed.
  Lemma elR_cons h p c r : elR h ((p, c) :: r) = p :: elems h c ++ elR h r.
  Proof. reflexivity. Qed.
  Lemma elR_app h r r' : elR h (r ++ r') = elR h r ++ elR h r'.
  Proof. apply flat_map_app. Qed.
  Lemma elems_S h (c : nd h) r : elems (S h) ((c, r) : nd (S h)) = elems h c ++ elR h r.
  Proof. reflexivity. Qed.
  Lemma elems_eta h (t : nd (S h)) : elems (S h) t = elems h (kid0 t) ++ elR h (kids t).
  Proof. destruct t. reflexivity. Qed.
  Lemma plug_elems h (ls : list (nd h * P)) : forall (c : nd h) (r : list (P * nd h)), elems (S h) (plug ls c r : nd (S h)) = elL h ls ++ elems h c ++ elR h r.
  Proof.
    induction ls as [|[b p] ls IH]; intros c r; [reflexivity|]. cbn [plug]. rewrite IH, elL_cons, elR_cons, <- !app_assoc. reflexivity.
  Qed.
  Lemma plug_shape lo h (ls : list (nd h * P)) : forall (c : nd h) (r : list (P * nd h)), shaped lo (S h) (plug ls c r : nd (S h)) <->
    lo <= length ls + length r <= 11 /\ Forall (fun bp : nd h * P => shaped 5 h (fst bp)) ls /\ shaped 5 h c /\ Forall (fun pc : P * nd h => shaped 5 h (snd pc)) r.
  Proof.
    induction ls as [|[b p] ls IH]; intros c r.
    - cbn [plug shaped fst snd length Nat.add]; unfold kid0, kids; cbn [fst snd kid0 kids]. intuition.
    - cbn [plug]. rewrite IH, !Forall_cons_iff. cbn [length fst snd]. rewrite Nat.add_succ_r. intuition.
  Qed.
  Lemma seek_plug {C : Type} k : forall r (ls : list (C * P)) c ls' c' r' x, seek cmp k ls c r = (ls', c', r', x) -> plug ls' c' r' = plug ls c r.
  Proof.
    induction r as [|[p d] r IH]; intros ls c ls' c' r' x E; cbn in E; [injection E as <- <- <- <-; auto|].
    destruct (cmp k (fst p)); [injection E as <- <- <- <-; auto..|]. apply IH in E. exact E.
  Qed.
  Lemma seek_left {C : Type} k : forall r (ls : list (C * P)) c ls' c' r' x, seek cmp k ls c r = (ls', c', r', x) ->
    match ls with [] => True | (_, p) :: _ => cmp (fst p) k = Lt end -> match ls' with [] => True | (_, p) :: _ => cmp (fst p) k = Lt end.
  Proof.
    induction r as [|[p d] r IH]; intros ls c ls' c' r' x E; cbn in E; [injection E as <- <- <- <-; auto|].
    destruct (cmp k (fst p)) eqn:Ek; [injection E as <- <- <- <-; auto..|]. intros _. apply IH in E; auto. apply (cmp_gt_lt OL). auto.
  Qed.
  Lemma seek_right {C : Type} k : forall r (ls : list (C * P)) c ls' c' r' x, seek cmp k ls c r = (ls', c', r', x) ->
    match x, r' with true, (p, _) :: _ => fst p = k | true, [] => False | false, (p, _) :: _ => cmp k (fst p) = Lt | false, [] => True end.
  Proof.
    induction r as [|[p d] r IH]; intros ls c ls' c' r' x E; cbn in E; [injection E as <- <- <- <-; auto|].
    destruct (cmp k (fst p)) eqn:Ek; [injection E as <- <- <- <-..|]; auto; [symmetry; apply (cmp_eq_eq OL); auto|]. apply IH in E; auto.
  Qed.
  Lemma lows_of h ls k : asc (elL h ls) -> match ls with [] => True | (_, p) :: _ => cmp (fst p) k = Lt end -> lows (elL h ls) k.
  Proof.
    destruct ls as [|[b p] ls]; [intros _ _ q []|]. rewrite elL_cons, app_assoc. intros Ha Hp q Hq. apply asc_app in Ha. destruct Ha as [_ [_ Ha]].
    apply in_app_iff in Hq. destruct Hq as [Hq|[<-|[]]]; auto. apply (cmp_trans OL) with (fst p); auto. apply Ha; [auto|left; auto].
  Qed.
  Lemma highs_of h r k : asc (elR h r) -> match r with [] => True | (p, _) :: _ => cmp k (fst p) = Lt end -> highs (elR h r) k.
  Proof.
    destruct r as [|[p c] r]; [intros _ _ q []|]. rewrite elR_cons. intros Ha Hp q Hq. apply asc_cons in Ha. destruct Ha as [_ Ha].
    destruct Hq as [<-|Hq]; auto. apply (cmp_trans OL) with (fst p); auto.
  Qed.
  (** what [search_node] finds *)
  Lemma focus h k (t : nd (S h)) : asc (elems (S h) t) ->
    exists (ls : list (nd h * P)) (c : nd h) (r : list (P * nd h)) (x : bool), seek cmp (C := nd h) k [] (kid0 t) (kids t) = (ls, c, r, x) /\ t = plug ls c r /\ elems (S h) t = elL h ls ++ elems h c ++ elR h r /\
      asc (elems h c) /\ lows (elL h ls) k /\
      match x with
      | true => exists v d r', r = ((k, v), d) :: r' /\ lows (elems h c) k /\ highs (elems h d ++ elR h r') k
      | false => highs (elR h r) k
      end.
  Proof.
    intros Ha. destruct (seek cmp (C := nd h) k [] (kid0 t) (kids t)) as [[[ls c] r] x] eqn:E. exists ls, c, r, x. split; auto.
    assert (Ep := seek_plug _ _ _ _ _ _ _ _ E). cbn [plug] in Ep.
    assert (Et : t = plug ls c r) by (rewrite Ep; destruct t; auto). split; auto.
    assert (Ee : elems (S h) t = elL h ls ++ elems h c ++ elR h r) by (rewrite Et; apply plug_elems). split; auto.
    rewrite Ee in Ha. apply asc_app in Ha. destruct Ha as [H1 [H2 H3]]. apply asc_app in H2. destruct H2 as [H2 [H4 H5]]. split; auto.
    split; [apply lows_of; auto; apply (seek_left _ _ _ _ _ _ _ _ E I)|].
    assert (Hr := seek_right _ _ _ _ _ _ _ _ E). destruct x; [|apply highs_of; auto].
    destruct r as [|[[j v] d] r]; [elim Hr|]. cbn in Hr. subst j. exists v, d, r. split; auto. rewrite elR_cons in *. apply asc_cons in H4. destruct H4 as [_ H4].
    split; [|auto]. intros q Hq. apply (H5 q (k, v)); auto. left. auto.
  Qed.

  (** *** Lookup and writes *)
  Lemma one_get k (v : V) : map_get cmp [(k, v)] k = Some (k, v).
  Proof. cbn. rewrite (cmp_refl OL). reflexivity. Qed.
  Lemma lows_app b b' k : lows b k -> lows b' k -> lows (b ++ b') k.
  Proof. intros H H' q Hq. apply in_app_iff in Hq. destruct Hq; auto. Qed.
  Lemma n_get_ok h k : forall t : nd h, asc (elems h t) -> n_get cmp h k t = map_get cmp (elems h t) k.
  Proof.
    induction h as [|h IH]; intros t Ha; [reflexivity|]. destruct (focus h k t Ha) as [ls [c [r [x [E [_ [Ee [Hc [Hl Hx]]]]]]]]].
    cbn [n_get]. rewrite E, Ee. destruct x.
    - destruct Hx as [v [d [r' [-> [H1 H2]]]]]. rewrite elR_cons. change ((k, v) :: elems h d ++ elR h r') with ([(k, v)] ++ elems h d ++ elR h r').
      rewrite app_assoc, (ctx_get OL), one_get; auto. apply lows_app; auto.
    - rewrite (ctx_get OL) by auto. destruct r as [|[p d] r]; apply IH; auto.
  Qed.
  Lemma n_put_ok h k v : forall t : nd h, asc (elems h t) -> elems h (n_put cmp h k v t) = map_put cmp (elems h t) k v.
  Proof.
    induction h as [|h IH]; intros t Ha; [reflexivity|]. destruct (focus h k t Ha) as [ls [c [r [x [E [_ [Ee [Hc [Hl Hx]]]]]]]]].
    cbn [n_put]. rewrite E, Ee. destruct x.
    - destruct Hx as [w [d [r' [-> [H1 H2]]]]]. rewrite plug_elems, !elR_cons. cbn [fst].
      change ((k, w) :: elems h d ++ elR h r') with ([(k, w)] ++ elems h d ++ elR h r').
      rewrite (app_assoc _ (elems h c) ([(k, w)] ++ _)), (ctx_put OL) by (auto; apply lows_app; auto). cbn. rewrite (cmp_refl OL), <- !app_assoc. reflexivity.
    - rewrite (ctx_put OL), <- IH by auto. destruct r as [|[p d] r]; apply plug_elems.
  Qed.
  Lemma n_put_shape h k v : forall lo (t : nd h), asc (elems h t) -> shaped lo h t -> shaped lo h (n_put cmp h k v t).
  Proof.
    induction h as [|h IH]; intros lo t Ha Ht; [cbn in *; rewrite put_length; auto|]. destruct (focus h k t Ha) as [ls [c [r [x [E [Et [_ [Hc [_ Hx]]]]]]]]].
    cbn [n_put]. rewrite E. rewrite Et in Ht. apply plug_shape in Ht. destruct Ht as [Hn [H1 [H2 H3]]]. destruct x.
    - destruct Hx as [w [d [r' [-> _]]]]. apply plug_shape. split; auto. split; auto. split; auto. apply Forall_cons_iff in H3. apply Forall_cons_iff. auto.
    - destruct r as [|[p d] r]; apply plug_shape; auto.
  Qed.

  (** *** Insertion *)
  Definition gel (h : nat) (g : Grown (K := K) (V := V) (nd h)) : list P := match g with Fit t => elems h t | Split t p u => elems h t ++ p :: elems h u end.
  Definition gshape (lo h : nat) (g : Grown (K := K) (V := V) (nd h)) : Prop := match g with Fit t => shaped lo h t | Split t _ u => shaped 5 h t /\ shaped 5 h u end.
  Lemma splitpoint_range e : 5 <= splitpoint e <= 6.
  Proof. unfold splitpoint. destruct ((e <? 5) || (e =? 6))%bool; lia. Qed.
  Lemma grow0_ok e (t : nd 0) : gel 0 (grow0 e t) = t.
  Proof.
    unfold grow0. destruct (length t <=? CAP); auto. destruct (skipn (splitpoint e) t) eqn:E; auto. cbn [gel elems]. rewrite <- E. apply firstn_skipn.
  Qed.
  Lemma grow_gen {C : Type} e (t : C * list (P * C)) :
    match grow e t with Fit t' => t' = t | Split a p u => fst a = fst t /\ snd t = snd a ++ (p, fst u) :: snd u end.
  Proof.
    unfold grow. destruct (length (snd t) <=? CAP); auto. destruct (skipn (splitpoint e) (snd t)) as [|[p d] r] eqn:E; auto. cbn [fst snd kid0 kids]. split; auto.
    rewrite <- E. symmetry. apply firstn_skipn.
  Qed.
  Lemma grow_ok h e (t : nd (S h)) : gel (S h) (grow (C := nd h) e t) = elems (S h) t.
  Proof.
    assert (G := grow_gen (C := nd h) e t). destruct (grow (C := nd h) e t) as [t'|[a al] p [b bl]]; cbn [gel]; [rewrite G; auto|]. cbn [fst snd kid0 kids] in G.
    destruct t as [c r]. cbn [fst snd kid0 kids] in G. destruct G as [-> ->]. rewrite !elems_S, elR_app, elR_cons, <- !app_assoc. reflexivity.
  Qed.
  Lemma n_insert_ok h k v : forall t : nd h, asc (elems h t) -> gel h (n_insert cmp h k v t) = map_insert cmp (elems h t) k v.
  Proof.
    induction h as [|h IH]; intros t Ha; [apply grow0_ok|]. destruct (focus h k t Ha) as [ls [c [r [x [E [_ [Ee [Hc [Hl Hx]]]]]]]]].
    cbn [n_insert]. rewrite E, Ee. destruct x.
    - destruct Hx as [w [d [r' [-> [H1 H2]]]]]. cbn [gel]. rewrite plug_elems, !elR_cons. cbn [fst].
      change ((k, w) :: elems h d ++ elR h r') with ([(k, w)] ++ elems h d ++ elR h r').
      rewrite (app_assoc _ (elems h c) ([(k, w)] ++ _)), (ctx_insert OL) by (auto; apply lows_app; auto). cbn. rewrite (cmp_refl OL), <- !app_assoc. reflexivity.
    - rewrite (ctx_insert OL), <- IH by auto.
      assert (H : gel (S h) match n_insert cmp h k v c with Fit c' => Fit (plug ls c' r : nd (S h)) | Split a q b => grow (C := nd h) (length ls) (plug ls a ((q, b) :: r)) end
        = elL h ls ++ gel h (n_insert cmp h k v c) ++ elR h r).
      { destruct (n_insert cmp h k v c); cbn [gel]; [apply plug_elems|]. rewrite grow_ok, plug_elems, elR_cons, <- !app_assoc. reflexivity. }
      destruct r as [|[p d] r]; exact H.
  Qed.
  Lemma grow0_shape lo e (t : nd 0) : lo <= 5 -> lo <= length t <= 12 -> gshape lo 0 (grow0 e t).
  Proof.
    intros Hlo Ht. unfold grow0, CAP. destruct (length t <=? 11) eqn:E; [apply Nat.leb_le in E; cbn; lia|]. apply Nat.leb_gt in E.
    assert (Hs := splitpoint_range e). assert (Hk := skipn_length (splitpoint e) t). assert (Hf := firstn_length (splitpoint e) t).
    destruct (skipn (splitpoint e) t) as [|p r]; cbn [gshape shaped length] in *; lia.
  Qed.
  Lemma grow_lengths {C : Type} (Q : C -> Prop) lo e (t : C * list (P * C)) : lo <= length (snd t) <= 12 -> Q (fst t) -> Forall (fun pc => Q (snd pc)) (snd t) ->
    match grow e t with
    | Fit t' => lo <= length (snd t') <= 11 /\ Q (fst t') /\ Forall (fun pc => Q (snd pc)) (snd t')
    | Split a _ u => (5 <= length (snd a) <= 11 /\ Q (fst a) /\ Forall (fun pc => Q (snd pc)) (snd a)) /\
        5 <= length (snd u) <= 11 /\ Q (fst u) /\ Forall (fun pc => Q (snd pc)) (snd u)
    end.
  Proof.
    destruct t as [c r]. unfold grow, CAP. cbn [fst snd kid0 kids]. intros Ht H1 H2. destruct (length r <=? 11) eqn:E; [apply Nat.leb_le in E; cbn [fst snd kid0 kids]; repeat split; auto; lia|].
    apply Nat.leb_gt in E. assert (Hs := splitpoint_range e). assert (Hk := skipn_length (splitpoint e) r). assert (Hf := firstn_length (splitpoint e) r).
    rewrite <- (firstn_skipn (splitpoint e) r) in H2. apply Forall_app in H2. destruct H2 as [H2 H3].
    destruct (skipn (splitpoint e) r) as [|[p d] r']; cbn [length fst snd] in *; [lia|]. apply Forall_cons_iff in H3.
    split; (split; [lia|]); tauto.
  Qed.
  Lemma grow_shape lo h e (t : nd (S h)) : lo <= length (kids t) <= 12 -> shaped 5 h (kid0 t) -> Forall (fun pc : P * nd h => shaped 5 h (snd pc)) (kids t) ->
    gshape lo (S h) (grow (C := nd h) e t).
  Proof.
    intros Hn H1 H2. assert (G := grow_lengths (C := nd h) (shaped 5 h) lo e t Hn H1 H2).
    destruct (grow (C := nd h) e t); exact G.
  Qed.
  Lemma plug_parts {C : Type} (Q : C -> Prop) (ls : list (C * P)) : forall c r, Forall (fun bp => Q (fst bp)) ls -> Q c -> Forall (fun pc => Q (snd pc)) r ->
    Q (fst (plug ls c r)) /\ Forall (fun pc => Q (snd pc)) (snd (plug ls c r)) /\ length (snd (plug ls c r)) = length ls + length r.
  Proof.
    induction ls as [|[b p] ls IH]; intros c r H1 H2 H3; [auto|]. cbn [plug]. apply Forall_cons_iff in H1. destruct H1 as [H0 H1].
    destruct (IH b ((p, c) :: r) H1 H0) as [G1 [G2 G3]]; [apply Forall_cons_iff; auto|]. split; auto. split; auto. rewrite G3. cbn. lia.
  Qed.
  Lemma n_insert_shape h k v : forall lo (t : nd h), lo <= 5 -> asc (elems h t) -> shaped lo h t -> gshape lo h (n_insert cmp h k v t).
  Proof.
    induction h as [|h IH]; intros lo t Hlo Ha Ht.
    - cbn [n_insert]. apply grow0_shape; auto. assert (H := insert_length (cmp := cmp) t k v). cbn [shaped] in Ht. cbn [node] in *. lia.
    - destruct (focus h k t Ha) as [ls [c [r [x [E [Et [_ [Hc [_ Hx]]]]]]]]].
      cbn [n_insert]. rewrite E. rewrite Et in Ht. apply plug_shape in Ht. destruct Ht as [Hn [H1 [H2 H3]]]. destruct x.
      + destruct Hx as [w [d [r' [-> _]]]]. cbn [gshape]. apply plug_shape. split; auto. split; auto. split; auto. apply Forall_cons_iff in H3. apply Forall_cons_iff. auto.
      + assert (Hg := IH 5 c (le_n _) Hc H2).
        assert (H : gshape lo (S h) match n_insert cmp h k v c with Fit c' => Fit (plug ls c' r : nd (S h)) | Split a q b => grow (C := nd h) (length ls) (plug ls a ((q, b) :: r)) end).
        { destruct (n_insert cmp h k v c) as [c'|a q b]; cbn [gshape] in *; [apply plug_shape; auto|].
          destruct Hg as [Hg1 Hg2]. destruct (plug_parts (shaped 5 h) ls a ((q, b) :: r)) as [G1 [G2 G3]]; auto. apply grow_shape; auto.
          assert (Hlen : lo <= length ls + length ((q, b) :: r) <= 12) by (cbn [length]; lia). rewrite <- G3 in Hlen. exact Hlen. }
        destruct r as [|[p d] r]; exact H.
  Qed.

  (** *** Removal *)
  Lemma merge_elems h (b : nd h) (p : P) (c : nd h) : elems h (merge h b p c) = elems h b ++ p :: elems h c.
  Proof. destruct h; [reflexivity|]. cbn [merge]. rewrite elems_S, !elems_eta, elR_app, elR_cons, <- !app_assoc. reflexivity. Qed.
  Lemma last_split {A} (l : list A) q : last_error l = Some q -> l = removelast l ++ [q].
  Proof. intros E. destruct (last_error_in _ _ E) as [l' ->]. rewrite removelast_last. reflexivity. Qed.
  Lemma last_map (l : list P) : map_last l = last_error l.
  Proof. apply last_spec. Qed.
  Lemma steal_left_elems h (b : nd h) (p : P) (c : nd h) : match steal_left h b p c with (b', q, c') => elems h b' ++ q :: elems h c' = elems h b ++ p :: elems h c end.
  Proof.
    destruct h as [|h]; cbn [steal_left].
    - rewrite last_map. destruct (last_error b) as [q|] eqn:E; auto. cbn [elems]. rewrite init_removelast. rewrite (last_split b q E) at 2. rewrite <- app_assoc. reflexivity.
    - destruct (last_error (kids b)) as [[q d]|] eqn:E; auto. rewrite !elems_S, !elems_eta, elR_cons. rewrite (last_split _ _ E) at 2. rewrite elR_app, elR_cons, <- !app_assoc.
      cbn [elR flat_map app]. rewrite <- ?app_assoc. reflexivity.
  Qed.
  Lemma steal_right_elems h (c : nd h) (p : P) (d : nd h) : match steal_right h c p d with (c', q, d') => elems h c' ++ q :: elems h d' = elems h c ++ p :: elems h d end.
  Proof.
    destruct h as [|h]; cbn [steal_right].
    - destruct d as [|q d]; auto. cbn [elems]. rewrite <- app_assoc. reflexivity.
    - destruct d as [d0 [|[q d1] dl]]; cbn [kids kid0 snd fst]; auto. rewrite !elems_S, !elems_eta, elR_app, !elR_cons, <- !app_assoc. cbn [elR flat_map app]. rewrite ?app_nil_r, <- ?app_assoc. reflexivity.
  Qed.
  Lemma mend_elems h (ls : list (nd h * P)) (c : nd h) (r : list (P * nd h)) : elems (S h) (mend h ls c r) = elL h ls ++ elems h c ++ elR h r.
  Proof.
    unfold mend. destruct (width h c <? MINL); [|apply plug_elems]. destruct ls as [|[b p] ls].
    - destruct r as [|[p d] r]; [reflexivity|]. destruct (_ <=? CAP).
      + rewrite elems_S, merge_elems, elR_cons, <- app_assoc. reflexivity.
      + assert (H := steal_right_elems h c p d). destruct (steal_right h c p d) as [[c' q] d']. rewrite elems_S, !elR_cons. rewrite app_comm_cons, !app_assoc, H, <- !app_assoc. reflexivity.
    - destruct (_ <=? CAP).
      + rewrite plug_elems, merge_elems, elL_cons, <- !app_assoc. reflexivity.
      + assert (H := steal_left_elems h b p c). destruct (steal_left h b p c) as [[b' q] c']. rewrite plug_elems, elL_cons, elR_cons.
        rewrite <- !app_assoc. f_equal. cbn [app]. rewrite app_comm_cons, !app_assoc, H, <- !app_assoc. reflexivity.
  Qed.
  Definition inner (h : nat) : nd h -> Prop :=
    match h return nd h -> Prop with 0 => fun _ => True | S h' => fun t => shaped 5 h' (kid0 t) /\ Forall (fun pc : P * nd h' => shaped 5 h' (snd pc)) (kids t) end.
  Lemma shaped_iff lo h (t : nd h) : shaped lo h t <-> lo <= width h t <= 11 /\ inner h t.
  Proof. destruct h; cbn; tauto. Qed.
  Lemma shaped_mono lo lo' h (t : nd h) : lo' <= lo -> shaped lo h t -> shaped lo' h t.
  Proof. rewrite !shaped_iff. intuition lia. Qed.
  Lemma merge_parts h (b : nd h) (p : P) (c : nd h) : inner h b -> inner h c -> inner h (merge h b p c) /\ width h (merge h b p c) = width h b + 1 + width h c.
  Proof.
    destruct h; cbn [merge inner width]; intros Hb Hc; [split; auto; rewrite app_length; cbn; lia|]. cbn [fst snd kid0 kids]. rewrite app_length. cbn [length].
    split; [|lia]. split; [tauto|]. apply Forall_app. split; [tauto|]. apply Forall_cons_iff. tauto.
  Qed.
  Lemma removelast_length {A} (l : list A) : length (removelast l) = pred (length l).
  Proof. destruct l as [|a l _] using rev_ind; auto. rewrite removelast_last, app_length. cbn. lia. Qed.
  Lemma steal_left_parts h (b : nd h) (p : P) (c : nd h) : inner h b -> inner h c -> 0 < width h b ->
    match steal_left h b p c with (b', q, c') => inner h b' /\ inner h c' /\ width h b' = pred (width h b) /\ width h c' = S (width h c) end.
  Proof.
    destruct h as [|h]; cbn [steal_left inner width]; intros Hb Hc Hw.
    - rewrite last_map. destruct (last_error b) as [q|] eqn:E; [|apply last_error_none in E; subst; cbn in Hw; lia]. rewrite init_removelast, removelast_length. auto.
    - destruct (last_error (kids b)) as [[q d]|] eqn:E; [|apply last_error_none in E; rewrite E in Hw; cbn in Hw; lia]. rewrite !kid0_pair, !kids_pair. cbn [fst snd length].
      rewrite removelast_length. destruct Hb as [H1 H2]. rewrite (last_split _ _ E) in H2. apply Forall_app in H2. destruct H2 as [H2 H3]. apply Forall_cons_iff in H3.
      rewrite Forall_cons_iff. tauto.
  Qed.
  Lemma steal_right_parts h (c : nd h) (p : P) (d : nd h) : inner h c -> inner h d -> 0 < width h d ->
    match steal_right h c p d with (c', q, d') => inner h c' /\ inner h d' /\ width h d' = pred (width h d) /\ width h c' = S (width h c) end.
  Proof.
    destruct h as [|h]; cbn [steal_right inner width]; intros Hc Hd Hw.
    - destruct d as [|q d]; [cbn in Hw; lia|]. rewrite app_length. cbn [length pred]. repeat split; lia.
    - destruct d as [d0 [|[q d1] dl]]; cbn [kids kid0 fst snd length] in *; [lia|]. rewrite app_length. cbn [length]. destruct Hd as [H1 H2]. apply Forall_cons_iff in H2.
      rewrite Forall_app, Forall_cons_iff. cbn [snd] in *. intuition (auto with arith). apply Nat.add_1_r.
  Qed.
  Lemma mend_shape lo h (ls : list (nd h * P)) (c : nd h) (r : list (P * nd h)) : 1 <= lo -> lo <= length ls + length r <= 11 -> Forall (fun bp : nd h * P => shaped 5 h (fst bp)) ls -> shaped 4 h c ->
    Forall (fun pc : P * nd h => shaped 5 h (snd pc)) r -> shaped (pred lo) (S h) (mend h ls c r).
  Proof.
    intros Hlo Hn H1 Hc H3. unfold mend, MINL, CAP. destruct (width h c <? 5) eqn:E.
    2:{ apply Nat.ltb_ge in E. apply plug_shape. split; [lia|]. split; auto. split; auto. apply shaped_iff in Hc. apply shaped_iff. intuition lia. }
    apply Nat.ltb_lt in E. apply shaped_iff in Hc. destruct Hc as [Hw Hi]. destruct ls as [|[b p] ls].
    - destruct r as [|[p d] r]; [cbn in Hn; lia|]. apply Forall_cons_iff in H3. destruct H3 as [Hd H3]. cbn [snd] in Hd. apply shaped_iff in Hd. destruct Hd as [Hdw Hdi]. cbn [length] in Hn.
      destruct (_ <=? 11) eqn:E2.
      + apply Nat.leb_le in E2. destruct (merge_parts h c p d Hi Hdi) as [G1 G2]. cbn [shaped kid0 kids fst snd]. split; [lia|]. split; auto. apply shaped_iff. rewrite G2. split; auto. lia.
      + apply Nat.leb_gt in E2. assert (G := steal_right_parts h c p d Hi Hdi). destruct (steal_right h c p d) as [[c' q] d']. destruct G as [G1 [G2 [G3 G4]]]; [lia|].
        cbn [shaped kid0 kids fst snd length]. split; [lia|]. split; [apply shaped_iff; split; auto; lia|]. apply Forall_cons_iff. split; auto. cbn [snd]. apply shaped_iff. split; auto. lia.
    - apply Forall_cons_iff in H1. destruct H1 as [Hb H1]. cbn [fst] in Hb. apply shaped_iff in Hb. destruct Hb as [Hbw Hbi]. cbn [length] in Hn.
      destruct (_ <=? 11) eqn:E2.
      + apply Nat.leb_le in E2. destruct (merge_parts h b p c Hbi Hi) as [G1 G2]. apply plug_shape. split; [lia|]. split; auto. split; auto. apply shaped_iff. rewrite G2. split; auto. lia.
      + apply Nat.leb_gt in E2. assert (G := steal_left_parts h b p c Hbi Hi). destruct (steal_left h b p c) as [[b' q] c']. destruct G as [G1 [G2 [G3 G4]]]; [lia|].
        apply plug_shape. cbn [length]. split; [lia|]. split; auto. split; [apply shaped_iff; split; auto; lia|]. apply Forall_cons_iff. split; auto. cbn [snd]. apply shaped_iff. split; auto. lia.
  Qed.
  Lemma to_last_plug {C : Type} : forall r (ls : list (C * P)) c, match to_last ls c r with (ls', c') => plug ls' c' [] = plug ls c r end.
  Proof. induction r as [|[p d] r IH]; intros ls c; cbn [to_last]; auto. assert (H := IH ((c, p) :: ls) d). destruct (to_last ((c, p) :: ls) d r). exact H. Qed.
  Lemma n_pop_last_ok h : forall lo (t : nd h), 1 <= lo -> shaped lo h t ->
    exists t' q, n_pop_last h t = Some (t', q) /\ elems h t = elems h t' ++ [q] /\ shaped (pred lo) h t'.
  Proof.
    induction h as [|h IH]; intros lo t Hlo Ht.
    - cbn [n_pop_last shaped elems] in *. rewrite last_map, init_removelast. destruct (last_error t) as [q|] eqn:E; [|apply last_error_none in E; subst; cbn in Ht; lia].
      exists (removelast t), q. split; auto. split; [apply last_split; auto|]. rewrite removelast_length. lia.
    - cbn [n_pop_last]. assert (Hp := to_last_plug (kids t) [] (kid0 t)). destruct (to_last [] (kid0 t) (kids t)) as [ls c]. cbn [plug] in Hp.
      assert (Et : t = plug ls c []) by (rewrite Hp; destruct t; auto). rewrite Et in Ht. apply plug_shape in Ht. destruct Ht as [Hn [H1 [H2 H3]]].
      destruct (IH 5 c) as [c' [q [E [Ec Hc]]]]; [lia|auto|]. rewrite E. exists (mend h ls c' []), q. split; auto.
      split; [|apply mend_shape; auto]. rewrite Et, plug_elems, mend_elems, Ec. cbn [elR flat_map]. rewrite !app_nil_r, app_assoc. reflexivity.
  Qed.
  Lemma n_pop_first_ok h : forall lo (t : nd h), 1 <= lo -> shaped lo h t ->
    exists t' q, n_pop_first h t = Some (t', q) /\ elems h t = q :: elems h t' /\ shaped (pred lo) h t'.
  Proof.
    induction h as [|h IH]; intros lo t Hlo Ht.
    - cbn [n_pop_first shaped elems] in *. destruct t as [|q t]; [cbn in Ht; lia|]. exists t, q. split; auto. split; auto. cbn [length] in Ht. cbn [node] in *. lia.
    - cbn [n_pop_first]. cbn [shaped] in Ht. destruct Ht as [Hn [H1 H2]]. destruct (IH 5 (kid0 t)) as [c' [q [E [Ec Hc]]]]; [lia|auto|]. rewrite E.
      exists (mend h [] c' (kids t)), q. split; auto. split; [|apply mend_shape; auto; cbn; lia]. rewrite mend_elems, elems_eta, Ec. reflexivity.
  Qed.
  Lemma n_remove_ok h k : forall lo (t : nd h), match h with 0 => True | S _ => 1 <= lo end -> asc (elems h t) -> shaped lo h t ->
    elems h (n_remove cmp h k t) = map_del cmp (elems h t) k /\ shaped (pred lo) h (n_remove cmp h k t).
  Proof.
    induction h as [|h IH]; intros lo t Hlo Ha Ht.
    - split; [reflexivity|]. cbn in *. assert (H := del_length (cmp := cmp) t k). lia.
    - destruct (focus h k t Ha) as [ls [c [r [x [E [Et [Ee [Hc [Hl Hx]]]]]]]]].
      cbn [n_remove]. rewrite E, Ee. rewrite Et in Ht. apply plug_shape in Ht. destruct Ht as [Hn [H1 [H2 H3]]]. destruct x.
      + destruct Hx as [v [d [r' [-> [G1 G2]]]]]. destruct (n_pop_last_ok h 5 c) as [c' [q [E2 [Ec Hc']]]]; [lia|auto|]. rewrite E2. split.
        * rewrite mend_elems, !elR_cons. change ((k, v) :: elems h d ++ elR h r') with ([(k, v)] ++ elems h d ++ elR h r').
          rewrite (app_assoc _ (elems h c) ([(k, v)] ++ _)), (ctx_del OL) by (auto; apply lows_app; auto). cbn. rewrite (cmp_refl OL). cbn [app]. rewrite Ec, <- !app_assoc. reflexivity.
        * apply Forall_cons_iff in H3. apply mend_shape; auto. apply Forall_cons_iff. auto.
      + assert (H : match h with 0 => True | S _ => 1 <= 5 end) by (destruct h; auto; lia). destruct (IH 5 c H Hc H2) as [G1 G2].
        assert (Hm : elems (S h) (mend h ls (n_remove cmp h k c) r) = map_del cmp (elL h ls ++ elems h c ++ elR h r) k /\ shaped (pred lo) (S h) (mend h ls (n_remove cmp h k c) r)).
        { split; [|apply mend_shape; auto]. rewrite mend_elems, G1, (ctx_del OL) by auto. reflexivity. }
        destruct r as [|[p d] r]; exact Hm.
  Qed.

  (** *** The ends and the ranges *)
  Lemma shaped_some lo h (t : nd h) : 1 <= lo -> shaped lo h t -> elems h t <> [].
  Proof. intros Hlo Ht E. destruct (n_pop_first_ok h lo t Hlo Ht) as [t' [q [_ [Eq _]]]]. rewrite Eq in E. discriminate. Qed.
  Lemma n_first_ok h : forall lo (t : nd h), shaped lo h t -> n_first h t = hd_error (elems h t).
  Proof.
    induction h as [|h IH]; intros lo t Ht; [reflexivity|]. destruct Ht as [_ [H1 _]]. cbn [n_first]. rewrite (IH 5) by auto. rewrite elems_eta.
    assert (H := shaped_some 5 h (kid0 t)). destruct (elems h (kid0 t)); [elim H; auto; lia|reflexivity].
  Qed.
  Lemma n_last_ok h : forall lo (t : nd h), shaped lo h t -> n_last h t = last_error (elems h t).
  Proof.
    induction h as [|h IH]; intros lo t Ht; [apply last_map|]. cbn [n_last]. assert (Hp := to_last_plug (kids t) [] (kid0 t)).
    destruct (to_last [] (kid0 t) (kids t)) as [ls c]. cbn [plug snd] in *. assert (Et : t = plug ls c []) by (rewrite Hp; destruct t; auto).
    rewrite Et in Ht. apply plug_shape in Ht. destruct Ht as [Hn [H1 [H2 H3]]]. rewrite (IH 5), Et, plug_elems by auto. cbn [elR flat_map]. rewrite app_nil_r.
    assert (H : elems h c <> []) by (apply (shaped_some 5); auto; lia). destruct (elems h c) as [|q l _] using rev_ind; [elim H; auto|]. rewrite app_assoc, !last_error_app. reflexivity.
  Qed.
  Section Ranges.
    Context (g : P -> bool).
    Lemma find_filter (l : list P) : find g l = hd_error (filter g l).
    Proof. induction l as [|p l IH]; auto. cbn. destruct (g p); auto. Qed.
    Lemma n_lower_ok h : (forall a b, cmp (fst a) (fst b) = Lt -> g a = true -> g b = true) -> forall t : nd h, asc (elems h t) -> n_lower h g t = hd_error (filter g (elems h t)).
    Proof.
      intros Hg. induction h as [|h IH]; [intros t _; apply find_filter|]. intros [c r]. rewrite elems_S. cbn [n_lower]. rewrite kid0_pair, kids_pair. revert c.
      induction r as [|[p d] r IHr]; intros c Ha; cbn [along]; [cbn [elR flat_map] in *; rewrite app_nil_r in *; apply IH; auto|].
      rewrite elR_cons in *. apply asc_app in Ha. destruct Ha as [H1 [H2 H3]]. rewrite filter_app. cbn [filter]. destruct (g p) eqn:E; [rewrite hd_app, IH by auto; reflexivity|].
      rewrite (filter_none _ (elems h c)); [apply IHr; apply asc_cons in H2; apply H2|].
      intros q Hq. destruct (g q) eqn:E2; auto. assert (Hp : g p = true) by (apply (Hg q p); auto; apply H3; auto; left; auto). congruence.
    Qed.
    Lemma last_orelse (l l' : list P) : last_error (l ++ l') = match last_error l' with Some q => Some q | None => last_error l end.
    Proof. destruct l' as [|q l' _] using rev_ind; [rewrite app_nil_r; auto|]. rewrite app_assoc, !last_error_app. reflexivity. Qed.
    Lemma n_upper_ok h : (forall a b, cmp (fst a) (fst b) = Lt -> g b = true -> g a = true) -> forall t : nd h, asc (elems h t) -> n_upper h g t = last_error (filter g (elems h t)).
    Proof.
      intros Hg. induction h as [|h IH]; [intros t _; apply last_map|]. intros [c r]. rewrite elems_S. cbn [n_upper]. rewrite kid0_pair, kids_pair.
      assert (H : forall o c, asc (elems h c ++ elR h r) -> along_back g (n_upper h g) o c r = match last_error (filter g (elems h c ++ elR h r)) with Some q => Some q | None => o end).
      { clear c. induction r as [|[p d] r IHr]; intros o c Ha; cbn [along_back]; [cbn [elR flat_map] in *; rewrite app_nil_r in *; rewrite IH by auto; auto|].
        rewrite elR_cons in *. apply asc_app in Ha. destruct Ha as [H1 [H2 H3]]. apply asc_cons in H2. destruct H2 as [H2 H4]. rewrite filter_app. cbn [filter]. destruct (g p) eqn:E.
        - rewrite IHr, last_app by auto. destruct (last_error (filter g (elems h d ++ elR h r))); auto.
        - rewrite (filter_none _ (elems h d ++ elR h r)), app_nil_r, IH; auto. intros q Hq. destruct (g q) eqn:E2; auto. assert (Hp : g p = true) by (apply (Hg p q); auto). congruence. }
      intros Ha. rewrite H by auto. destruct (last_error _); auto.
    Qed.
  End Ranges.

  (** *** The map *)
  Definition nm_list (m : NMap (K := K) (V := V)) : list P := elems _ (nm_root m).
  Definition nm_inv (m : NMap (K := K) (V := V)) : Prop := asc (nm_list m) /\ well_shaped m /\ nm_length m = N.of_nat (length (nm_list m)).
  Lemma root_ok h (t : nd h) n : shaped 0 h t -> well_shaped (lower_root h t n) /\ nm_list (lower_root h t n) = elems h t /\ nm_length (lower_root h t n) = n.
  Proof.
    destruct h as [|h]; cbn [lower_root]; [unfold well_shaped, nm_list; auto|]. intros Ht. destruct t as [c r]. destruct r as [|x r]; rewrite kids_pair; cbn [nm_list].
    - destruct Ht as [_ [H _]]. unfold well_shaped, nm_list. cbn [nm_height nm_root nm_length]. split; [apply (shaped_mono 5); [destruct h; lia|exact H]|]. rewrite elems_S. cbn [elR flat_map]. rewrite app_nil_r. auto.
    - unfold well_shaped, nm_list. cbn [nm_height nm_root nm_length]. split; auto. destruct Ht as [H1 H2]. split; auto. rewrite kids_pair in *. cbn [length] in *. lia.
  Qed.
  Lemma well_lower (m : NMap (K := K) (V := V)) : well_shaped m -> exists lo, lo <= 5 /\ shaped lo _ (nm_root m) /\ match nm_height m with 0 => True | S _ => 1 <= lo end /\
    (nm_list m <> [] -> 1 <= lo).
  Proof.
    destruct m as [h t n]. unfold well_shaped, nm_list. cbn [nm_height nm_root]. destruct h as [|h]; intros H; [|exists 1; split; [lia|]; split; [exact H|]; split; auto].
    exists (Nat.min 1 (length t)). cbn [shaped elems] in *. cbn [node] in *. split; [lia|]. split; [lia|]. split; auto. destruct t; [congruence|cbn; lia].
  Qed.
  Lemma nm_insert_ok m k v : nm_inv m -> nm_inv (nm_insert cmp m k v) /\ nm_list (nm_insert cmp m k v) = sp_insert cmp k v (nm_list m).
  Proof.
    intros [Ha [Hs Hn]]. assert (Hi := n_insert_ok _ k v (nm_root m) Ha). fold (nm_list m) in Hi. rewrite (insert_insert OL) in Hi by auto.
    assert (Hc := insert_count (cmp := cmp) (nm_list m) k v). rewrite (insert_insert OL) in Hc by auto. unfold nm_inv.
    assert (Hl : nm_list (nm_insert cmp m k v) = sp_insert cmp k v (nm_list m)).
    { unfold nm_insert. destruct (n_insert cmp _ k v (nm_root m)) as [t|t p u]; unfold nm_list at 1; cbn [nm_height nm_root]; rewrite <- Hi; auto. rewrite elems_S. cbn [gel elR flat_map]. rewrite app_nil_r. reflexivity. }
    rewrite Hl. split; [|auto]. split; [apply (sp_insert_asc OL); auto|]. split.
    - unfold nm_insert. assert (Hg := fun lo H => n_insert_shape _ k v lo (nm_root m) H Ha). unfold well_shaped in *. assert (H5 : match nm_height m with 0 => 0 | S _ => 1 end <= 5) by (clear; destruct (nm_height m); lia). specialize (Hg _ H5 Hs).
      destruct (n_insert cmp _ k v (nm_root m)) as [t|t p u]; cbn [nm_height nm_root gshape] in *; auto. destruct Hg as [Hg1 Hg2]. cbn [shaped kid0 kids fst snd length]. split; [lia|]. split; auto.
    - rewrite Hc. unfold nm_insert, nm_get. rewrite n_get_ok by auto. fold (nm_list m).
      destruct (n_insert cmp _ k v (nm_root m)); cbn [nm_length]; destruct (map_get cmp (nm_list m) k); lia.
  Qed.
  Lemma nm_put_ok m k w : nm_inv m -> nm_inv (nm_put cmp m k w) /\ nm_list (nm_put cmp m k w) = sp_write cmp k w (nm_list m).
  Proof.
    intros [Ha [Hs Hn]]. unfold nm_inv.
    assert (Hl : nm_list (nm_put cmp m k w) = sp_write cmp k w (nm_list m)) by (unfold nm_list at 1, nm_put; cbn [nm_root]; rewrite n_put_ok, (put_write OL) by auto; reflexivity).
    rewrite Hl. split; [|auto]. split; [apply sp_write_asc; auto|]. split; [apply n_put_shape; auto|]. cbn [nm_put nm_length]. unfold sp_write. rewrite map_length. auto.
  Qed.
  Lemma nm_remove_ok m k p : nm_inv m -> sp_find cmp k (nm_list m) = Some p ->
    nm_inv (nm_remove cmp m k) /\ nm_list (nm_remove cmp m k) = sp_remove cmp k (nm_list m).
  Proof.
    intros [Ha [Hs Hn]] Hf. destruct (well_lower m Hs) as [lo [Hlo [Ht [H1 H2]]]]. destruct (n_remove_ok _ k lo (nm_root m) H1 Ha Ht) as [G1 G2].
    assert (Hz : shaped 0 _ (n_remove cmp _ k (nm_root m))) by (apply (shaped_mono (pred lo)); auto; lia).
    destruct (root_ok _ _ (nm_length m - 1) Hz) as [R1 [R2 R3]]. fold (nm_remove cmp m k) in R1, R2, R3. rewrite G1 in R2. fold (nm_list m) in R2.
    assert (Hc := del_count (cmp := cmp) (nm_list m) k). rewrite (get_find OL), Hf in Hc by auto. rewrite (del_remove OL) in * by auto.
    unfold nm_inv. rewrite R2, R3, Hc. split; [|auto]. split; [apply (sp_remove_asc OL); auto|]. split; auto. lia.
  Qed.
  Lemma nm_empty m : nm_inv m -> (nm_length m =? 0)%N = true <-> nm_list m = [].
  Proof. intros [_ [_ ->]]. rewrite N.eqb_eq. destruct (nm_list m); cbn; split; auto; try discriminate. Qed.
  Lemma nm_pop_first_ok m : nm_inv m -> match nm_popped m (n_pop_first _ (nm_root m)) with (m', o) => o = sp_min (nm_list m) /\ nm_inv m' /\ nm_list m' = tl (nm_list m) end.
  Proof.
    intros [Ha [Hs Hn]]. destruct (well_lower m Hs) as [lo [Hlo [Ht [H1 H2]]]]. destruct (nm_list m) as [|p l] eqn:El.
    - assert (Hh : nm_height m = 0). { assert (H := fun Hx => shaped_some lo _ _ Hx Ht). fold (nm_list m) in H. rewrite El in H. clear -H1 H. destruct (nm_height m); auto. elim (H H1 Logic.eq_refl). }
      destruct m as [h t n]. cbn [nm_height nm_root nm_length] in *. subst h. unfold nm_list in El. cbn in El. subst t. cbn. split; auto. split; auto. split; [apply asc_nil|auto].
    - specialize (H2 ltac:(discriminate)). destruct (n_pop_first_ok _ lo (nm_root m) H2 Ht) as [t' [q [E [Ee Hq]]]]. rewrite E. cbn [nm_popped]. fold (nm_list m) in Ee. rewrite El in Ee.
      injection Ee as -> ->. assert (Hz : shaped 0 _ t') by (apply (shaped_mono (pred lo)); auto; lia).
      destruct (root_ok _ _ (nm_length m - 1) Hz) as [R1 [R2 R3]]. split; auto. unfold nm_inv. rewrite R2, R3. cbn [tl]. split; auto. apply asc_cons in Ha. split; [apply Ha|]. split; auto. cbn [length] in Hn. lia.
  Qed.
  Lemma nm_pop_last_ok m : nm_inv m -> match nm_popped m (n_pop_last _ (nm_root m)) with (m', o) => o = sp_max (nm_list m) /\ nm_inv m' /\ nm_list m' = removelast (nm_list m) end.
  Proof.
    intros [Ha [Hs Hn]]. destruct (well_lower m Hs) as [lo [Hlo [Ht [H1 H2]]]]. destruct (nm_list m) as [|p l] eqn:El.
    - assert (Hh : nm_height m = 0). { assert (H := fun Hx => shaped_some lo _ _ Hx Ht). fold (nm_list m) in H. rewrite El in H. clear -H1 H. destruct (nm_height m); auto. elim (H H1 Logic.eq_refl). }
      destruct m as [h t n]. cbn [nm_height nm_root nm_length] in *. subst h. unfold nm_list in El. cbn in El. subst t. cbn. split; auto. split; auto. split; [apply asc_nil|auto].
    - specialize (H2 ltac:(discriminate)). destruct (n_pop_last_ok _ lo (nm_root m) H2 Ht) as [t' [q [E [Ee Hq]]]]. rewrite E. cbn [nm_popped]. fold (nm_list m) in Ee. rewrite El in Ee.
      rewrite Ee in *. assert (Hz : shaped 0 _ t') by (apply (shaped_mono (pred lo)); auto; lia).
      destruct (root_ok _ _ (nm_length m - 1) Hz) as [R1 [R2 R3]]. unfold sp_max. rewrite last_error_app. split; auto. unfold nm_inv. rewrite R2, R3, removelast_last. split; auto.
      apply asc_app in Ha. split; [apply Ha|]. split; auto. rewrite app_length in Hn. cbn [length] in Hn. lia.
  Qed.
  Definition Node_contract : MapContract cmp (Node_map V cmp).
  Proof.
    assert (Hr : forall m o, nm_inv m -> match nm_ref cmp m o with
      | Some (p, put) => o = Some p /\ forall w, nm_inv (put w) /\ nm_list (put w) = sp_write cmp (fst p) w (nm_list m) | None => o = None end).
    { intros m [p|] Hm; cbn; auto. split; auto. intros w. apply nm_put_ok. auto. }
    assert (Hg : forall m k, nm_inv m -> nm_get cmp m k = sp_find cmp k (nm_list m)).
    { intros m k [Ha _]. unfold nm_get. rewrite n_get_ok, (get_find OL) by auto. reflexivity. }
    assert (H1 : forall m, nm_inv m -> n_first _ (nm_root m) = sp_min (nm_list m)).
    { intros m [_ [Hs _]]. destruct (well_lower m Hs) as [lo [_ [Ht _]]]. apply (n_first_ok _ lo). auto. }
    assert (H2 : forall m, nm_inv m -> n_last _ (nm_root m) = sp_max (nm_list m)).
    { intros m [_ [Hs _]]. destruct (well_lower m Hs) as [lo [_ [Ht _]]]. apply (n_last_ok _ lo). auto. }
    assert (Hf : forall m lo hi, nm_inv m -> nm_range_first cmp m lo hi = sp_min (within cmp lo hi (nm_list m))).
    { intros m lo hi [Ha _]. unfold nm_range_first, sp_min. rewrite (within_first OL), n_lower_ok by (auto; intros a b; apply (after_mono OL)). reflexivity. }
    assert (Hl : forall m lo hi, nm_inv m -> nm_range_last cmp m lo hi = sp_max (within cmp lo hi (nm_list m))).
    { intros m lo hi [Ha _]. unfold nm_range_last, sp_max. rewrite (within_last OL), n_upper_ok by (auto; intros a b; apply (before_mono OL)). reflexivity. }
    refine {| mk_inv := nm_inv : mty (Node_map V cmp) -> Prop; mk_abs := nm_list : mty (Node_map V cmp) -> _ |}; cbn [Node_map m_new m_insert m_len m_is_empty m_into_first m_first m_last m_first_mut m_last_mut m_get_key_value m_get_mut m_range_first m_range_last m_range_first_mut m_range_last_mut m_remove_entry m_pop_first m_pop_last mty].
    - intros m Hm. apply Hm.
    - split; auto. split; [apply asc_nil|]. split; auto. unfold well_shaped. cbn. lia.
    - intros m k v. apply nm_insert_ok.
    - intros m Hm. apply Hm.
    - intros m. apply nm_empty.
    - auto.
    - auto.
    - auto.
    - intros m Hm. rewrite H1 by auto. apply Hr. auto.
    - intros m Hm. rewrite H2 by auto. apply Hr. auto.
    - auto.
    - intros m k Hm. rewrite Hg by auto. destruct (sp_find cmp k (nm_list m)) as [[k' v]|] eqn:E; auto.
      assert (k' = k) by (apply (sp_find_in OL) in E; apply E). subst k'. split; auto. intros w. apply nm_put_ok. auto.
    - auto.
    - auto.
    - intros m lo hi Hm _. rewrite Hf by auto. apply Hr. auto.
    - intros m lo hi Hm _. rewrite Hl by auto. apply Hr. auto.
    - intros m k Hm. rewrite Hg by auto. destruct (sp_find cmp k (nm_list m)) as [p|] eqn:E; cbn [fst snd kid0 kids].
      + destruct (nm_remove_ok m k p Hm E) as [G1 G2]. split; auto. split; auto. split; [auto|discriminate].
      + split; auto. split; auto. split; auto. symmetry. apply (remove_absent OL); auto. apply Hm.
    - intros m Hm. assert (H := nm_pop_first_ok m Hm). destruct (nm_popped m _). exact H.
    - intros m Hm. assert (H := nm_pop_last_ok m Hm). destruct (nm_popped m _). exact H.
  Defined.

  (** *** The height *)
  Lemma shaped_least h : forall lo (t : nd h), shaped lo h t -> (lo + 1) * 6 ^ h <= length (elems h t) + 1.
  Proof.
    induction h as [|h IH]; intros lo t Ht; [cbn in *; lia|]. destruct t as [c r]. destruct Ht as [Hn [H1 H2]]. cbn [fst snd kid0 kids] in *. rewrite elems_S, app_length.
    assert (Hr : length r * 6 ^ S h <= length (elR h r)).
    { clear Hn. induction r as [|[p d] r IHr]; [cbn; lia|]. apply Forall_cons_iff in H2. destruct H2 as [Hd H2]. rewrite elR_cons. cbn [length]. rewrite app_length.
      specialize (IHr H2). specialize (IH 5 d Hd). rewrite Nat.pow_succ_r' in *. cbn [snd] in *. lia. }
    specialize (IH 5 c H1). assert (lo * 6 ^ S h <= length r * 6 ^ S h) by (apply Nat.mul_le_mono_r; lia). rewrite Nat.pow_succ_r' in *. lia.
  Qed.
  Lemma shaped_most h : forall lo (t : nd h), shaped lo h t -> length (elems h t) + 1 <= 12 ^ S h.
  Proof.
    induction h as [|h IH]; intros lo t Ht; [cbn [shaped elems] in *; cbn [node] in *; cbn [Nat.pow Nat.mul Nat.add]; lia|]. destruct t as [c r]. destruct Ht as [Hn [H1 H2]]. cbn [fst snd kid0 kids] in *. rewrite elems_S, app_length.
    assert (Hr : length (elR h r) <= length r * 12 ^ S h).
    { clear Hn. induction r as [|[p d] r IHr]; [cbn; lia|]. apply Forall_cons_iff in H2. destruct H2 as [Hd H2]. rewrite elR_cons. cbn [length]. rewrite app_length.
      specialize (IHr H2). specialize (IH 5 d Hd). cbn [snd] in *. lia. }
    specialize (IH 5 c H1). assert (length r * 12 ^ S h <= 11 * 12 ^ S h) by (apply Nat.mul_le_mono_r; lia). rewrite (Nat.pow_succ_r' 12 (S h)). lia.
  Qed.
  Lemma height_bounds m : well_shaped m -> (nm_height m = 0 \/ 2 * 6 ^ nm_height m <= length (nm_list m) + 1) /\ length (nm_list m) + 1 <= 12 ^ S (nm_height m).
  Proof.
    unfold well_shaped, nm_list. intros H. split; [|eapply shaped_most; eauto]. destruct m as [h t n]. cbn [nm_height nm_root] in *. destruct h as [|h]; auto. right. apply (shaped_least (S h) 1). auto.
  Qed.

  (** *** The work of a lookup *)
  Lemma leaf_getc_ok k (t : list P) : fst (leaf_getc cmp k t) = map_get cmp t k /\ snd (leaf_getc cmp k t) <= length t.
  Proof.
    induction t as [|[j x] t IH]; cbn; auto. destruct (cmp k j); cbn; [split; auto; lia..|]. destruct (leaf_getc cmp k t). cbn in *. split; [apply IH|lia].
  Qed.
  Lemma seek_inside {C : Type} (Q : C -> Prop) k : forall r (ls : list (C * P)) c, Q c -> Forall (fun pc => Q (snd pc)) r -> Q (snd (fst (fst (seek cmp k ls c r)))).
  Proof.
    induction r as [|[p d] r IH]; intros ls c Hc Hr; cbn [seek]; auto. apply Forall_cons_iff in Hr. destruct (cmp k (fst p)); cbn; auto. apply IH; tauto.
  Qed.
  Lemma along_getc_max {C : Type} (Q : C -> Prop) k (down : C -> option P * nat) b : (forall d, Q d -> snd (down d) <= b) -> forall r c, Q c -> Forall (fun pc => Q (snd pc)) r ->
    snd (along_getc cmp k down c r) <= length r + b.
  Proof.
    intros Hb. induction r as [|[p d] r IH]; intros c Hc Hr; cbn [along_getc]; [apply Hb; auto|]. specialize (Hb c Hc). apply Forall_cons_iff in Hr. destruct Hr as [Hd Hr]. cbn [snd] in Hd.
    specialize (IH d Hd Hr). destruct (cmp k (fst p)); cbn [fst snd length].
    - lia.
    - destruct (down c). cbn in *. lia.
    - destruct (along_getc cmp k down d r). cbn in *. lia.
  Qed.
  Lemma along_getc_fst {C : Type} k (down : C -> option P * nat) : forall r (ls : list (C * P)) c,
    fst (along_getc cmp k down c r) = match seek cmp k ls c r with (_, _, (p, _) :: _, true) => Some p | (_, c', _, _) => fst (down c') end.
  Proof.
    induction r as [|[p d] r IH]; intros ls c; cbn [along_getc seek]; auto. destruct (cmp k (fst p)); cbn [fst]; auto; [destruct (down c); auto|].
    rewrite <- (IH ((c, p) :: ls)). destruct (along_getc cmp k down d r). auto.
  Qed.
  Lemma n_getc_ok h k : forall lo (t : nd h), shaped lo h t -> fst (n_getc cmp h k t) = n_get cmp h k t /\ snd (n_getc cmp h k t) <= 11 * S h.
  Proof.
    induction h as [|h IH]; intros lo t Ht.
    - destruct (leaf_getc_ok k t) as [H1 H2]. cbn [n_getc n_get shaped] in *. split; auto. cbn [node] in *. lia.
    - destruct Ht as [Hn [H1 H2]]. cbn [n_getc n_get]. rewrite (along_getc_fst k (n_getc cmp h k) (kids t) []). split.
      + assert (Hc := seek_inside (shaped 5 h) k (kids t) [] (kid0 t) H1 H2). destruct (seek cmp k [] (kid0 t) (kids t)) as [[[ls c] r] x]. cbn [fst snd] in Hc.
        destruct (IH 5 c Hc) as [Hg _]. destruct r as [|[p d] r]; auto. destruct x; auto.
      + apply Nat.le_trans with (length (kids t) + 11 * S h); [|lia]. apply (along_getc_max (shaped 5 h)); auto. intros d Hd. apply (IH 5 d Hd).
  Qed.
  Lemma work (m : NMap) k : nm_inv m -> fst (n_getc cmp _ k (nm_root m)) = sp_find cmp k (nm_list m) /\ snd (n_getc cmp _ k (nm_root m)) <= 11 * S (nm_height m).
  Proof.
    intros [Ha [Hs _]]. destruct (well_lower m Hs) as [lo [_ [Ht _]]]. destruct (n_getc_ok _ k lo _ Ht) as [H1 H2]. split; auto. rewrite H1, n_get_ok, (get_find OL) by auto. reflexivity.
  Qed.
End Trees.

Lemma node_history {B : Build} {K V : Type} {cmp : K -> K -> comparison} (OL : OrdLaws cmp) cs : admissible cmp (@adm_any K V) cs [] ->
  exists ot, run (BTreeOf (Node_map V cmp)) cs None = Ret (ot, snd (sp_run cmp cs [])) /\
    match ot with
    | Some m => well_shaped m /\ elems _ (nm_root m) = fst (sp_run cmp cs []) /\ nm_length m = N.of_nat (length (fst (sp_run cmp cs []))) /\
        fst (sp_run cmp cs []) <> []
    | None => fst (sp_run cmp cs []) = []
    end.
Proof.
  intros Hcs. destruct (map_history OL (Node_contract OL) cs Hcs) as [ot [E H]]. exists ot. split; auto. destruct ot as [m|]; auto.
  destruct H as [[_ [Hs Hn]] [He Hx]]. cbn [Node_contract mk_abs] in *. unfold nm_list in *. split; auto. split; auto. rewrite <- He. split; auto.
Qed.
Lemma node_work {B : Build} {K V : Type} {cmp : K -> K -> comparison} (OL : OrdLaws cmp) cs m os k : admissible cmp (@adm_any K V) cs [] ->
  run (BTreeOf (Node_map V cmp)) cs None = Ret (Some m, os) ->
  v_find (BTreeOf (Node_map V cmp)) m k = Ret (fst (n_getc cmp _ k (nm_root m))) /\
  fst (n_getc cmp _ k (nm_root m)) = sp_find cmp k (fst (sp_run cmp cs [])) /\
  snd (n_getc cmp _ k (nm_root m)) <= 11 * S (nm_height m) /\
  (nm_height m = 0 \/ 2 * 6 ^ nm_height m <= length (fst (sp_run cmp cs [])) + 1).
Proof.
  intros Hcs Hr. destruct (map_history OL (Node_contract OL) cs Hcs) as [ot [E H]]. rewrite E in Hr. injection Hr as -> _.
  destruct H as [Hi [He _]]. cbn [Node_contract mk_abs mk_inv] in *. destruct (work OL m k Hi) as [W1 W2]. rewrite <- He. split; [|split; [exact W1|split; [exact W2|]]].
  - cbn [BTreeOf v_find]. f_equal. rewrite W1. exact (mk_get_key_value cmp _ (Node_contract OL) m k Hi).
  - apply (height_bounds m). apply Hi.
Qed.

(** *** Without any law of the order: which keys are stored, and which a lookup compares *)
Section Lawless.
  Context {K V : Type} (cmp : K -> K -> comparison).
  Notation P := (K * V)%type.
  Notation nd := (node P).
  Lemma put_keys (t : list P) k v : map fst (map_put cmp t k v) = map fst t.
  Proof. induction t as [|[j x] t IH]; auto. cbn. destruct (cmp k j); cbn; congruence. Qed.
  Lemma insert_keys (t : list P) k v : map_get cmp t k <> None -> map fst (map_insert cmp t k v) = map fst t.
  Proof. induction t as [|[j x] t IH]; cbn; [congruence|]. destruct (cmp k j); cbn; try congruence. intros H. rewrite IH; auto. Qed.
  Lemma n_put_keys h k v : forall t : nd h, map fst (elems h (n_put cmp h k v t)) = map fst (elems h t).
  Proof.
    induction h as [|h IH]; intros t; [apply put_keys|]. cbn [n_put].
    destruct (seek cmp k [] (kid0 t) (kids t)) as [[[ls c] r] x] eqn:E.
    apply seek_plug in E. cbn [plug] in E. assert (Et : t = (plug ls c r : nd (S h))) by (rewrite E; destruct t; reflexivity).
    assert (G : map fst (elems (S h) (plug ls (n_put cmp h k v c) r : nd (S h))) = map fst (elems (S h) t)).
    { rewrite Et, !plug_elems, !map_app, IH. reflexivity. }
    destruct r as [|[p d] r]; [exact G|]. destruct x; [|exact G].
    rewrite Et, !plug_elems, !elR_cons, !map_app. cbn [map fst]. rewrite !map_app. reflexivity.
  Qed.
  Lemma n_insert_keys h k v : forall t : nd h, n_get cmp h k t <> None -> map fst (gel h (n_insert cmp h k v t)) = map fst (elems h t).
  Proof.
    induction h as [|h IH]; intros t Hg; [cbn [n_insert]; rewrite grow0_ok; apply insert_keys, Hg|]. cbn [n_insert n_get] in *.
    destruct (seek cmp k [] (kid0 t) (kids t)) as [[[ls c] r] x] eqn:E.
    apply seek_plug in E. cbn [plug] in E. assert (Et : t = (plug ls c r : nd (S h))) by (rewrite E; destruct t; reflexivity).
    assert (G : n_get cmp h k c <> None -> map fst (gel (S h) match n_insert cmp h k v c with
        | Fit c' => Fit (plug ls c' r : nd (S h)) | Split a q b => grow (C := nd h) (length ls) (plug ls a ((q, b) :: r)) end) = map fst (elems (S h) t)).
    { intros Hc. specialize (IH c Hc). rewrite Et. destruct (n_insert cmp h k v c) as [c'|a q b]; cbn [gel] in *.
      - rewrite !plug_elems, !map_app, IH. reflexivity.
      - rewrite grow_ok, !plug_elems, elR_cons, !map_app, <- IH. cbn [map]. rewrite !map_app. cbn [map]. rewrite <- !app_assoc. reflexivity. }
    destruct r as [|[p d] r]; [exact (G Hg)|]. destruct x; [|exact (G Hg)].
    cbn [gel]. rewrite Et, !plug_elems, !elR_cons, !map_app. cbn [map fst]. rewrite !map_app. reflexivity.
  Qed.
  Lemma stored_keys (m : NMap (K := K) (V := V)) k v : map fst (elems _ (nm_root (nm_put cmp m k v))) = map fst (elems _ (nm_root m)) /\
    (nm_get cmp m k <> None -> map fst (elems _ (nm_root (nm_insert cmp m k v))) = map fst (elems _ (nm_root m)) /\ nm_length (nm_insert cmp m k v) = nm_length m).
  Proof.
    split; [apply n_put_keys|]. intros Hg. assert (G := n_insert_keys _ k v (nm_root m) Hg). unfold nm_insert.
    destruct (nm_get cmp m k); [|congruence]. destruct (n_insert cmp _ k v (nm_root m)) as [t|t q u]; cbn [gel nm_root nm_length nm_height] in *; split; auto.
    rewrite <- G. change (elems (S (nm_height m)) ((t, [(q, u)]) : nd (S (nm_height m)))) with (elems _ t ++ q :: elems _ u ++ []). rewrite app_nil_r. reflexivity.
  Qed.

  Lemma leaf_keys_ok k (t : list P) : snd (leaf_getc cmp k t) = length (leaf_keys cmp k t) /\ incl (leaf_keys cmp k t) (map fst t) /\
    forall cmp', (forall j, In j (leaf_keys cmp k t) -> cmp' k j = cmp k j) -> leaf_getc cmp' k t = leaf_getc cmp k t /\ leaf_keys cmp' k t = leaf_keys cmp k t.
  Proof.
    induction t as [|p t [I1 [I2 I3]]]; cbn [leaf_getc leaf_keys map]; [repeat split; intros j []|]. split; [|split].
    - destruct (cmp k (fst p)); auto. destruct (leaf_getc cmp k t). cbn in *. auto.
    - intros j [<-|Hj]; [left; auto|]. right. destruct (cmp k (fst p)); [destruct Hj..|]. auto.
    - intros cmp' H. rewrite (H (fst p) (or_introl Logic.eq_refl)). destruct (cmp k (fst p)); auto. destruct (I3 cmp') as [-> ->]; auto. intros j Hj. apply H. right. auto.
  Qed.
  Lemma along_keys_ok {C : Type} k (dc : (K -> K -> comparison) -> C -> option P * nat) (dk : (K -> K -> comparison) -> C -> list K) (es : C -> list P) :
    (forall d, snd (dc cmp d) = length (dk cmp d) /\ incl (dk cmp d) (map fst (es d)) /\
       forall cmp', (forall j, In j (dk cmp d) -> cmp' k j = cmp k j) -> dc cmp' d = dc cmp d /\ dk cmp' d = dk cmp d) ->
    forall r c, snd (along_getc cmp k (dc cmp) c r) = length (along_keys cmp k (dk cmp) c r) /\
      incl (along_keys cmp k (dk cmp) c r) (map fst (es c ++ flat_map (fun pc => fst pc :: es (snd pc)) r)) /\
      forall cmp', (forall j, In j (along_keys cmp k (dk cmp) c r) -> cmp' k j = cmp k j) ->
        along_getc cmp' k (dc cmp') c r = along_getc cmp k (dc cmp) c r /\ along_keys cmp' k (dk cmp') c r = along_keys cmp k (dk cmp) c r.
  Proof.
    intros HD. induction r as [|[p d] r IH]; intros c; cbn [along_getc along_keys flat_map]; [rewrite app_nil_r; apply HD|].
    destruct (HD c) as [D1 [D2 D3]], (IH d) as [I1 [I2 I3]]. rewrite map_app. cbn [fst snd app map]. split; [|split].
    - destruct (cmp k (fst p)); auto; [destruct (dc cmp c)|destruct (along_getc cmp k (dc cmp) d r)]; cbn in *; auto.
    - intros j [<-|Hj]; [apply in_or_app; right; left; auto|]. apply in_or_app. destruct (cmp k (fst p)); [destruct Hj|left; auto|right; right; apply I2; auto].
    - intros cmp' H. rewrite (H (fst p) (or_introl Logic.eq_refl)). destruct (cmp k (fst p)); auto.
      + destruct (D3 cmp') as [-> ->]; auto. intros j Hj. apply H. right. auto.
      + destruct (I3 cmp') as [-> ->]; auto. intros j Hj. apply H. right. auto.
  Qed.
  Lemma n_keys_ok h k : forall t : nd h, snd (n_getc cmp h k t) = length (n_keys cmp h k t) /\ incl (n_keys cmp h k t) (map fst (elems h t)) /\
    forall cmp', (forall j, In j (n_keys cmp h k t) -> cmp' k j = cmp k j) -> n_getc cmp' h k t = n_getc cmp h k t /\ n_keys cmp' h k t = n_keys cmp h k t.
  Proof.
    induction h as [|h IH]; intros t; [apply leaf_keys_ok|]. cbn [n_getc n_keys elems].
    apply (along_keys_ok k (fun c => n_getc c h k) (fun c => n_keys c h k) (elems h) IH).
  Qed.
End Lawless.
