(** The number of nodes of the B-tree: what a call can change, what insertions alone cost, and the histories that cost most. *)
From Verif Require Import Base Ints Ops Spec ByteSet ByteMap Coll BTree Lists Laws BTreeProofs Hist Types HistProofs HashGen HashGenCor MapGen MapGenCor Nodes NodesCor NodeCount.
From Coq Require Import ZArith Lia.

Section Count.
  Context {K V : Type} {cmp : K -> K -> comparison} (OL : OrdLaws cmp).
  Notation P := (K * V)%type.
  Notation nd := (node P).
  Notation M := (NMap (K := K) (V := V)).
  Notation asc := (@ascending K V cmp).
  Definition nL (h : nat) (ls : list (nd h * P)) : nat := list_sum (map (fun bp => nodes h (fst bp)) ls).
  Definition nR (h : nat) (r : list (P * nd h)) : nat := list_sum (map (fun pc => nodes h (snd pc)) r).
  Lemma nodes_S h (c : nd h) r : nodes (S h) ((c, r) : nd (S h)) = S (nodes h c + nR h r).
  Proof. reflexivity. Qed.
  Lemma nodes_eta h (t : nd (S h)) : nodes (S h) t = S (nodes h (kid0 t) + nR h (kids t)).
  Proof. destruct t. reflexivity. Qed.
  Lemma nR_cons h p c r : nR h ((p, c) :: r) = nodes h c + nR h r.
  Proof. reflexivity. Qed.
  Lemma nR_app h r r' : nR h (r ++ r') = nR h r + nR h r'.
  Proof. unfold nR. rewrite map_app, list_sum_app. reflexivity. Qed.
  Lemma plug_nodes h (ls : list (nd h * P)) : forall (c : nd h) (r : list (P * nd h)), nodes (S h) (plug ls c r : nd (S h)) = S (nL h ls + nodes h c + nR h r).
  Proof.
    induction ls as [|[b p] ls IH]; intros c r; [reflexivity|]. cbn [plug]. rewrite IH, nR_cons. unfold nL. cbn [map list_sum fold_right fst]. unfold list_sum. lia.
  Qed.
  Lemma seek_nodes h k (t : nd (S h)) ls c r x : seek cmp k [] (kid0 t) (kids t) = (ls, c, r, x) -> nodes (S h) t = S (nL h ls + nodes h c + nR h r).
  Proof. intros E. apply seek_plug in E. rewrite <- plug_nodes, E. destruct t. reflexivity. Qed.

  (** *** Space *)
  Lemma space h : forall lo (t : nd h), shaped lo h t -> 5 * nodes h t + lo <= length (elems h t) + 5.
  Proof.
    induction h as [|h IH]; intros lo t H; [cbn [nodes shaped elems] in *; cbn [node] in *; lia|]. destruct t as [c r]. destruct H as [H1 [H2 H3]]. rewrite kids_pair, kid0_pair in *.
    rewrite nodes_S, elems_S, app_length. apply IH in H2. assert (G : 5 * nR h r + length r <= length (elR h r)); [|lia]. clear H1 H2. induction r as [|[p d] r IHr]; [cbn; lia|].
    inversion H3 as [|x y G1 G2]; subst. apply IH in G1. cbn [snd] in G1. rewrite nR_cons, elR_cons. specialize (IHr G2). cbn [length]. rewrite app_length. lia.
  Qed.

  (** *** One call *)
  Definition gn (h : nat) (g : Grown (K := K) (V := V) (nd h)) : nat := match g with Fit t => nodes h t | Split t _ u => nodes h t + nodes h u end.
  Lemma grow_nodes h e (t : nd (S h)) : nodes (S h) t <= gn (S h) (grow (C := nd h) e t) <= S (nodes (S h) t).
  Proof.
    assert (G := grow_gen (C := nd h) e t). destruct (grow (C := nd h) e t) as [t'|[a al] p [b bl]]; cbn [gn]; [rewrite G; lia|]. cbn [fst snd kid0 kids] in G.
    destruct t as [c r]. cbn [fst snd kid0 kids] in G. destruct G as [-> ->]. rewrite !nodes_S, nR_app, nR_cons. lia.
  Qed.
  Lemma insert_nodes h k v : forall t : nd h, nodes h t <= gn h (n_insert cmp h k v t) <= nodes h t + S h.
  Proof.
    induction h as [|h IH]; intros t.
    - cbn [n_insert]. unfold grow0. destruct (length _ <=? CAP); [cbn; lia|]. destruct (skipn _ _); cbn; lia.
    - cbn [n_insert]. destruct (seek cmp k [] (kid0 t) (kids t)) as [[[ls c] r] x] eqn:E. rewrite (seek_nodes _ _ _ _ _ _ _ E). specialize (IH c).
      assert (H : S (nL h ls + nodes h c + nR h r) <= gn (S h) match n_insert cmp h k v c with Fit c' => Fit (plug ls c' r : nd (S h)) | Split a q b => grow (C := nd h) (length ls) (plug ls a ((q, b) :: r)) end
        <= S (nL h ls + nodes h c + nR h r) + S (S h)).
      { destruct (n_insert cmp h k v c) as [c'|a q b]; cbn [gn] in IH; [cbn [gn]; rewrite plug_nodes; lia|]. assert (G := grow_nodes h (length ls) (plug ls a ((q, b) :: r))).
        rewrite plug_nodes, nR_cons in G. lia. }
      destruct r as [|[p d] r]; [exact H|]. destruct x; [|exact H]. cbn [gn]. rewrite plug_nodes, !nR_cons. lia.
  Qed.
  Lemma merge_nodes h (b : nd h) (p : P) (c : nd h) : S (nodes h (merge h b p c)) = nodes h b + nodes h c.
  Proof. destruct h as [|h]; [reflexivity|]. destruct b as [b bl], c as [c cl]. cbn [merge]. rewrite !nodes_S, !kid0_pair, !kids_pair, nR_app, nR_cons. lia. Qed.
  Lemma steal_left_nodes h (b : nd h) (p : P) (c : nd h) : match steal_left h b p c with (b', _, c') => nodes h b' + nodes h c' = nodes h b + nodes h c end.
  Proof.
    destruct h as [|h]; [cbn [steal_left]; destruct (map_last b); reflexivity|]. destruct b as [b bl], c as [c cl]. cbn [steal_left]. rewrite !kid0_pair, !kids_pair.
    destruct (last_error bl) as [[q d]|] eqn:E; [|reflexivity]. apply last_split, (f_equal (nR h)) in E. rewrite nR_app, nR_cons in E. rewrite !nodes_S, nR_cons. cbn [nR map list_sum fold_right] in E. lia.
  Qed.
  Lemma steal_right_nodes h (c : nd h) (p : P) (d : nd h) : match steal_right h c p d with (c', _, d') => nodes h c' + nodes h d' = nodes h c + nodes h d end.
  Proof.
    destruct h as [|h]; [cbn [steal_right]; destruct d; reflexivity|]. destruct c as [c cl], d as [d dl]. cbn [steal_right]. rewrite !kid0_pair, !kids_pair.
    destruct dl as [|[q d1] dl]; [reflexivity|]. rewrite !nodes_S, nR_app, !nR_cons. cbn. lia.
  Qed.
  Lemma mend_nodes h (ls : list (nd h * P)) (c : nd h) (r : list (P * nd h)) : nodes (S h) (mend h ls c r) <= S (nL h ls + nodes h c + nR h r) <= S (nodes (S h) (mend h ls c r)).
  Proof.
    unfold mend. destruct (width h c <? MINL); [|rewrite plug_nodes; lia]. destruct ls as [|[b p] ls].
    - destruct r as [|[p d] r]; [rewrite nodes_S; cbn; lia|]. destruct (_ <=? CAP).
      + assert (G := merge_nodes h c p d). rewrite nodes_S, nR_cons. cbn [nL map list_sum fold_right]. lia.
      + assert (G := steal_right_nodes h c p d). destruct (steal_right h c p d) as [[c' q] d']. rewrite nodes_S, !nR_cons. cbn. lia.
    - assert (El : nL h ((b, p) :: ls) = nodes h b + nL h ls) by reflexivity. rewrite El. destruct (_ <=? CAP).
      + assert (G := merge_nodes h b p c). rewrite plug_nodes. lia.
      + assert (G := steal_left_nodes h b p c). destruct (steal_left h b p c) as [[b' q] c']. rewrite plug_nodes, nR_cons. lia.
  Qed.
  Lemma mend_exact h (ls : list (nd h * P)) (c : nd h) (r : list (P * nd h)) : (5 <= width h c -> mend h ls c r = plug ls c r) /\
    forall n, beside (width h) ls r = Some n -> width h c < 5 -> nodes (S h) (plug ls c r : nd (S h)) = nodes (S h) (mend h ls c r) + (if width h c + 1 + n <=? 11 then 1 else 0).
  Proof.
    unfold mend, MINL, CAP. split; [intros H; destruct (Nat.ltb_spec (width h c) 5); auto; lia|]. intros n Hn H. destruct (Nat.ltb_spec (width h c) 5); [clear H|lia]. rewrite plug_nodes. destruct ls as [|[b p] ls].
    - destruct r as [|[p d] r]; [discriminate|]. cbn [beside] in Hn. injection Hn as <-. destruct (_ <=? 11).
      + assert (G := merge_nodes h c p d). rewrite nodes_S, nR_cons. cbn [nL map list_sum fold_right]. lia.
      + assert (G := steal_right_nodes h c p d). destruct (steal_right h c p d) as [[c' q] d']. rewrite nodes_S, !nR_cons. cbn [nL map list_sum fold_right]. lia.
    - assert (El : nL h ((b, p) :: ls) = nodes h b + nL h ls) by reflexivity. rewrite El. cbn [beside] in Hn. injection Hn as <-. rewrite (Nat.add_shuffle0 (width h b) 1), (Nat.add_comm (width h b)), (Nat.add_shuffle0 (width h c) (width h b) 1). destruct (_ <=? 11).
      + assert (G := merge_nodes h b p c). rewrite plug_nodes. lia.
      + assert (G := steal_left_nodes h b p c). destruct (steal_left h b p c) as [[b' q] c']. rewrite plug_nodes, nR_cons. lia.
  Qed.
  Lemma pop_last_nodes h : forall (t t' : nd h) q, n_pop_last h t = Some (t', q) -> nodes h t' <= nodes h t <= nodes h t' + h.
  Proof.
    induction h as [|h IH]; intros t t' q; [cbn; lia|]. cbn [n_pop_last]. assert (E := to_last_plug (kids t) [] (kid0 t)). destruct (to_last [] (kid0 t) (kids t)) as [ls c].
    destruct (n_pop_last h c) as [[c' q']|] eqn:Ec; [|discriminate]. intros [= <- _]. apply IH in Ec. assert (G := mend_nodes h ls c' []).
    assert (Et : nodes (S h) t = S (nL h ls + nodes h c + nR h [])) by (rewrite <- plug_nodes, E; destruct t; reflexivity). lia.
  Qed.
  Lemma pop_first_nodes h : forall (t t' : nd h) q, n_pop_first h t = Some (t', q) -> nodes h t' <= nodes h t <= nodes h t' + h.
  Proof.
    induction h as [|h IH]; intros t t' q; [cbn; lia|]. cbn [n_pop_first]. destruct (n_pop_first h (kid0 t)) as [[c' q']|] eqn:Ec; [|discriminate]. intros [= <- _]. apply IH in Ec.
    assert (G := mend_nodes h [] c' (kids t)). assert (Et := nodes_eta h t). cbn [nL map list_sum fold_right] in G. lia.
  Qed.
  Lemma remove_nodes h k : forall t : nd h, nodes h (n_remove cmp h k t) <= nodes h t <= nodes h (n_remove cmp h k t) + h.
  Proof.
    induction h as [|h IH]; intros t; [cbn; lia|]. cbn [n_remove]. destruct (seek cmp k [] (kid0 t) (kids t)) as [[[ls c] r] x] eqn:E. assert (Et := seek_nodes _ _ _ _ _ _ _ E).
    assert (H : nodes (S h) (mend h ls (n_remove cmp h k c) r) <= nodes (S h) t <= nodes (S h) (mend h ls (n_remove cmp h k c) r) + S h).
    { specialize (IH c). assert (G := mend_nodes h ls (n_remove cmp h k c) r). lia. }
    destruct r as [|[p d] r]; [exact H|]. destruct x; [|exact H]. destruct (n_pop_last h c) as [[c' q]|] eqn:Ec; [|lia]. apply pop_last_nodes in Ec.
    assert (G := mend_nodes h ls c' ((q, d) :: r)). rewrite nR_cons in *. lia.
  Qed.
  Lemma lower_nodes h (t : nd h) n : nm_nodes (lower_root h t n) <= nodes h t <= S (nm_nodes (lower_root h t n)).
  Proof. destruct h as [|h]; [cbn; lia|]. destruct t as [c r]. cbn [lower_root]. rewrite kids_pair, kid0_pair. destruct r; unfold nm_nodes; cbn [nm_root nm_height]; rewrite ?nodes_S; cbn; lia. Qed.
  Lemma call (m : M) (o : bop K V) : match o with
    | BPut _ _ => nm_nodes m <= nm_nodes (b_step cmp m o) <= nm_nodes m + nm_height m + 2
    | _ => nm_nodes (b_step cmp m o) <= nm_nodes m <= nm_nodes (b_step cmp m o) + nm_height m + 1
    end.
  Proof.
    destruct o as [k v|k| |]; cbn [b_step Node_map m_insert m_remove_entry m_pop_first m_pop_last].
    - assert (G := insert_nodes _ k v (nm_root m)). unfold nm_insert, nm_nodes in *. destruct (n_insert cmp _ k v (nm_root m)); cbn [gn nm_root nm_height] in *; [lia|]. rewrite nodes_S. cbn [nR map list_sum fold_right snd]. lia.
    - destruct (nm_get cmp m k); cbn [fst]; [|lia]. unfold nm_remove. assert (G := remove_nodes _ k (nm_root m)). assert (G' := lower_nodes _ (n_remove cmp _ k (nm_root m)) (nm_length m - 1)%N). unfold nm_nodes at 2 3. lia.
    - unfold nm_popped. destruct (n_pop_first _ (nm_root m)) as [[t q]|] eqn:E; cbn [fst]; [|lia]. apply pop_first_nodes in E. assert (G' := lower_nodes _ t (nm_length m - 1)%N). unfold nm_nodes at 2 3. lia.
    - unfold nm_popped. destruct (n_pop_last _ (nm_root m)) as [[t q]|] eqn:E; cbn [fst]; [|lia]. apply pop_last_nodes in E. assert (G' := lower_nodes _ t (nm_length m - 1)%N). unfold nm_nodes at 2 3. lia.
  Qed.

  (** *** Insertions alone *)
  Lemma empty_nodes : nm_nodes (@nm_empty K V cmp) = 1.
  Proof. reflexivity. Qed.
  Lemma step_inv (m : M) o : nm_inv (cmp := cmp) m -> nm_inv (cmp := cmp) (b_step cmp m o).
  Proof.
    intros Hm. destruct o as [k v|k| |]; cbn [b_step Node_map m_insert m_remove_entry m_pop_first m_pop_last].
    - apply (nm_insert_ok OL); auto.
    - destruct (nm_get cmp m k) as [p|] eqn:E; auto. cbn [fst]. unfold nm_get in E. rewrite (n_get_ok OL) in E by apply Hm. fold (nm_list m) in E. rewrite (get_find OL) in E by apply Hm.
      destruct (nm_remove_ok OL m k p Hm E) as [H _]. exact H.
    - assert (H := nm_pop_first_ok (cmp := cmp) m Hm). destruct (nm_popped m _). apply H.
    - assert (H := nm_pop_last_ok (cmp := cmp) m Hm). destruct (nm_popped m _). apply H.
  Qed.
  Lemma run_inv os : forall m : M, nm_inv (cmp := cmp) m -> nm_inv (cmp := cmp) (b_run cmp m os).
  Proof. induction os as [|o os IH]; auto. intros m Hm. apply IH, step_inv, Hm. Qed.
  Lemma inv_space (m : M) : nm_inv (cmp := cmp) m -> 5 * (nm_nodes m - 1) <= length (elems _ (nm_root m)).
  Proof. intros [_ [H _]]. apply space in H. fold (nm_nodes m) in H. lia. Qed.
  Lemma work_app os1 : forall (m : M) os2, b_work cmp m (os1 ++ os2) = b_work cmp m os1 + b_work cmp (b_run cmp m os1) os2.
  Proof. induction os1 as [|o os1 IH]; intros m os2; [reflexivity|]. cbn [app b_work b_run fold_left]. rewrite IH. unfold b_run. lia. Qed.
  Lemma puts_work os : Forall (fun o => match o with BPut _ _ => True | _ => False end) os -> forall m : M, b_work cmp m os + nm_nodes m = nm_nodes (b_run cmp m os).
  Proof.
    induction 1 as [|o os Ho _ IH]; intros m; [reflexivity|]. cbn [b_work b_run fold_left]. specialize (IH (b_step cmp m o)). unfold b_run in IH. assert (G := call m o). destruct o; try contradiction. unfold gap. lia.
  Qed.

  (** *** A key below all others, in a tree whose leftmost nodes are full *)
  Notation low k t := (Forall (fun p : P => cmp k (fst p) = Lt) t).
  Fixpoint left_full (h : nat) : nd h -> Prop :=
    match h return nd h -> Prop with 0 => fun t => length t = 11 | S h' => fun t => length (kids t) = 11 /\ left_full h' (kid0 t) end.
  Fixpoint narrow (h : nat) : nd h -> Prop :=
    match h return nd h -> Prop with 0 => fun t => length t <= 11 | S h' => fun t => length (kids t) <= 11 /\ narrow h' (kid0 t) end.
  Lemma low_seek {C : Type} k (c : C) (r : list (P * C)) : match r with [] => True | (p, _) :: _ => cmp k (fst p) = Lt end -> seek cmp k [] c r = ([], c, r, false).
  Proof. destruct r as [|[p d] r]; auto. cbn [seek]. intros ->. reflexivity. Qed.
  Lemma low_head h k (r : list (P * nd h)) : low k (elR h r) -> match r with [] => True | (p, _) :: _ => cmp k (fst p) = Lt end.
  Proof. destruct r as [|[p d] r]; auto. rewrite elR_cons. intros H. inversion H; auto. Qed.
  Lemma low_insert k v (t : list P) : low k t -> map_insert cmp t k v = (k, v) :: t.
  Proof. intros H. destruct H as [|[k' v'] t H1 H2]; auto. cbn [map_insert]. cbn [fst] in H1. rewrite H1. reflexivity. Qed.
  Lemma low_below k (t : list P) : low k t -> below cmp k t = [].
  Proof. induction 1 as [|p t H1 H2 IH]; auto. unfold below in *. cbn [filter]. unfold ltb. rewrite (gt_of_lt OL _ _ H1). exact IH. Qed.
  Lemma low_S h k (c : nd h) r : low k (elems (S h) ((c, r) : nd (S h))) <-> low k (elems h c) /\ low k (elR h r).
  Proof. rewrite elems_S. apply Forall_app. Qed.
  Lemma low_n_insert h k v (c : nd h) r : low k (elR h r) -> n_insert cmp (S h) k v ((c, r) : nd (S h)) =
    match n_insert cmp h k v c with Fit c' => Fit ((c', r) : nd (S h)) | Split a q b => grow (C := nd h) 0 (a, (q, b) :: r) end.
  Proof. intros H. cbn [n_insert]. rewrite kid0_pair, kids_pair, low_seek by (apply low_head; auto). destruct r as [|[p d] r]; reflexivity. Qed.
  Lemma split_low h k v : forall t : nd h, left_full h t -> low k (elems h t) -> exists a p b, n_insert cmp h k v t = Split a p b /\ In p (elems h t) /\
    width h b = 6 /\ narrow h a /\ nodes h a + nodes h b = nodes h t + S h /\ width h (n_remove cmp h k a) = 4 /\ merge h (n_remove cmp h k a) p b = t.
  Proof.
    induction h as [|h IH]; intros t.
    - cbn [left_full elems n_insert nodes]. intros Hf Hl. rewrite low_insert, low_below by auto. cbn [node] in t.
      do 11 (destruct t as [|? t]; [discriminate|]). destruct t; [|discriminate]. unfold grow0. cbn. do 3 eexists. split; [reflexivity|]. cbn. rewrite (cmp_refl OL). cbn. repeat split; auto 20; lia.
    - destruct t as [c r]. intros [Hr Hf] Hl. rewrite kids_pair, kid0_pair in *. apply low_S in Hl. destruct Hl as [Hl1 Hl2].
      destruct (IH c Hf Hl1) as [a [q [b [E [Hq [Wb [Na [Hn [Wr Em]]]]]]]]]. rewrite low_n_insert, E by auto.
      do 11 (destruct r as [|[? ?] r]; [discriminate|]). destruct r; [|discriminate]. unfold grow. cbn [length snd Nat.leb CAP splitpoint Nat.ltb Nat.eqb orb skipn firstn fst].
      do 3 eexists. split; [reflexivity|]. split; [rewrite elems_S; apply in_or_app; right; rewrite !elR_cons; right; apply in_or_app; right; right; apply in_or_app; right; right; apply in_or_app; right; right; apply in_or_app; right; left; reflexivity|].
      split; [reflexivity|]. split; [split; [cbn; lia|exact Na]|]. split; [rewrite !nodes_S, !nR_cons; cbn [nR map list_sum fold_right]; lia|].
      assert (Er : forall l : list (P * nd h), n_remove cmp (S h) k ((a, (q, b) :: l) : nd (S h)) = (c, l)).
      { intros l. cbn [n_remove]. rewrite kid0_pair, kids_pair, low_seek by (rewrite Forall_forall in Hl1; apply Hl1; auto). unfold mend. rewrite Wr, Wb. cbn [Nat.ltb Nat.leb MINL CAP Nat.add]. rewrite Em. reflexivity. }
      rewrite Er. split; reflexivity.
  Qed.
  Lemma low_get (m : M) k : asc (elems _ (nm_root m)) -> low k (elems _ (nm_root m)) -> nm_get cmp m k = None.
  Proof. intros Ha Hl. unfold nm_get. rewrite (n_get_ok OL) by auto. destruct Hl as [|[k' v'] l H1 H2]; auto. cbn [map_get]. cbn [fst] in H1. rewrite H1. reflexivity. Qed.
  Lemma thrash (m : M) k v : asc (elems _ (nm_root m)) -> left_full _ (nm_root m) -> low k (elems _ (nm_root m)) ->
    let m' := b_step cmp m (BPut k v) in nm_nodes m' = nm_nodes m + nm_height m + 2 /\ b_step cmp m' (BDel k) = m.
  Proof.
    intros Ha Hf Hl. cbv zeta. assert (Hg := low_get m k Ha Hl). destruct m as [h t n]. cbn [nm_height nm_root] in *. destruct (split_low h k v t Hf Hl) as [a [p [b [E [Hp [Wb [_ [Hn [Wr Em]]]]]]]]].
    assert (Es : b_step cmp (NMK h t n) (BPut k v) = NMK (S h) ((a, [(p, b)]) : nd (S h)) (n + 1)).
    { cbn [b_step Node_map m_insert]. unfold nm_insert. rewrite Hg. cbn [nm_height nm_root nm_length]. rewrite E. reflexivity. }
    assert (Gi : nm_get cmp (b_step cmp (NMK h t n) (BPut k v)) k <> None).
    { rewrite Es. unfold nm_get. cbn [nm_height nm_root]. rewrite (n_get_ok OL).
      - assert (Gi := n_insert_ok OL h k v t Ha). rewrite E, low_insert in Gi by auto. cbn [gel] in Gi. rewrite elems_S. cbn [elR flat_map fst snd]. rewrite app_nil_r, Gi. cbn [map_get]. rewrite (cmp_refl OL). discriminate.
      - assert (Gi := n_insert_ok OL h k v t Ha). rewrite E, low_insert in Gi by auto. cbn [gel] in Gi. rewrite elems_S. cbn [elR flat_map fst snd]. rewrite app_nil_r, Gi. constructor; auto. }
    split; [rewrite Es; unfold nm_nodes; cbn [nm_root nm_height]; rewrite nodes_S; cbn [nR map list_sum fold_right snd]; lia|].
    rewrite Es in Gi |- *. cbn [b_step Node_map m_remove_entry]. destruct (nm_get cmp (NMK (S h) ((a, [(p, b)]) : nd (S h)) (n + 1)) k); [|contradiction]. cbn [fst]. unfold nm_remove. cbn [nm_height nm_root nm_length].
    assert (Er : n_remove cmp (S h) k ((a, [(p, b)]) : nd (S h)) = (t, [])).
    { cbn [n_remove]. rewrite kid0_pair, kids_pair, low_seek by (rewrite Forall_forall in Hl; apply Hl; auto). unfold mend. rewrite Wr, Wb. cbn [Nat.ltb Nat.leb MINL CAP Nat.add]. rewrite Em. reflexivity. }
    rewrite Er. cbn [lower_root]. rewrite kids_pair, kid0_pair. f_equal. lia.
  Qed.
  Lemma repeat_work (m m' : M) o o' g r : b_step cmp m o = m' -> b_step cmp m' o' = m -> nm_nodes m' = nm_nodes m + g ->
    b_work cmp m (concat (repeat [o; o'] r)) = 2 * r * g.
  Proof.
    intros E1 E2 Eg. induction r as [|r IH]; [reflexivity|]. cbn [repeat concat app b_work]. rewrite E1, E2, IH. unfold gap. rewrite Eg. replace (2 * S r * g) with (g + (g + 2 * r * g)) by ring. lia.
  Qed.

  (** *** Falling keys fill the leftmost nodes *)
  Section Falling.
    Context (key : nat -> K) (v : V) (falling : forall i, cmp (key (S i)) (key i) = Lt).
    Notation good i l := (asc l /\ low (key i) l).
    Lemma good_cons i l : good i l -> good (S i) ((key i, v) :: l).
    Proof.
      intros [Ha Hl]. split; [constructor; auto|]. constructor; [apply falling|]. eapply Forall_impl; [|exact Hl]. intros p Hp. exact (cmp_trans OL _ _ _ (falling i) Hp).
    Qed.
    Lemma good_grown h i (t : nd h) : good i (elems h t) -> good (S i) (gel h (n_insert cmp h (key i) v t)).
    Proof. intros [Ha Hl]. rewrite (n_insert_ok OL), low_insert by auto. apply good_cons. auto. Qed.
    Inductive fits (h : nat) : nat -> nat -> nd h -> nd h -> Prop :=
    | fits_no : forall i t, fits h i i t t
    | fits_one : forall i j t t1 t', n_insert cmp h (key i) v t = Fit t1 -> fits h (S i) j t1 t' -> fits h i j t t'.
    Lemma fits_good h i j t t' : fits h i j t t' -> good i (elems h t) -> good j (elems h t').
    Proof. induction 1 as [|i j t t1 t' E _ IH]; auto. intros Hg. apply IH. apply good_grown in Hg. rewrite E in Hg. exact Hg. Qed.
    Lemma fits_app h i j t t' : fits h i j t t' -> forall j' t'', fits h j j' t' t'' -> fits h i j' t t''.
    Proof. induction 1 as [|i j t t1 t' E _ IH]; auto. intros j' t'' H. eapply fits_one; [exact E|]. auto. Qed.
    Lemma good_parts h i (c : nd h) r : good i (elems (S h) ((c, r) : nd (S h))) -> good i (elems h c) /\ low (key i) (elR h r).
    Proof. intros [Ha Hl]. apply low_S in Hl. rewrite elems_S in Ha. apply asc_app in Ha. intuition. Qed.
    Lemma fits_lift h i j (c c' : nd h) (r : list (P * nd h)) : fits h i j c c' -> good i (elems (S h) ((c, r) : nd (S h))) -> fits (S h) i j (c, r) (c', r).
    Proof.
      induction 1 as [|i j c c1 c' E _ IH]; intros Hg; [constructor|]. assert (E' : n_insert cmp (S h) (key i) v ((c, r) : nd (S h)) = Fit ((c1, r) : nd (S h))).
      { rewrite low_n_insert, E; auto. apply (good_parts _ _ _ _ Hg). }
      eapply fits_one; [exact E'|]. apply IH. apply good_grown in Hg. rewrite E' in Hg. exact Hg.
    Qed.
    Lemma fill h : forall i (t : nd h), narrow h t -> good i (elems h t) -> exists j t', fits h i j t t' /\ left_full h t'.
    Proof.
      induction h as [|h IH]; intros i t Hn Hg.
      - cbn [narrow] in Hn. assert (Hd : exists d, d + length t = 11) by (exists (11 - length t); lia). destruct Hd as [d Hd]. revert i t Hn Hg Hd. induction d as [|d IHd]; intros i t Hn Hg Hd.
        + exists i, t. split; [constructor|exact Hd].
        + assert (E : n_insert cmp 0 (key i) v t = Fit ((key i, v) :: t : nd 0)).
          { cbn [n_insert]. rewrite low_insert by apply Hg. unfold grow0. cbn [length]. destruct (Nat.leb_spec (S (length t)) CAP); auto. unfold CAP in *. lia. }
          destruct (IHd (S i) ((key i, v) :: t)) as [j [t' [F1 F2]]]; [cbn [length]; lia|apply good_cons; auto|cbn [length]; lia|]. exists j, t'. split; auto. eapply fits_one; eauto.
      - destruct t as [c r]. destruct Hn as [Hr Hn]. rewrite kids_pair, kid0_pair in *. assert (Hd : exists d, d + length r = 11) by (exists (11 - length r); lia). destruct Hd as [d Hd].
        revert i c r Hr Hn Hg Hd. induction d as [|d IHd]; intros i c r Hr Hn Hg Hd; destruct (IH i c Hn (proj1 (good_parts _ _ _ _ Hg))) as [j [c' [F1 F2]]]; assert (Fl := fits_lift _ _ _ _ _ r F1 Hg).
        + exists j, ((c', r) : nd (S h)). split; auto. split; auto.
        + assert (Hg' := fits_good _ _ _ _ _ Fl Hg). destruct (good_parts _ _ _ _ Hg') as [G1 G2]. destruct (split_low h (key j) v c' F2 (proj2 G1)) as [a [q [b [E [_ [_ [Na _]]]]]]].
          assert (E' : n_insert cmp (S h) (key j) v ((c', r) : nd (S h)) = Fit ((a, (q, b) :: r) : nd (S h))).
          { rewrite low_n_insert, E by auto. unfold grow. cbn [length snd]. destruct (Nat.leb_spec (S (length r)) CAP); auto. unfold CAP in *. lia. }
          destruct (IHd (S j) a ((q, b) :: r)) as [j' [t' [F3 F4]]]; auto; try (cbn [length]; lia); [apply good_grown in Hg'; rewrite E' in Hg'; exact Hg'|].
          exists j', t'. split; auto. apply (fits_app _ _ _ _ _ Fl). eapply fits_one; eauto.
    Qed.
    Definition fall (i j : nat) : list (bop K V) := map (fun i => BPut (key i) v) (seq i (j - i)).
    Lemma fits_le h i j t t' : fits h i j t t' -> i <= j.
    Proof. induction 1; lia. Qed.
    Lemma fall_one i j : i < j -> fall i j = BPut (key i) v :: fall (S i) j.
    Proof. intros H. unfold fall. replace (j - i) with (S (j - S i)) by lia. reflexivity. Qed.
    Lemma fall_app i j l : i <= j <= l -> fall i l = fall i j ++ fall j l.
    Proof. intros H. unfold fall. rewrite <- map_app. f_equal. replace (l - i) with ((j - i) + (l - j)) by lia. rewrite seq_app. replace (i + (j - i)) with j by lia. reflexivity. Qed.
    Lemma fits_run h i j t t' : fits h i j t t' -> forall n, exists n', b_run cmp (NMK h t n) (fall i j) = NMK h t' n'.
    Proof.
      induction 1 as [i t|i j t t1 t' E F IH]; intros n; [exists n; unfold fall; rewrite Nat.sub_diag; reflexivity|]. apply fits_le in F. rewrite fall_one by lia. cbn [b_run fold_left b_step Node_map m_insert].
      unfold nm_insert. cbn [nm_height nm_root nm_length]. rewrite E. apply IH.
    Qed.
    Lemma reach h : exists j t n, b_run cmp (nm_empty cmp) (fall 0 j) = NMK h t n /\ left_full h t /\ good j (elems h t).
    Proof.
      induction h as [|h [j [t [n [E [Hf Hg]]]]]].
      - destruct (fill 0 0 ([] : nd 0)) as [j [t [F1 F2]]]; [cbn; lia|split; constructor|]. destruct (fits_run _ _ _ _ _ F1 0%N) as [n En]. exists j, t, n. split; [exact En|]. split; auto.
        apply (fits_good _ _ _ _ _ F1). split; constructor.
      - destruct (split_low h (key j) v t Hf (proj2 Hg)) as [a [p [b [Es [_ [_ [Na _]]]]]]].
        assert (Hg1 : good (S j) (elems (S h) ((a, [(p, b)]) : nd (S h)))).
        { apply good_grown in Hg. rewrite Es in Hg. rewrite elems_S. cbn [elR flat_map fst snd]. rewrite app_nil_r. exact Hg. }
        destruct (fill (S h) (S j) ((a, [(p, b)]) : nd (S h))) as [j' [t' [F1 F2]]]; [split; [cbn; lia|exact Na]|exact Hg1|].
        assert (Hle := fits_le _ _ _ _ _ F1). assert (Ei : exists n1, b_run cmp (NMK h t n) [BPut (key j) v] = NMK (S h) ((a, [(p, b)]) : nd (S h)) n1).
        { cbn [b_run fold_left b_step Node_map m_insert]. unfold nm_insert. cbn [nm_height nm_root nm_length]. rewrite Es. eauto. }
        destruct Ei as [n1 Ei]. destruct (fits_run _ _ _ _ _ F1 n1) as [n2 En]. exists j', t', n2. split; [|split; auto; apply (fits_good _ _ _ _ _ F1 Hg1)].
        rewrite (fall_app 0 j j'), (fall_one j) by lia. unfold b_run in *. rewrite fold_left_app, E. cbn [fold_left] in *. rewrite Ei. exact En.
    Qed.
    (** the state, and what it costs to put the next key in and take it out again *)
    Lemma worst h : exists j, let m := b_run cmp (nm_empty cmp) (fall 0 j) in let m' := b_step cmp m (BPut (key j) v) in
      nm_height m = h /\ nm_nodes m' = nm_nodes m + h + 2 /\ b_step cmp m' (BDel (key j)) = m.
    Proof.
      destruct (reach h) as [j [t [n [E [Hf [Ha Hl]]]]]]. exists j. cbv zeta. rewrite E. destruct (thrash (NMK h t n) (key j) v Ha Hf Hl) as [H1 H2]. auto.
    Qed.
    Lemma no_constant c : exists os : list (bop K V), c * length os < b_work cmp (nm_empty cmp) os.
    Proof.
      destruct (worst c) as [j [_ [H1 H2]]]. cbv zeta in *. set (m := b_run cmp (nm_empty cmp) (fall 0 j)) in *. exists (fall 0 j ++ concat (repeat [BPut (key j) v; BDel (key j)] (S (c * j)))).
      rewrite work_app. fold m. rewrite (repeat_work m _ _ _ (c + 2) _ eq_refl H2) by lia. rewrite app_length. unfold fall. rewrite map_length, seq_length.
      assert (El : forall (o o' : bop K V) r, length (concat (repeat [o; o'] r)) = 2 * r) by (intros o o' r; induction r as [|r IHr]; auto; cbn [repeat concat]; rewrite app_length, IHr; cbn [length]; lia).
      rewrite El, Nat.sub_0_r. nia.
    Qed.
  End Falling.
End Count.

Lemma empty_inv {K V : Type} (cmp : K -> K -> comparison) : nm_inv (cmp := cmp) (nm_empty (V := V) cmp).
Proof. split; [constructor|]. split; [|reflexivity]. unfold well_shaped. cbn. lia. Qed.
Lemma run_space {K V : Type} {cmp : K -> K -> comparison} (OL : OrdLaws cmp) os : let m := b_run cmp (nm_empty (V := V) cmp) os in 5 * (nm_nodes m - 1) <= length (elems _ (nm_root m)).
Proof. exact (inv_space _ (run_inv OL os _ (empty_inv cmp))). Qed.
Lemma insertions {K V : Type} {cmp : K -> K -> comparison} (OL : OrdLaws cmp) (kvs : list (K * V)) :
  5 * b_work cmp (nm_empty (V := V) cmp) (map (fun kv => BPut (fst kv) (snd kv)) kvs) <= length kvs.
Proof.
  set (os := map _ kvs). assert (W := puts_work (cmp := cmp) os). assert (Hp : Forall (fun o => match o with BPut _ _ => True | _ => False end) os) by (unfold os; clear; induction kvs; constructor; auto).
  specialize (W Hp (nm_empty cmp)). rewrite empty_nodes in W. assert (S := run_space OL os). cbv zeta in S.
  assert (Hl : forall (l : list (K * V)) (m : NMap), nm_inv (cmp := cmp) m -> length (elems _ (nm_root (b_run cmp m (map (fun kv => BPut (fst kv) (snd kv)) l)))) <= length (elems _ (nm_root m)) + length l).
  { clear - OL. induction l as [|[k v] l IH]; intros m Hm; [cbn; lia|]. cbn [map b_run fold_left fst snd length]. assert (Hm' := step_inv OL m (BPut k v) Hm). apply IH in Hm'. unfold b_run in Hm'.
    assert (G := proj2 (nm_insert_ok OL m k v Hm)). unfold nm_list in G. cbn [b_step Node_map m_insert] in *. rewrite G in Hm'. rewrite <- (insert_insert OL) in Hm' by apply Hm.
    assert (G' := insert_length (cmp := cmp) (elems _ (nm_root m)) k v). lia. }
  specialize (Hl kvs _ (empty_inv cmp)). fold os in Hl. change (length (elems _ (nm_root (nm_empty (V := V) cmp)))) with 0 in Hl. lia.
Qed.
Lemma worst_seq {K V : Type} {cmp : K -> K -> comparison} (OL : OrdLaws cmp) key (v : V) : (forall i, cmp (key (S i)) (key i) = Lt) -> forall h,
  exists j, let m := b_run cmp (nm_empty cmp) (map (fun i => BPut (key i) v) (seq 0 j)) in let m' := b_step cmp m (BPut (key j) v) in
  nm_height m = h /\ nm_nodes m' = nm_nodes m + h + 2 /\ b_step cmp m' (BDel (key j)) = m.
Proof. intros H h. destruct (worst OL key v H h) as [j W]. exists j. unfold fall in W. rewrite Nat.sub_0_r in W. exact W. Qed.
Lemma Z_laws : OrdLaws Z.compare.
Proof. split; [apply Z.compare_eq_iff|intros a b; apply Z.compare_antisym|]. intros a b c. rewrite !Z.compare_lt_iff. lia. Qed.
Lemma Z_falling i : Z.compare (- Z.of_nat (S i)) (- Z.of_nat i) = Lt.
Proof. apply Z.compare_lt_iff. lia. Qed.

Lemma step_list {K V : Type} {cmp : K -> K -> comparison} (OL : OrdLaws cmp) (m : NMap (K := K) (V := V)) o : nm_inv (cmp := cmp) m ->
  nm_list (b_step cmp m o) = l_step cmp (nm_list m) o.
Proof.
  intros Hm. destruct o as [k v|k| |]; cbn [b_step l_step].
  - apply (nm_insert_ok OL m k v Hm).
  - exact (proj1 (proj2 (proj2 (mk_remove_entry _ _ (Node_contract (V := V) OL) m k Hm)))).
  - cbn [Node_map m_pop_first]. assert (H := nm_pop_first_ok (cmp := cmp) m Hm). destruct (nm_popped m _). apply H.
  - cbn [Node_map m_pop_last]. assert (H := nm_pop_last_ok (cmp := cmp) m Hm). destruct (nm_popped m _). apply H.
Qed.
Lemma run_list {K V : Type} {cmp : K -> K -> comparison} (OL : OrdLaws cmp) (os : list (bop K V)) :
  elems _ (nm_root (b_run cmp (nm_empty cmp) os)) = fold_left (l_step cmp) os [].
Proof.
  assert (G : forall (os : list (bop K V)) (m : NMap (K := K) (V := V)), nm_inv (cmp := cmp) m -> nm_list (b_run cmp m os) = fold_left (l_step cmp) os (nm_list m)).
  { clear os. induction os as [|o os IH]; intros m Hm; [reflexivity|]. cbn [b_run fold_left]. unfold b_run in IH. rewrite IH by (apply (step_inv OL); exact Hm). rewrite (step_list OL) by exact Hm. reflexivity. }
  exact (G os _ (empty_inv cmp)).
Qed.

Section Share.
  Context {K V : Type} {cmp : K -> K -> comparison} (OL : OrdLaws cmp).
  Notation P := (K * V)%type.
  Notation nd := (node P).
  Notation asc := (@ascending K V cmp).
  Lemma share e : e <= 11 -> splitpoint e = left_share e.
  Proof. intros H. do 12 (destruct e as [|e]; [reflexivity|]). lia. Qed.
  Lemma below_length k (l : list P) : length (below cmp k l) <= length l.
  Proof. unfold below. induction l as [|p l IH]; auto. cbn [filter]. destruct (ltb cmp (fst p) k); cbn [length]; lia. Qed.
  Lemma split_leaf (t : nd 0) k v : length t = 11 -> asc t -> map_get cmp t k = None -> exists a p b, n_insert cmp 0 k v t = Split a p b /\
    length a = left_share (length (below cmp k t)) /\ length a + length b = 11.
  Proof.
    intros Hl Ha Hk. cbn [node] in t. assert (Hc := insert_count (cmp := cmp) t k v). rewrite Hk, Hl in Hc. assert (Hb := below_length k t). rewrite Hl in Hb. assert (Hs := share _ Hb).
    cbn [n_insert]. unfold grow0. rewrite Hc. cbn [Nat.leb CAP]. assert (R := splitpoint_range (length (below cmp k t))). set (e := splitpoint _) in *.
    assert (L := skipn_length e (map_insert cmp t k v)). rewrite Hc in L. destruct (skipn e (map_insert cmp t k v)) as [|p r] eqn:E; [cbn [length] in L; lia|]. cbn [length] in L.
    do 3 eexists. split; [reflexivity|]. rewrite firstn_length, Hc, <- Hs. lia.
  Qed.
  Lemma above_stop k p (l : list P) : asc (p :: l) -> cmp k (fst p) <> Gt -> below cmp k (p :: l) = [].
  Proof.
    intros Ha Hk. unfold below. assert (H : forall q, In q (p :: l) -> ltb cmp (fst q) k = false).
    { intros q Hq. unfold ltb. rewrite (cmp_opp OL). assert (Hq' : cmp k (fst q) <> Gt).
      { destruct Hq as [<-|Hq]; auto. inversion Ha as [|x y A1 A2]; subst. rewrite Forall_forall in A2. specialize (A2 q Hq). destruct (cmp k (fst p)) eqn:E; [| |congruence].
        - apply (cmp_eq OL) in E. subst. congruence.
        - rewrite (cmp_trans OL _ _ _ E A2). discriminate. }
      destruct (cmp k (fst q)); auto. congruence. }
    revert H. generalize (p :: l). induction l0 as [|q l0 IH]; auto. intros H. cbn [filter]. rewrite (H q) by (left; auto). apply IH. intros; apply H; right; auto.
  Qed.
  Lemma seek_pos {C : Type} k : forall (r : list (P * C)) ls c ls' c' r' x, asc (map fst r) -> seek cmp k ls c r = (ls', c', r', x) -> length ls' = length ls + length (below cmp k (map fst r)).
  Proof.
    induction r as [|[p d] r IH]; intros ls c ls' c' r' x Ha; cbn [seek]; [intros [= <- _ _ _]; cbn; lia|]. destruct (cmp k (fst p)) eqn:E.
    - intros [= <- _ _ _]. cbn [map fst] in *. rewrite above_stop by (auto; congruence). cbn. lia.
    - intros [= <- _ _ _]. cbn [map fst] in *. rewrite above_stop by (auto; congruence). cbn. lia.
    - cbn [map fst] in *. intros Es. inversion Ha as [|y z A1 A2]; subst. apply IH in Es; auto. rewrite Es. unfold below. cbn [filter length]. unfold ltb at 2. rewrite (cmp_opp OL), E. cbn. lia.
  Qed.
  Lemma own_asc h (r : list (P * nd h)) : asc (elR h r) -> asc (map fst r).
  Proof.
    induction r as [|[p d] r IH]; [constructor|]. rewrite elR_cons. cbn [map fst]. intros H. inversion H as [|x y A1 A2]; subst. apply asc_app in A1. constructor; [apply IH; apply A1|].
    rewrite Forall_forall in *. intros q Hq. apply A2. apply in_or_app. right. apply in_map_iff in Hq. destruct Hq as [[q' e] [<- Hq]]. unfold elR. apply in_flat_map. exists (q', e). split; auto. left. reflexivity.
  Qed.
  Lemma split_inner h (t : nd (S h)) k v : width (S h) t = 11 -> asc (elems (S h) t) -> (exists a p b, n_insert cmp (S h) k v t = Split a p b) ->
    exists a p b, n_insert cmp (S h) k v t = Split a p b /\ width (S h) a = left_share (length (below cmp k (map fst (kids t)))) /\ width (S h) a + width (S h) b = 11.
  Proof.
    intros Hl Ha [a0 [p0 [b0 E0]]]. exists a0, p0, b0. split; auto. rewrite elems_eta in Ha. apply asc_app in Ha. destruct Ha as [_ [Ha _]]. apply own_asc in Ha.
    cbn [n_insert] in E0. cbn [width] in *. destruct (seek cmp k [] (kid0 t) (kids t)) as [[[ls c] r] x] eqn:E. assert (Hp := seek_pos k _ _ _ _ _ _ _ Ha E). cbn [length Nat.add] in Hp.
    assert (Hb := below_length k (map fst (kids t))). rewrite map_length, Hl in Hb. assert (Hs := share _ Hb). rewrite <- Hp in *.
    assert (El : length ls + length r = 11).
    { assert (G : forall (ls : list (nd h * P)) c r, length (snd (plug ls c r)) = length ls + length r).
      { clear. induction ls as [|[b p] ls IH]; intros c r; [reflexivity|]. cbn [plug]. rewrite IH. cbn [length]. lia. }
      apply seek_plug in E. rewrite <- G with (c := c), E. exact Hl. }
    assert (Hx : match n_insert cmp h k v c with Fit c' => Fit (plug ls c' r : nd (S h)) | Split a q b => grow (C := nd h) (length ls) (plug ls a ((q, b) :: r)) end = Split a0 p0 b0).
    { destruct r as [|[q d] r]; [exact E0|]. destruct x; [discriminate|exact E0]. }
    destruct (n_insert cmp h k v c) as [c'|a q b]; [discriminate|]. unfold grow in Hx.
    assert (G : length (snd (plug ls a ((q, b) :: r))) = 12).
    { clear - El. assert (G : forall (ls : list (nd h * P)) c r, length (snd (plug ls c r)) = length ls + length r).
      { clear. induction ls as [|[b p] ls IH]; intros c r; [reflexivity|]. cbn [plug]. rewrite IH. cbn [length]. lia. }
      rewrite G. cbn [length]. lia. }
    rewrite G in Hx. cbn [Nat.leb CAP] in Hx. assert (R := splitpoint_range (length ls)). set (e := splitpoint (length ls)) in *. set (l := snd (plug ls a ((q, b) :: r))) in *.
    assert (L := skipn_length e l). rewrite G in L. destruct (skipn e l) as [|[p d] r'] eqn:Ek; [discriminate|]. injection Hx as <- _ <-. cbn [length] in L. rewrite !kids_pair, firstn_length, G, <- Hs. lia.
  Qed.
End Share.
