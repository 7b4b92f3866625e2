(** The laws every tree type and every collection satisfies, as records; the proofs that the
    impls satisfy them are in the *Proofs files. *)
From Verif Require Import Base Spec Ops Boxed Lists.

Section VebLaws.
  Context {B : Build} {K V : Type} (cmp : K -> K -> comparison) (O : VebOps K V).
  Let T := vt O.

  (** What is left after [p] was taken out of [t]. *)
  Definition taken (winv ord : T -> Prop) (ents : T -> list (K * V)) (t : T) (p : K * V)
    (ot : option T) : Prop :=
    match ot with
    | None => ents t = [p]
    | Some t' => winv t' /\ Permutation (ents t) (p :: ents t') /\ (ord t -> ord t')
    end.

  (** A write through the reference that came with [p]. *)
  Definition lens_ok (winv ord : T -> Prop) (ents : T -> list (K * V)) (t : T) (p : K * V)
    (put : V -> T) : Prop :=
    exists rest, Permutation (ents t) (p :: rest) /\
    forall w, winv (put w) /\ Permutation (ents (put w)) ((fst p, w) :: rest) /\
              (ord t -> ord (put w)).

  (** The mutable form of an (optional) query agrees with the immutable form. *)
  Definition mut_ok (winv ord : T -> Prop) (ents : T -> list (K * V)) (t : T)
    (m : res (option (K * V * (V -> T)))) (i : res (option (K * V))) : Prop :=
    exists o, m = Ret o /\ i = Ret (omap fst o) /\
    forall p put, o = Some (p, put) -> lens_ok winv ord ents t p put.
  Definition mut1_ok (winv ord : T -> Prop) (ents : T -> list (K * V)) (t : T)
    (m : res (K * V * (V -> T))) (i : res (K * V)) : Prop :=
    exists p put, m = Ret (p, put) /\ i = Ret p /\ lens_ok winv ord ents t p put.

  Record VebLaws : Type := mkVL {
    (** structural soundness; holds on every history *)
    winv : T -> Prop;
    (** the stored pairs *)
    ents : T -> list (K * V);
    (** the stored keys are where the order says they should be *)
    ord : T -> Prop;
    (** an insertion of this key keeps them there *)
    safe : T -> K -> Prop;

    L_nonempty : forall t, winv t -> ents t <> [];
    L_nodup : forall t, winv t -> ord t -> NoDup (keys (ents t));
    L_safe_in : forall t k, winv t -> ord t -> In k (keys (ents t)) -> safe t k;
    L_safe_gt : forall t k, winv t -> ord t ->
      (forall k', In k' (keys (ents t)) -> cmp k' k = Lt) -> safe t k;
    L_from_monad : forall k v,
      winv (v_from_monad O k v) /\ ord (v_from_monad O k v) /\ ents (v_from_monad O k v) = [(k, v)];
    L_is_monad : forall t, winv t -> v_is_monad O t = Ret (length (ents t) =? 1);
    L_len_hint : forall t, winv t -> exists lo hi, v_len_hint O t = Ret (lo, hi) /\
      (lo <= N.of_nat (length (ents t)))%N /\
      (forall h, hi = Some h -> (N.of_nat (length (ents t)) <= h)%N);
    L_into_monad : forall t, winv t ->
      (exists p, v_into_monad O t = Ret (Ok p) /\ ents t = [p]) \/
      (v_into_monad O t = Ret (Err t) /\ length (ents t) <> 1);
    L_min : forall t, winv t -> exists p, v_min_val O t = Ret p /\ In p (ents t) /\
      (ord t -> forall q, In q (ents t) -> cmp (fst p) (fst q) <> Gt);
    L_max : forall t, winv t -> exists p, v_max_val O t = Ret p /\ In p (ents t) /\
      (ord t -> forall q, In q (ents t) -> cmp (fst q) (fst p) <> Gt);
    L_find : forall t k, winv t -> exists o, v_find O t k = Ret o /\
      match o with
      | Some p => In p (ents t) /\ fst p = k
      | None => ord t -> ~ In k (keys (ents t))
      end;
    L_pred : forall t k, winv t -> exists o, v_predecessor O t k = Ret o /\
      match o with
      | Some p => In p (ents t) /\
          (ord t -> cmp (fst p) k = Lt /\
           forall q, In q (ents t) -> cmp (fst q) k = Lt -> cmp (fst q) (fst p) <> Gt)
      | None => ord t -> forall q, In q (ents t) -> cmp (fst q) k <> Lt
      end;
    L_succ : forall t k, winv t -> exists o, v_successor O t k = Ret o /\
      match o with
      | Some p => In p (ents t) /\
          (ord t -> cmp k (fst p) = Lt /\
           forall q, In q (ents t) -> cmp k (fst q) = Lt -> cmp (fst p) (fst q) <> Gt)
      | None => ord t -> forall q, In q (ents t) -> cmp k (fst q) <> Lt
      end;
    L_min_mut : forall t, winv t -> mut1_ok winv ord ents t (v_min_val_mut O t) (v_min_val O t);
    L_max_mut : forall t, winv t -> mut1_ok winv ord ents t (v_max_val_mut O t) (v_max_val O t);
    L_find_mut : forall t k, winv t -> mut_ok winv ord ents t (v_find_mut O t k) (v_find O t k);
    L_pred_mut : forall t k, winv t ->
      mut_ok winv ord ents t (v_predecessor_mut O t k) (v_predecessor O t k);
    L_succ_mut : forall t k, winv t ->
      mut_ok winv ord ents t (v_successor_mut O t k) (v_successor O t k);
    L_insert : forall t k v, winv t -> (N.of_nat (length (ents t)) < usize_max)%N ->
      exists t' r, v_insert O t k v = Ret (t', r) /\ winv t' /\
      match r with
      | None => Permutation (ents t') ((k, v) :: ents t)
      | Some q => exists rest, Permutation (ents t) (q :: rest) /\ Permutation (ents t') ((k, v) :: rest)
      end /\
      (NoDup (keys (ents t)) -> ~ In k (keys (ents t)) -> r = None) /\
      (ord t -> safe t k -> ord t');
    L_remove : forall t k, winv t ->
      (exists ot p, v_remove O t k = Ret (Ok (ot, p)) /\ fst p = k /\ taken winv ord ents t p ot) \/
      (v_remove O t k = Ret (Err t) /\ ~ In k (keys (ents t)));
    L_remove_min : forall t, winv t -> exists ot p,
      v_remove_min O t = Ret (ot, p) /\ v_min_val O t = Ret p /\ taken winv ord ents t p ot;
    L_remove_max : forall t, winv t -> exists ot p,
      v_remove_max O t = Ret (ot, p) /\ v_max_val O t = Ret p /\ taken winv ord ents t p ot
  }.
End VebLaws.
Arguments taken {K V O}.
Arguments lens_ok {K V O}.
Arguments mut_ok {K V O}.
Arguments mut1_ok {K V O}.
Arguments winv {B K V cmp O}.
Arguments ents {B K V cmp O}.
Arguments ord {B K V cmp O}.
Arguments safe {B K V cmp O}.
Arguments L_nonempty {B K V cmp O}.
Arguments L_nodup {B K V cmp O}.
Arguments L_safe_in {B K V cmp O}.
Arguments L_safe_gt {B K V cmp O}.
Arguments L_from_monad {B K V cmp O}.
Arguments L_is_monad {B K V cmp O}.
Arguments L_len_hint {B K V cmp O}.
Arguments L_into_monad {B K V cmp O}.
Arguments L_min {B K V cmp O}.
Arguments L_max {B K V cmp O}.
Arguments L_find {B K V cmp O}.
Arguments L_pred {B K V cmp O}.
Arguments L_succ {B K V cmp O}.
Arguments L_min_mut {B K V cmp O}.
Arguments L_max_mut {B K V cmp O}.
Arguments L_find_mut {B K V cmp O}.
Arguments L_pred_mut {B K V cmp O}.
Arguments L_succ_mut {B K V cmp O}.
Arguments L_insert {B K V cmp O}.
Arguments L_remove {B K V cmp O}.
Arguments L_remove_min {B K V cmp O}.
Arguments L_remove_max {B K V cmp O}.

(** Keys: [OrdLaws] for the three orders, and splitting is an order embedding into pairs that [join] undoes.
    Not every pair need be the split of a key. *)
Record KeyLaws {K Hi Lo : Type} (ko : KeyOps K Hi Lo) : Prop := {
  KL_k : OrdLaws (k_cmp ko);
  KL_hi : OrdLaws (hi_cmp ko);
  KL_lo : OrdLaws (lo_cmp ko);
  KL_join_split : forall k, k_join ko (fst (k_split_val ko k)) (snd (k_split_val ko k)) = k;
  KL_split_ref : forall k, k_split_ref ko k = k_split_val ko k;
  KL_cmp : forall a b, k_cmp ko a b =
    match hi_cmp ko (fst (k_split_val ko a)) (fst (k_split_val ko b)) with
    | Eq => lo_cmp ko (snd (k_split_val ko a)) (snd (k_split_val ko b))
    | c => c
    end
}.
Arguments KL_k {K Hi Lo ko}.
Arguments KL_hi {K Hi Lo ko}.
Arguments KL_lo {K Hi Lo ko}.
Arguments KL_join_split {K Hi Lo ko}.
Arguments KL_split_ref {K Hi Lo ko}.
Arguments KL_cmp {K Hi Lo ko}.
(** The same with every pair the split of a key: true of the keys of src/key.rs, not needed by the trees. *)
Record KeyIso {K Hi Lo : Type} (ko : KeyOps K Hi Lo) : Prop := {
  KI_k : OrdLaws (k_cmp ko);
  KI_hi : OrdLaws (hi_cmp ko);
  KI_lo : OrdLaws (lo_cmp ko);
  KI_join_split : forall k, k_join ko (fst (k_split_val ko k)) (snd (k_split_val ko k)) = k;
  KI_split_join : forall h l, k_split_val ko (k_join ko h l) = (h, l);
  KI_split_ref : forall k, k_split_ref ko k = k_split_val ko k;
  KI_cmp : forall a b, k_cmp ko a b =
    match hi_cmp ko (fst (k_split_val ko a)) (fst (k_split_val ko b)) with
    | Eq => lo_cmp ko (snd (k_split_val ko a)) (snd (k_split_val ko b))
    | c => c
    end
}.
Arguments KI_k {K Hi Lo ko}.
Arguments KI_hi {K Hi Lo ko}.
Arguments KI_lo {K Hi Lo ko}.
Arguments KI_join_split {K Hi Lo ko}.
Arguments KI_split_join {K Hi Lo ko}.
Arguments KI_split_ref {K Hi Lo ko}.
Arguments KI_cmp {K Hi Lo ko}.
Lemma iso_laws {K Hi Lo} {ko : KeyOps K Hi Lo} : KeyIso ko -> KeyLaws ko.
Proof. intros [H1 H2 H3 H4 H5 H6 H7]. split; auto. Qed.

(** Collections: finite maps from [Hi] to trees. *)
Section CollLaws.
  Context {Hi Lo V : Type} {Tr : VebOps Lo V} (C : CollOps Hi Lo V Tr).
  Let T := vt Tr.

  (** The collection after the closure's answer [ot] for the tree [t] of [h] was stored. *)
  Definition stored (cinv : ct C -> Prop) (cents : ct C -> list (Hi * T)) (c : ct C) (h : Hi) (t : T)
    (ot : option T) (oc : option (ct C * bool)) : Prop :=
    match ot, oc with
    | Some t', Some (c', false) =>
        cinv c' /\ exists rest, Permutation (cents c) ((h, t) :: rest) /\
                                Permutation (cents c') ((h, t') :: rest)
    | None, Some (c', true) => cinv c' /\ Permutation (cents c) ((h, t) :: cents c')
    | None, None => Permutation (cents c) [(h, t)]
    | _, _ => False
    end.

  Record CollLaws : Type := mkCL {
    cinv : ct C -> Prop;
    cents : ct C -> list (Hi * T);

    C_nodup : forall c, cinv c -> NoDup (map fst (cents c));
    C_nonempty : forall c, cinv c -> cents c <> [];
    C_create : forall h t, exists c, c_create C h t = Ret c /\ cinv c /\ Permutation (cents c) [(h, t)];
    C_get : forall c h, cinv c -> exists o, c_get C c h = Ret o /\
      match o with
      | Some t => In (h, t) (cents c)
      | None => ~ In h (map fst (cents c))
      end;
    C_get_mut : forall c h, cinv c -> exists o, c_get_mut C c h = Ret o /\
      c_get C c h = Ret (omap fst o) /\
      forall t put, o = Some (t, put) ->
        exists rest, Permutation (cents c) ((h, t) :: rest) /\
        forall t', cinv (put t') /\ Permutation (cents (put t')) ((h, t') :: rest);
    C_insert_new : forall c h lv, cinv c -> ~ In h (map fst (cents c)) ->
      exists c', c_insert_key C c h lv = Ret (c', Ok h) /\ cinv c' /\
        Permutation (cents c') ((h, v_from_monad Tr (fst lv) (snd lv)) :: cents c);
    C_insert_old : forall c h lv t t' r, cinv c -> In (h, t) (cents c) ->
      v_insert Tr t (fst lv) (snd lv) = Ret (t', r) ->
      exists c' rest, c_insert_key C c h lv = Ret (c', Err (h, r)) /\ cinv c' /\
        Permutation (cents c) ((h, t) :: rest) /\ Permutation (cents c') ((h, t') :: rest);
    C_remove : forall c h f t ot p, cinv c -> In (h, t) (cents c) -> f t = Ret (ot, p) ->
      exists oc, c_remove_key C c h f = Ret (oc, p) /\ stored cinv cents c h t ot oc;
    C_maybe_absent : forall c h f, cinv c -> ~ In h (map fst (cents c)) ->
      c_maybe_remove_key C c h f = Ret (Err c);
    C_maybe_err : forall c h f t t', cinv c -> In (h, t) (cents c) -> f t = Ret (Err t') ->
      exists c' rest, c_maybe_remove_key C c h f = Ret (Err c') /\ cinv c' /\
        Permutation (cents c) ((h, t) :: rest) /\ Permutation (cents c') ((h, t') :: rest) /\
        (t' = t -> c' = c);
    C_maybe_ok : forall c h f t ot p, cinv c -> In (h, t) (cents c) -> f t = Ret (Ok (ot, p)) ->
      exists oc, c_maybe_remove_key C c h f = Ret (Ok (oc, p)) /\ stored cinv cents c h t ot oc;
    (** the panics *)
    C_insert_panic : forall c h lv t, cinv c -> In (h, t) (cents c) ->
      v_insert Tr t (fst lv) (snd lv) = Panic -> c_insert_key C c h lv = Panic;
    C_remove_panic : forall c h f t, cinv c -> In (h, t) (cents c) -> f t = Panic -> c_remove_key C c h f = Panic;
    C_maybe_panic : forall c h f t, cinv c -> In (h, t) (cents c) -> f t = Panic -> c_maybe_remove_key C c h f = Panic
  }.
  (** [remove_key] panics for a key without a tree (src/collection/mod.rs 85-86): true of all collections in a build
      with debug assertions, not of [ByteMap] without them. *)
  Definition absent_panics (L : CollLaws) : Prop :=
    forall c h f, cinv L c -> ~ In h (map fst (cents L c)) -> c_remove_key C c h f = Panic.
End CollLaws.
Arguments stored {Hi Lo V Tr C}.
Arguments cinv {Hi Lo V Tr C}.
Arguments cents {Hi Lo V Tr C}.
Arguments C_nodup {Hi Lo V Tr C}.
Arguments C_nonempty {Hi Lo V Tr C}.
Arguments C_create {Hi Lo V Tr C}.
Arguments C_get {Hi Lo V Tr C}.
Arguments C_get_mut {Hi Lo V Tr C}.
Arguments C_insert_new {Hi Lo V Tr C}.
Arguments C_insert_old {Hi Lo V Tr C}.
Arguments C_remove {Hi Lo V Tr C}.
Arguments C_maybe_absent {Hi Lo V Tr C}.
Arguments C_maybe_err {Hi Lo V Tr C}.
Arguments C_maybe_ok {Hi Lo V Tr C}.
Arguments C_insert_panic {Hi Lo V Tr C}.
Arguments absent_panics {Hi Lo V Tr C}.
Arguments C_remove_panic {Hi Lo V Tr C}.
Arguments C_maybe_panic {Hi Lo V Tr C}.
