(** The tree types of src/markers.rs as members of [VebType], and concrete histories for the examples. *)
From Verif Require Import Base Ints Ops Spec Key ByteSet ByteMap Coll Boxed BTree SizedT Tree Markers Laws CollProofs
  KeyProofs Hist Types.

(** Where nothing else is said, the examples are of the debug build for 64-bit pointers. *)
Global Existing Instance debug_build.
Lemma wide_le {B : Build} n m : Wide m -> (n <= m)%N -> Wide n.
Proof. unfold Wide. lia. Qed.
Lemma wide_ptr {B : Build} n : (n < 2 ^ usize_bits)%N -> Wide n.
Proof. unfold Wide, usize_max. lia. Qed.
#[global] Instance debug_wide16 : Wide (B := debug_build) (2 ^ 16). Proof. apply wide_ptr. reflexivity. Qed.
#[global] Instance debug_wide32 : Wide (B := debug_build) (2 ^ 32). Proof. apply wide_ptr. reflexivity. Qed.
#[global] Instance release_wide16 : Wide (B := release_build) (2 ^ 16). Proof. apply wide_ptr. reflexivity. Qed.
#[global] Instance release_wide32 : Wide (B := release_build) (2 ^ 32). Proof. apply wide_ptr. reflexivity. Qed.

Section MarkerTypes.
  Context {B : Build} (fixed : bool).
  (** markers.rs 19-20 *)
  Definition T8E : VebType fixed (u 8) unit u_cmp M8E := VT_ByteSet fixed.
  Definition T8 (V : Type) : VebType fixed (u 8) V u_cmp (M8 V) := VT_ByteMap fixed V.
  (** markers.rs 22-39 *)
  Definition T16E : VebType fixed (u 16) unit u_cmp (M16E fixed) :=
    VT_Tree fixed _ _ _ _ u16_key u16_laws _ _ _ T8E T8E (CT_Array _ _ u8_idx u8_idx_laws).
  Definition T16 (V : Type) : VebType fixed (u 16) V u_cmp (M16 fixed V) :=
    VT_Tree fixed _ _ _ _ u16_key u16_laws _ _ _ T8E (T8 V) (CT_Array _ _ u8_idx u8_idx_laws).
  (** markers.rs 41-58: an array of 2^16 slots, so pointers of more than 16 bits *)
  Context {W16 : Wide (2 ^ 16)}.
  Definition T32E : VebType fixed (u 32) unit u_cmp (M32E fixed) :=
    VT_Tree fixed _ _ _ _ u32_key u32_laws _ _ _ T16E T16E (CT_Array _ _ u16_idx u16_idx_laws).
  Definition T32 (V : Type) : VebType fixed (u 32) V u_cmp (M32 fixed V) :=
    VT_Tree fixed _ _ _ _ u32_key u32_laws _ _ _ T16E (T16 V) (CT_Array _ _ u16_idx u16_idx_laws).
  (** markers.rs 60-77: an array of 2^32 slots, so pointers of more than 32 bits *)
  Context {W32 : Wide (2 ^ 32)}.
  Definition T64E : VebType fixed (u 64) unit u_cmp (M64E fixed) :=
    VT_Tree fixed _ _ _ _ u64_key u64_laws _ _ _ T32E T32E (CT_Array _ _ u32_idx u32_idx_laws).
  Definition T64 (V : Type) : VebType fixed (u 64) V u_cmp (M64 fixed V) :=
    VT_Tree fixed _ _ _ _ u64_key u64_laws _ _ _ T32E (T32 V) (CT_Array _ _ u32_idx u32_idx_laws).
End MarkerTypes.

(** Two levels of [Tree] over hash maps, small enough to run: keys of 32 bits, as Marker32 but with
    HashMapMarker (src/collection/hash.rs 13-31) for its collection. *)
Definition u_eqb {w} (a b : u w) : bool := (uval a =? uval b)%N.
Lemma u_eqb_eq {w} (a b : u w) : u_eqb a b = true <-> a = b.
Proof.
  unfold u_eqb. rewrite N.eqb_eq. split; [apply u_eq|intros ->; reflexivity].
Qed.
Definition H32 {B : Build} (fixed : bool) (V : Type) : VebOps (u 32) V :=
  Tree_ops fixed u32_key (M16E fixed) (M16 fixed V) (Hash_coll u_eqb (M16 fixed V)).
Definition TH32 {B : Build} (fixed : bool) (V : Type) : VebType fixed (u 32) V u_cmp (H32 fixed V) :=
  VT_Tree fixed _ _ _ _ u32_key u32_laws _ _ _ (T16E fixed) (T16 fixed V) (CT_Hash _ _ u_eqb u_eqb_eq).

(** Readable outcomes *)
Definition show {w} (o : out (u w) N) : option (N * N) + bool :=
  match o with
  | OP (Some (k, v)) => inl (Some (uval k, v))
  | OP None => inl None
  | OB b => inr b
  end.
(** the answers of a run *)
Definition answers {K V T} (r : res (option T * list (out K V))) : list (out K V) :=
  match r with Ret (_, os) => os | Panic => [] end.
Definition final {K V T} (r : res (option T * list (out K V))) : option T :=
  match r with Ret (ot, _) => ot | Panic => None end.

Definition b8 (n : N) : u 8 := wrap 8 n.
Definition b16 (n : N) : u 16 := wrap 16 n.
Definition b32 (n : N) : u 32 := wrap 32 n.

(** Deciding the side conditions on concrete histories *)
Section Decide.
  Context {B : Build} {K V : Type} (cmp : K -> K -> comparison).
  Definition ascending_b (l : list (K * V)) (k : K) : bool :=
    existsb (fun k' => eqb cmp k' k) (keys l) || forallb (fun k' => ltb cmp k' k) (keys l).
  Definition above_min_b (l : list (K * V)) (k : K) : bool :=
    match l with
    | p :: _ :: _ => negb (ltb cmp k (fst p))
    | _ => true
    end.
  Fixpoint admissible_b (admb : list (K * V) -> K -> bool) (cs : list (op K V)) (l : list (K * V)) : bool :=
    match cs with
    | [] => true
    | c :: cs' =>
        match c with
        | Insert k _ => admb l k && (N.of_nat (length l) <? usize_max)%N
        | _ => true
        end && admissible_b admb cs' (fst (sp_step cmp c l))
    end.
  Fixpoint fitting_b (cs : list (op K V)) (os : list (out K V)) (n : nat) : bool :=
    match cs, os with
    | c :: cs', o :: os' =>
        match c with Insert _ _ => (N.of_nat n <? usize_max)%N | _ => true end &&
        fitting_b cs' os' (n + length (pairs_in c o) - length (pairs_out c o))
    | _, _ => true
    end.

  Lemma ascending_b_ok (OL : OrdLaws cmp) l k : ascending_b l k = true -> adm_ascending cmp l k.
  Proof.
    intros H. apply orb_prop in H. destruct H as [H|H].
    - left. apply existsb_exists in H. destruct H as [k' [H1 H2]]. unfold eqb in H2.
      destruct (cmp k' k) eqn:E; try discriminate. apply (cmp_eq OL) in E. subst. auto.
    - right. intros k' Hk. rewrite forallb_forall in H. specialize (H k' Hk). unfold ltb in H.
      destruct (cmp k' k); congruence.
  Qed.
  Lemma above_min_b_ok l k : above_min_b l k = true -> adm_above_min cmp l k.
  Proof.
    destruct l as [|p [|q l]]; cbn; auto. unfold ltb. destruct (cmp k (fst p)); cbn; congruence.
  Qed.
  Lemma admissible_b_ok admb (adm : list (K * V) -> K -> Prop) : (forall l k, admb l k = true -> adm l k) ->
    forall cs l, admissible_b admb cs l = true -> admissible cmp adm cs l.
  Proof.
    intros Ha. induction cs as [|c cs IH]; intros l H; [exact I|]. cbn [admissible_b] in H. apply andb_prop in H.
    destruct H as [H1 H2]. split; [|auto]. destruct c; auto. apply andb_prop in H1. destruct H1 as [H1 H3].
    split; auto. apply N.ltb_lt. auto.
  Qed.
  Lemma fitting_b_ok cs : forall os n, fitting_b cs os n = true -> fitting cs os n.
  Proof.
    induction cs as [|c cs IH]; intros [|o os] n H; try exact I. cbn [fitting_b] in H. apply andb_prop in H.
    destruct H as [H1 H2]. split; [|auto]. destruct c; auto. apply N.ltb_lt. auto.
  Qed.

  Lemma run_final {O : VebOps K V} cs t : final (run O cs None) = Some t -> run O cs None = Ret (Some t, answers (run O cs None)).
  Proof. destruct (run O cs None) as [[ot os]|]; cbn; congruence. Qed.
  Lemma reachable_ex {O : VebOps K V} cs t : final (run O cs None) = Some t ->
    fitting_b cs (answers (run O cs None)) 0 = true -> reachable O t.
  Proof. intros H1 H2. exists cs, (answers (run O cs None)). split; [apply run_final; auto|apply fitting_b_ok; auto]. Qed.
  Lemma reached_asc_ex (OL : OrdLaws cmp) {O : VebOps K V} cs t l : final (run O cs None) = Some t ->
    fst (sp_run cmp cs []) = l -> admissible_b ascending_b cs [] = true -> reached cmp O (adm_ascending cmp) t l.
  Proof.
    intros H1 H2 H3. exists cs, (answers (run O cs None)). split; [|split; [apply run_final|]; auto].
    apply (admissible_b_ok ascending_b); auto. intros. apply (ascending_b_ok OL); auto.
  Qed.
  Lemma reached_min_ex {O : VebOps K V} cs t l : final (run O cs None) = Some t ->
    fst (sp_run cmp cs []) = l -> admissible_b above_min_b cs [] = true -> reached cmp O (adm_above_min cmp) t l.
  Proof.
    intros H1 H2 H3. exists cs, (answers (run O cs None)). split; [|split; [apply run_final|]; auto].
    apply (admissible_b_ok above_min_b); auto. intros. apply above_min_b_ok; auto.
  Qed.
  Lemma reached_any_ex {O : VebOps K V} cs t l : final (run O cs None) = Some t ->
    fst (sp_run cmp cs []) = l -> admissible_b (fun _ _ => true) cs [] = true -> reached cmp O adm_any t l.
  Proof.
    intros H1 H2 H3. exists cs, (answers (run O cs None)). split; [|split; [apply run_final|]; auto].
    apply (admissible_b_ok (fun _ _ => true)); auto. intros. exact I.
  Qed.
End Decide.

(** A history with descending insertions, deletions, writes and queries; it makes [Tree::insert] go wrong. *)
Definition wild : list (op (u 32) N) :=
  [Insert (b32 200000) 1%N; Insert (b32 70001) 2%N; Insert (b32 70000) 3%N; Insert (b32 5) 4%N; Insert (b32 70002) 5%N;
   Insert (b32 200001) 6%N; Remove (b32 70001); Remove (b32 9); MaxMut 7%N; FindMut (b32 70000) 8%N; RemoveMin; Insert (b32 3) 9%N;
   Pred (b32 200000); Succ (b32 3); RemoveMax; Insert (b32 70002) 10%N; IsMonad; IntoMonad].
(** A history with ascending insertions *)
Definition tame : list (op (u 32) N) :=
  [Insert (b32 5) 1%N; Insert (b32 70000) 2%N; Insert (b32 70001) 3%N; Insert (b32 70002) 4%N; Insert (b32 70003) 5%N;
   Insert (b32 200000) 6%N; Insert (b32 200001) 7%N; Remove (b32 70002); RemoveMin; MaxMut 8%N; Insert (b32 70001) 9%N;
   PredMut (b32 70001) 10%N; Insert (b32 300000) 11%N; RemoveMax].
(** the tree a history leaves behind ([t0] if none) *)
Definition tree_of {K V} (O : VebOps K V) (cs : list (op K V)) (t0 : vt O) : vt O :=
  match final (run O cs None) with Some t => t | None => t0 end.
Definition has_tree {K V} (O : VebOps K V) (cs : list (op K V)) : bool :=
  match final (run O cs None) with Some _ => true | None => false end.
Lemma tree_of_ok {K V} (O : VebOps K V) cs t0 : has_tree O cs = true -> final (run O cs None) = Some (tree_of O cs t0).
Proof. unfold has_tree, tree_of. destruct (final (run O cs None)); congruence. Qed.
(** lists of pairs with integer keys are equal when they look equal *)
Definition look {w V} (l : list (u w * V)) : list (N * V) := map (fun p => (uval (fst p), snd p)) l.
Lemma look_inj {w V} (l l' : list (u w * V)) : look l = look l' -> l = l'.
Proof.
  revert l'. induction l as [|[k v] l IH]; intros [|[k' v'] l']; cbn; try discriminate; auto.
  intros H. injection H as H1 H2 H3. f_equal; auto. f_equal; auto. apply u_eq. auto.
Qed.

Definition wild_tree : vt (H32 false N) := tree_of (H32 false N) wild (v_from_monad (H32 false N) (b32 0) 0%N).
Definition tame_tree : vt (H32 false N) := tree_of (H32 false N) tame (v_from_monad (H32 false N) (b32 0) 0%N).
Definition tame_list : list (u 32 * N) :=
  [(b32 70000, 10%N); (b32 70001, 9%N); (b32 70003, 5%N); (b32 200000, 6%N); (b32 200001, 8%N)].
Lemma wild_run : run (H32 false N) wild None = Ret (Some wild_tree, answers (run (H32 false N) wild None)).
Proof. apply run_final. apply tree_of_ok. vm_compute. reflexivity. Qed.
Lemma wild_fits : fitting wild (answers (run (H32 false N) wild None)) 0.
Proof. apply fitting_b_ok. vm_compute. reflexivity. Qed.
Lemma wild_reachable : reachable (H32 false N) wild_tree.
Proof. exists wild. eexists. split; [apply wild_run|apply wild_fits]. Qed.
Lemma tame_admissible : admissible u_cmp (adm_ascending u_cmp) tame [].
Proof.
  apply (admissible_b_ok u_cmp (ascending_b u_cmp)); [|vm_compute; reflexivity].
  intros. apply (ascending_b_ok u_cmp (u_cmp_laws _)). auto.
Qed.
Lemma tame_reached : reached u_cmp (H32 false N) (adm_ascending u_cmp) tame_tree tame_list.
Proof.
  apply (reached_asc_ex u_cmp (u_cmp_laws _) tame).
  - apply tree_of_ok. vm_compute. reflexivity.
  - apply look_inj. vm_compute. reflexivity.
  - vm_compute. reflexivity.
Qed.
