(** C36, C41, C42: cloning, the choice of representation, and which types are sorted maps on every history.
    For the notation see the head of PropsMap.v. *)
From Verif Require Import Base Ints Ops Spec Key ByteSet ByteMap Coll Boxed BTree SizedT Tree Markers Laws Lists CollProofs
  KeyProofs Hist Types HistProofs TypesProofs HistCor Concrete Core CoreCor Clone CloneCor ExactCor.

(** ** C36 Cloning gives an equal tree.
    [clone_of T cv] is the clone function of the type (if it has one) when values are cloned by [cv]. *)
Theorem C36_same : forall (B : Build) fixed K V cmp (O : VebOps K V) (T : VebType fixed K V cmp O) cv f,
  (forall v, cv v = v) -> clone_of T cv = Some f -> forall t, f t = t.
Proof. exact @clone_same. Qed.
Print Assumptions C36_same.
(** whatever [cv] is, the clone holds the same keys with cloned values, and answers every later history accordingly *)
Theorem C36_contents : forall (B : Build) fixed K V cmp (O : VebOps K V) (T : VebType fixed K V cmp O) cv f t d,
  clone_of T cv = Some f -> reachable O t -> contents O t d -> contents O (f t) (map (on_value cv) d).
Proof. exact @clone_contents. Qed.
Print Assumptions C36_contents.
Theorem C36_answers : forall (B : Build) fixed K V cmp (O : VebOps K V) (T : VebType fixed K V cmp O) cv f t cs ot os,
  clone_of T cv = Some f -> reachable O t -> run O cs (Some t) = Ret (ot, os) ->
  exists ot', run O (map (clone_op cv) cs) (Some (f t)) = Ret (ot', map (clone_out cv) os) /\ (ot = None <-> ot' = None).
Proof. exact @clone_run. Qed.
Print Assumptions C36_answers.

(** a tree that can be cloned: byte set as summary, BTreeMaps in a HashMap as children *)
Definition C16 : VebOps (u 16) N := Tree_ops false u16_key ByteSet_ops (BTree_ops N u_cmp) (Hash_coll u_eqb (BTree_ops N u_cmp)).
Definition TC16 : VebType false (u 16) N u_cmp C16 :=
  VT_Tree false _ _ _ _ u16_key u16_laws _ _ _ (VT_ByteSet false) (VT_BTree false _ N u_cmp (u_cmp_laws 8)) (CT_Hash _ _ u_eqb u_eqb_eq).
Definition some16 : list (op (u 16) N) :=
  [Insert (b16 700) 1%N; Insert (b16 90) 2%N; Insert (b16 5) 3%N; Insert (b16 900) 4%N; Insert (b16 701) 5%N; Remove (b16 5)].
Definition tree16 : vt C16 := tree_of C16 some16 (v_from_monad C16 (b16 0) 0%N).
Definition doubled16 : vt C16 := match clone_of TC16 (N.mul 2) with Some f => f tree16 | None => tree16 end.
Example C36_case : reachable C16 tree16 /\ clone_of TC16 (N.mul 2) <> None /\
  match drain (v_remove_min C16) 10 (Some tree16) with Ret (None, d) => look d | _ => [] end = [(90, 2); (700, 1); (701, 5); (900, 4)]%N /\
  match drain (v_remove_min C16) 10 (Some doubled16) with Ret (None, d) => look d | _ => [] end = [(90, 4); (700, 2); (701, 10); (900, 8)]%N.
Proof.
  split; [eapply reachable_ex; [apply tree_of_ok; vm_compute; reflexivity|vm_compute; reflexivity]|].
  split; [cbn; discriminate|]. split; vm_compute; reflexivity.
Qed.

(** ** C41 Representation independence.  Every answer is that of the core of the type, in which leaves are BTreeMaps, collections
    are HashMaps, and there are no boxes or size counters ... *)
Theorem C41_core : forall B : Build, dbg (Build := B) = true -> forall fixed K V cmp (O : VebOps K V) (T : VebType fixed K V cmp O) cs ot os,
  run O cs None = Ret (ot, os) -> exists ot', run (core T) cs None = Ret (ot', os) /\ (ot = None <-> ot' = None).
Proof. exact @core_run. Qed.
Print Assumptions C41_core.
(** ... so two types with the same core cannot be told apart, on histories that run into the defect of [Tree::insert] too *)
Theorem C41_same : forall B : Build, dbg (Build := B) = true -> forall fixed K V cmp cmp' (O O' : VebOps K V) (T : VebType fixed K V cmp O) (T' : VebType fixed K V cmp' O') cs,
  core T = core T' -> (N.of_nat (length cs) <= usize_max)%N ->
  exists ot ot' os, run O cs None = Ret (ot, os) /\ run O' cs None = Ret (ot', os) /\ (ot = None <-> ot' = None).
Proof. exact @same_core. Qed.
Print Assumptions C41_same.
(** Marker32 with its array of 65536 children answers the history [wild] as the two-level HashMap tree does *)
Example C41_case : core (T32 false N) = core (TH32 false N) /\ (N.of_nat (length wild) <= usize_max)%N /\
  map show (answers (run (M32 false N) wild None)) = map show (answers (run (H32 false N) wild None)).
Proof.
  assert (E : core (T32 false N) = core (TH32 false N)) by reflexivity. assert (H : (N.of_nat (length wild) <= usize_max)%N) by (intros E'; vm_compute in E'; discriminate E').
  split; [exact E|]. split; [exact H|]. destruct (C41_same debug_build eq_refl _ _ _ _ _ _ _ (T32 false N) (TH32 false N) wild E H) as [ot [ot' [os [-> [-> _]]]]]. reflexivity.
Qed.

(** ** C42 A type answers every history as a sorted map exactly when it is not a [Tree] (boxed or counted or not), or there are no three keys *)
Theorem C42_exactly : forall (B : Build) K V cmp (O : VebOps K V) (T : VebType false K V cmp O) (v : V),
  (forall cs, admissible cmp adm_any cs [] -> exists ot, run O cs None = Ret (ot, snd (sp_run cmp cs []))) <->
  plain T = true \/ ~ (exists a b c, cmp a b = Lt /\ cmp b c = Lt).
Proof. exact @sorted_map_exactly. Qed.
Print Assumptions C42_exactly.
(** so Marker64, of 2^64 keys, is not a sorted map *)
Example C42_case : ~ (forall cs, admissible u_cmp adm_any cs [] -> exists ot, run (M64 false N) cs None = Ret (ot, snd (sp_run u_cmp cs []))).
Proof.
  intros H. apply (C42_exactly _ _ _ _ _ (T64 false N) 0%N) in H. destruct H as [H|H]; [discriminate H|].
  apply H. exists (wrap 64 1), (wrap 64 2), (wrap 64 3). split; vm_compute; reflexivity.
Qed.
