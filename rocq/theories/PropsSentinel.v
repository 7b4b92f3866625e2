(** C68: keeping the least key in a tree avoids the defect of [Tree::insert] (C04, C43, C67) at one level of [Tree], and not below.

    Reading guide.  [bottom cmp b]: no key is below [b].  [keeps cmp b cs l]: all along the history [cs], started from the pairs [l], the sorted map
    holds the key [b].  [roomy cmp cs l]: there is room at every insertion (Sentinel.v). *)
From Verif Require Import Base Ints Ops Spec Laws Key KeyProofs Coll ByteMap BTree Boxed SizedT Tree Markers Types TypesProofs Hist Fits FitsCor Concrete
  Sentinel SentinelCor.

(** One level: insert the least key first and leave it in, and every call is answered as by a sorted map *)
Theorem C68_one_level : forall (B : Build) fixed K V cmp (O : VebOps K V) (T : VebType fixed K V cmp O) b (w : V) cs,
  shallow T = true -> bottom cmp b -> keeps cmp b cs [(b, w)] -> roomy cmp cs [(b, w)] ->
  exists ot, run O (Insert b w :: cs) None = Ret (ot, snd (sp_run cmp (Insert b w :: cs) [])).
Proof. exact (fun B fixed K V cmp O T => sentinel_ok T). Qed.
Print Assumptions C68_one_level.

(** Marker16 with 0 kept: keys in descending order, replacements and removals; without 0 the same history goes wrong *)
Definition descending16 : list (op (u 16) N) :=
  [Insert (b16 900) 2; Insert (b16 500) 3; Insert (b16 300) 4; Insert (b16 20) 5; Max; Succ (b16 300); Insert (b16 500) 6; Remove (b16 900); Max; Insert (b16 10) 7;
   RemoveMax; Pred (b16 300); Find (b16 20); Insert (b16 0) 8; Succ (b16 0); Max]%N.
Example C68_case : shallow (T16 false N) = true /\ @bottom (u 16) u_cmp (b16 0) /\ keeps u_cmp (b16 0) descending16 [(b16 0, 1%N)] /\
  roomy u_cmp descending16 [(b16 0, 1%N)] /\
  map show (answers (run (M16 false N) (Insert (b16 0) 1%N :: descending16) None)) = map show (snd (sp_run u_cmp (Insert (b16 0) 1%N :: descending16) [])) /\
  map show (answers (run (M16 false N) descending16 None)) <> map show (snd (sp_run u_cmp descending16 [])).
Proof.
  split; [reflexivity|]. split; [intros k H; unfold u_cmp in H; apply N.compare_lt_iff in H; exact (N.nlt_0_r _ H)|].
  split; [apply (keeps_b_ok u_cmp (u_cmp_laws 16)); vm_compute; reflexivity|]. split; [apply roomy_b_ok; vm_compute; reflexivity|].
  split; [vm_compute; reflexivity|]. vm_compute. discriminate.
Qed.

(** Two levels: the children go wrong all the same.  0 first, then keys with the same high half, the smallest last *)
Definition below32 : list (op (u 32) N) :=
  [Insert (b32 900000) 2; Insert (b32 65566) 3; Insert (b32 65556) 4; Insert (b32 65546) 5; Succ (b32 65546); Succ (b32 65556)]%N.
Lemma zero_bottom32 : @bottom (u 32) u_cmp (b32 0).
Proof. intros k H. unfold u_cmp in H. apply N.compare_lt_iff in H. exact (N.nlt_0_r _ H). Qed.
Theorem C68_two_levels_refuted : exists b (w : N) cs, @bottom (u 32) u_cmp b /\ keeps u_cmp b cs [(b, w)] /\ roomy u_cmp cs [(b, w)] /\
  ~ exists ot, run (H32 false N) (Insert b w :: cs) None = Ret (ot, snd (sp_run u_cmp (Insert b w :: cs) [])).
Proof.
  exists (b32 0), 1%N, below32. split; [exact zero_bottom32|]. split; [apply (keeps_b_ok u_cmp (u_cmp_laws 32)); vm_compute; reflexivity|].
  split; [apply roomy_b_ok; vm_compute; reflexivity|]. intros [ot H]. apply (f_equal (fun r => map show (answers r))) in H. cbn [answers] in H.
  vm_compute in H. discriminate H.
Qed.
Print Assumptions C68_two_levels_refuted.
