(** C69: what a user can do about the defect of [Tree::insert] (C04, C43, C65) through the public interface.

    Reading guide.  [careful cmp O]: the trees of [O] behind a wrapper whose [insert], asked for a key below the minimum of two pairs or more, inserts it,
    takes the maximum out and inserts what came out.  [MendType]: types built from the library's parts in which every [Tree] is so wrapped (Repair.v).
    [TreeContract cmp O]: every call on a tree of [O] answers as a sorted map does and leaves what it leaves (Open.v).  [roomy cmp cs l]: there is room at
    every insertion (Sentinel.v).  [adm_fits T]: the insertion does not meet the defect at any level (Fits.v). *)
From Verif Require Import Base Ints Ops Spec Laws Key KeyProofs Coll CollProofs ByteMap BTree Boxed SizedT Tree Markers Types TypesProofs Hist Fits FitsCor CollSpec Open Concrete
  Sentinel SentinelCor Repair RepairCor.

(** A [Tree] as it is, over parts that keep their contracts, keeps the contract once wrapped *)
Theorem C69_tree : forall (B : Build) K Hi Lo V (ko : KeyOps K Hi Lo) (S : VebOps Hi unit) (Tr : VebOps Lo V) (C : CollOps Hi Lo V Tr) deq,
  KeyLaws ko -> TreeContract (hi_cmp ko) S -> TreeContract (lo_cmp ko) Tr -> (forall a b, deq a b = true <-> a = b) -> CollContract deq C ->
  inhabited (TreeContract (k_cmp ko) (careful (k_cmp ko) (Tree_ops false ko S Tr C))).
Proof. exact (fun B K Hi Lo V => careful_tree). Qed.
Print Assumptions C69_tree.

(** Wrapped at every level, a tree of any depth is a sorted map on every history *)
Theorem C69_any_depth : forall (B : Build) K V cmp (O : VebOps K V) (T : MendType K V cmp O) cs,
  roomy cmp cs [] -> exists ot, run O cs None = Ret (ot, snd (sp_run cmp cs [])).
Proof. exact (fun B K V cmp O T => mend_run T). Qed.
Print Assumptions C69_any_depth.

(** The wrapper does no harm around a tree that answers as it should, such as one with the defect corrected *)
Theorem C69_harmless : forall (B : Build) K V cmp (O : VebOps K V),
  OrdLaws cmp -> TreeContract cmp O -> inhabited (TreeContract cmp (careful cmp O)).
Proof. exact (fun B K V cmp => careful_harmless). Qed.
Print Assumptions C69_harmless.

(** Why it works: at the top of a tree of any depth, the insertion that meets the defect followed by [remove_max] hands out the old minimum and leaves
    the tree as if the new pair had taken its place *)
Theorem C69_exchange : forall (B : Build) K Hi Lo V (ko : KeyOps K Hi Lo) (KL : KeyLaws ko) (S : VebOps Hi unit) (Tr : VebOps Lo V) (C : CollOps Hi Lo V Tr)
  (TS : VebType false Hi unit (hi_cmp ko) S) (TT : VebType false Lo V (lo_cmp ko) Tr) (CT : CollType Tr Hi C)
  (T := VT_Tree false K Hi Lo V ko KL S Tr C TS TT CT) (O := Tree_ops false ko S Tr C) cs1 p q r k v cs2,
  admissible (k_cmp ko) (adm_fits T) cs1 [] -> fst (sp_run (k_cmp ko) cs1 []) = p :: q :: r -> k_cmp ko k (fst p) = Lt ->
  (N.of_nat (length (p :: q :: r)) < usize_max)%N -> admissible (k_cmp ko) (adm_fits T) cs2 ((k, v) :: q :: r) ->
  exists ot, run O (cs1 ++ [Insert k v; RemoveMax] ++ cs2) None =
    Ret (ot, snd (sp_run (k_cmp ko) cs1 []) ++ [OP None; OP (Some p)] ++ snd (sp_run (k_cmp ko) cs2 ((k, v) :: q :: r))).
Proof. exact (fun B K Hi Lo V => exchange). Qed.
Print Assumptions C69_exchange.

(** Marker16 wrapped, and two wrapped levels of 32 bits over a hash map *)
Definition careful16E {B : Build} : VebOps (u 16) unit := careful u_cmp (M16E false).
Definition careful16 {B : Build} : VebOps (u 16) N := careful u_cmp (M16 false N).
Definition careful32 {B : Build} : VebOps (u 32) N := careful u_cmp (Tree_ops false u32_key careful16E careful16 (Hash_coll u_eqb careful16)).
Definition careful16E_type {B : Build} : MendType (u 16) unit u_cmp careful16E :=
  MT_Tree _ _ _ _ u16_key u16_laws _ _ _ (MT_plain _ _ _ _ (T8E false) eq_refl) (MT_plain _ _ _ _ (T8E false) eq_refl) (CT_Array _ _ u8_idx u8_idx_laws).
Definition careful16_type {B : Build} : MendType (u 16) N u_cmp careful16 :=
  MT_Tree _ _ _ _ u16_key u16_laws _ _ _ (MT_plain _ _ _ _ (T8E false) eq_refl) (MT_plain _ _ _ _ (T8 false N) eq_refl) (CT_Array _ _ u8_idx u8_idx_laws).
Definition careful32_type {B : Build} : MendType (u 32) N u_cmp careful32 :=
  MT_Tree _ _ _ _ u32_key u32_laws _ _ _ careful16E_type careful16_type (CT_Hash _ _ u_eqb u_eqb_eq).

(** keys in descending order, at both levels, with replacements and removals *)
Definition down16 : list (op (u 16) N) :=
  [Insert (b16 900) 2; Insert (b16 500) 3; Insert (b16 300) 4; Insert (b16 20) 5; Max; Succ (b16 300); Insert (b16 500) 6; Remove (b16 900); Max; Insert (b16 10) 7;
   RemoveMax; Pred (b16 300); Find (b16 20); Insert (b16 0) 8; Succ (b16 0); Max]%N.
Definition down32 : list (op (u 32) N) :=
  [Insert (b32 900000) 2; Insert (b32 65566) 3; Insert (b32 65556) 4; Insert (b32 65546) 5; Succ (b32 65546); Succ (b32 65556); Insert (b32 7) 6;
   Insert (b32 3) 7; Succ (b32 3); Max; RemoveMax; Max; RemoveMin; Min]%N.
Example C69_any_depth_case : roomy u_cmp down16 [] /\ roomy u_cmp down32 [] /\
  map show (answers (run careful16 down16 None)) = map show (snd (sp_run u_cmp down16 [])) /\
  map show (answers (run (M16 false N) down16 None)) <> map show (snd (sp_run u_cmp down16 [])) /\
  map show (answers (run careful32 down32 None)) = map show (snd (sp_run u_cmp down32 [])) /\
  map show (answers (run (H32 false N) down32 None)) <> map show (snd (sp_run u_cmp down32 [])).
Proof.
  split; [apply roomy_b_ok; vm_compute; reflexivity|]. split; [apply roomy_b_ok; vm_compute; reflexivity|].
  split; [vm_compute; reflexivity|]. split; [vm_compute; discriminate|]. split; [vm_compute; reflexivity|]. vm_compute. discriminate.
Qed.

(** a history that fits, then the exchange, then more that fits *)
Definition up32 : list (op (u 32) N) := [Insert (b32 65556) 1; Insert (b32 131092) 2; Insert (b32 900000) 4]%N.
Definition then32 : list (op (u 32) N) := [Max; Succ (b32 20); Find (b32 65556); Insert (b32 65556) 1; Succ (b32 20); Pred (b32 131092); RemoveMax; RemoveMax]%N.
Example C69_exchange_case :
  admissible u_cmp (adm_fits (TH32 false N)) up32 [] /\
  map (fun p => (uval (fst p), snd p)) (fst (sp_run u_cmp up32 [])) = [(65556, 1); (131092, 2); (900000, 4)]%N /\
  admissible u_cmp (adm_fits (TH32 false N)) then32 ((b32 20, 5%N) :: tl (fst (sp_run u_cmp up32 []))) /\
  map show (answers (run (H32 false N) (up32 ++ [Insert (b32 20) 5%N; RemoveMax] ++ then32) None)) =
  map inl [None; None; None; None; Some (65556, 1); Some (900000, 4); Some (131092, 2); None; None; Some (65556, 1); Some (65556, 1);
    Some (900000, 4); Some (131092, 2)]%N.
Proof.
  split; [repeat split; vm_compute; reflexivity|]. split; [vm_compute; reflexivity|]. split; [repeat split; vm_compute; reflexivity|]. vm_compute. reflexivity.
Qed.

(** the parts of Marker16 keep their contracts, and so does the wrapped tree; so does the wrapped sorted vector of Open.v *)
Example C69_tree_case : inhabited (TreeContract u_cmp careful16) /\ inhabited (TreeContract u_cmp (careful u_cmp (@SortedVec_ops (u 16) N u_cmp))).
Proof.
  split; [exact (mend_contract careful16_type)|]. apply C69_harmless; [exact (u_cmp_laws 16)|]. exact (OpenCor.SortedVec_contract u_cmp (u_cmp_laws 16)).
Qed.

(** Wrapping only the outermost tree is not enough *)
Theorem C69_outermost_refuted : exists cs : list (op (u 32) N), roomy u_cmp cs [] /\
  ~ exists ot, run (careful u_cmp (H32 false N)) cs None = Ret (ot, snd (sp_run u_cmp cs [])).
Proof.
  exists down32. split; [apply roomy_b_ok; vm_compute; reflexivity|]. intros [ot H]. apply (f_equal (fun r => map show (answers r))) in H. cbn [answers] in H.
  vm_compute in H. discriminate H.
Qed.
Print Assumptions C69_outermost_refuted.
