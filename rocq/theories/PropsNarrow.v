(** C63: an array of children needs pointers wider than the high halves of the keys.

    Reading guide.  [usize_bits]: how wide a pointer of the build is (Base.v).  [i_card ix]: the type-level [Cardinality] of the key type of
    the array (Key.v); its slots are as many as [usize] keeps of it ([card_usize], Coll.v).  [run], [sp_run] as in PropsMap.v: the calls
    [cs] answered by the tree, and by a sorted list.  [M32], [M64]: Marker32 and Marker64 (Markers.v). *)
From Verif Require Import Base Ints Ops Spec Key KeySpec Coll Tree Markers Laws KeyProofs Hist Concrete NarrowCor.

(** Where the cardinality is a multiple of 2^usize_bits the array has no slots.  Then the tree panics exactly on the histories in which more
    than two keys are stored at a time, and up to there it answers as a sorted map, below the minimum too *)
Theorem C63_two_pairs : forall (B : Build) fixed K Hi Lo V (ko : KeyOps K Hi Lo), OrdLaws (k_cmp ko) ->
  forall (ix : IdxOps Hi) S (Tr : VebOps Lo V), (i_card ix mod 2 ^ usize_bits = 0)%N ->
  let O := Tree_ops fixed ko S Tr (Array_coll ix Tr) in forall cs,
  (forall ot os, run O cs None = Ret (ot, os) -> os = snd (sp_run (k_cmp ko) cs []) /\ (ot = None <-> fst (sp_run (k_cmp ko) cs []) = [])) /\
  (run O cs None = Panic <-> exists cs1 cs2, cs = cs1 ++ cs2 /\ 2 < length (fst (sp_run (k_cmp ko) cs1 []))).
Proof. exact (fun B fixed K Hi Lo V ko OL ix S Tr => narrow_all fixed ko OL ix S Tr). Qed.
Print Assumptions C63_two_pairs.
(** so it is with Marker32 where pointers have 16 bits, and with Marker64 where they have 32 *)
Theorem C63_markers : forall (B : Build) fixed V,
  (usize_bits = 16%N -> forall cs, run (M32 fixed V) cs None = Panic <-> exists cs1 cs2, cs = cs1 ++ cs2 /\ 2 < length (fst (sp_run u_cmp cs1 []))) /\
  (usize_bits = 32%N -> forall cs, run (M64 fixed V) cs None = Panic <-> exists cs1 cs2, cs = cs1 ++ cs2 /\ 2 < length (fst (sp_run u_cmp cs1 []))).
Proof. exact @narrow_markers. Qed.
Print Assumptions C63_markers.
(** Marker32 on a 16-bit target and u128 keys over arrays on a 64-bit one: two pairs in either order and one taken out again, then a third *)
Definition N16 : Build := {| dbg := true; ptr := P16 |}.
Definition U128 : VebOps (u 128) N := Tree_ops false u128_key (M64E false) (M64 false N) (Array_coll u64_idx (M64 false N)).
Definition b128 (n : N) : u 128 := wrap 128 n.
Example C63_case : (i_card u16_idx mod 2 ^ usize_bits (B := N16) = 0)%N /\ (i_card u64_idx mod 2 ^ usize_bits = 0)%N /\
  (let cs := [Insert (b32 70000) 1; Insert (b32 3) 2; Succ (b32 3); Remove (b32 70000); Insert (b32 4) 3; Max]%N in
   map show (answers (run (M32 (B := N16) false N) cs None)) = map show (snd (sp_run u_cmp cs [])) /\
   match run (M32 (B := N16) false N) (cs ++ [Insert (b32 5) 4%N]) None with Panic => true | Ret _ => false end = true) /\
  (let cs := [Insert (b128 (2 ^ 100)) 1; Insert (b128 3) 2; Succ (b128 3); Remove (b128 (2 ^ 100)); Insert (b128 (2 ^ 90)) 3; Max]%N in
   map show (answers (run U128 cs None)) = map show (snd (sp_run u_cmp cs [])) /\ length (answers (run U128 cs None)) = 6 /\
   match run U128 (cs ++ [Insert (b128 5) 4%N]) None with Panic => true | Ret _ => false end = true).
Proof. split; [reflexivity|]. split; [reflexivity|]. split; split; try split; vm_compute; reflexivity. Qed.
