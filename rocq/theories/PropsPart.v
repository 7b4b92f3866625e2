(** C64: arrays of children with a slot for some of the high halves only: exactly which calls panic.

    Reading guide.  [i_index ix h], [i_card ix]: the index of the half [h] and the cardinality its type claims (Key.v); an array has as many
    slots as [usize] keeps of the latter (C63).  [needs_slot cmp far l c]: on the pairs [l] the call [c] uses the slot of a key that is [far]
    (Part.v).  [run], [sp_run]: the calls [cs] answered by the tree, and by a sorted list.  [admissible cmp adm cs []]: the insertions obey [adm];
    [fits_tree] is the condition of C43 for a [Tree] (with [fixed] it always holds). *)
From Verif Require Import Base Ints Ops Spec Laws Key KeySpec KeyProofs Coll ByteMap BTree Tree Markers Types TypesProofs Hist Fits FitsCor Concrete Part PartCor.

(** If no two halves share a slot, the tree panics exactly when a call uses the slot of a half that has none, and up to there it answers as a
    sorted map *)
Theorem C64_exactly : forall (B : Build) fixed K Hi Lo V (ko : KeyOps K Hi Lo), KeyLaws ko -> forall (S : VebOps Hi unit) (Tr : VebOps Lo V)
  (TS : VebType fixed Hi unit (hi_cmp ko) S) (TT : VebType fixed Lo V (lo_cmp ko) Tr) (ix : IdxOps Hi),
  let slots := (i_card ix mod 2 ^ usize_bits)%N in
  (forall a b, (i_index ix a < slots)%N -> i_index ix a = i_index ix b -> a = b) ->
  forall adm : list (K * V) -> K -> Prop, (forall l k, ascending (k_cmp ko) l -> adm l k -> fits_tree fixed ko (fits TS) (fits TT) (keys l) k = true) ->
  let O := Tree_ops fixed ko S Tr (Array_coll ix Tr) in forall cs, admissible (k_cmp ko) adm cs [] ->
  (forall ot os, run O cs None = Ret (ot, os) -> os = snd (sp_run (k_cmp ko) cs []) /\ (ot = None <-> fst (sp_run (k_cmp ko) cs []) = [])) /\
  (run O cs None = Panic <-> exists cs1 c cs2, cs = cs1 ++ c :: cs2 /\
    needs_slot (k_cmp ko) (fun k => negb (i_index ix (fst (k_split_val ko k)) <? slots)%N) (fst (sp_run (k_cmp ko) cs1 [])) c = true).
Proof. exact (fun B fixed K Hi Lo V ko KL S Tr TS TT ix => part_all fixed ko KL S Tr TS TT ix). Qed.
Print Assumptions C64_exactly.
(** If each half has a slot of its own nothing panics, whether or not each slot belongs to a half *)
Theorem C64_full : forall (B : Build) fixed K Hi Lo V (ko : KeyOps K Hi Lo), KeyLaws ko -> forall (S : VebOps Hi unit) (Tr : VebOps Lo V)
  (TS : VebType fixed Hi unit (hi_cmp ko) S) (TT : VebType fixed Lo V (lo_cmp ko) Tr)
  (adm : list (K * V) -> K -> Prop), (forall l k, ascending (k_cmp ko) l -> adm l k -> fits_tree fixed ko (fits TS) (fits TT) (keys l) k = true) ->
  forall ix : IdxOps Hi, (forall a, i_index ix a < i_card ix mod 2 ^ usize_bits)%N -> (forall a b, i_index ix a = i_index ix b -> a = b) ->
  forall cs, admissible (k_cmp ko) adm cs [] ->
  exists ot, run (Tree_ops fixed ko S Tr (Array_coll ix Tr)) cs None = Ret (ot, snd (sp_run (k_cmp ko) cs [])).
Proof. exact (fun B fixed K Hi Lo V ko KL S Tr TS TT adm Ha ix => part_full fixed ko KL S Tr TS TT adm Ha ix). Qed.
Print Assumptions C64_full.
(** With signed halves narrower than a pointer (C39) the halves from 0 on have no slot *)
Theorem C64_signed : forall (B : Build) fixed K Lo V h (ko : KeyOps K (i h) Lo), KeyLaws ko -> forall (S : VebOps (i h) unit) (Tr : VebOps Lo V)
  (TS : VebType fixed (i h) unit (hi_cmp ko) S) (TT : VebType fixed Lo V (lo_cmp ko) Tr) (ix : IdxOps (i h)), sized_signed ix ->
  forall adm : list (K * V) -> K -> Prop, (forall l k, ascending (k_cmp ko) l -> adm l k -> fits_tree fixed ko (fits TS) (fits TT) (keys l) k = true) ->
  let O := Tree_ops fixed ko S Tr (Array_coll ix Tr) in forall cs, admissible (k_cmp ko) adm cs [] ->
  (forall ot os, run O cs None = Ret (ot, os) -> os = snd (sp_run (k_cmp ko) cs [])) /\
  (run O cs None = Panic <-> exists cs1 c cs2, cs = cs1 ++ c :: cs2 /\
    needs_slot (k_cmp ko) (fun k => 0 <=? ival (fst (k_split_val ko k)))%Z (fst (sp_run (k_cmp ko) cs1 [])) c = true).
Proof. exact (fun B fixed K Lo V h ko KL S Tr TS TT ix => part_signed fixed ko KL S Tr TS TT ix). Qed.
Print Assumptions C64_signed.

(** The crate's own Marker32 (markers.rs 50-58) with [i16; 2] for its key type: its children and its summary are Marker16 and Marker16Empty
    with i16 keys (markers.rs 22-39), its arrays are indexed by i16 *)
Definition I16E {B : Build} (fixed : bool) : VebOps (i 15) unit := Tree_ops fixed i16_key M8E M8E (Array_coll u8_idx M8E).
Definition I16 {B : Build} (fixed : bool) V : VebOps (i 15) V := Tree_ops fixed i16_key M8E (M8 V) (Array_coll u8_idx (M8 V)).
Definition I32 {B : Build} (fixed : bool) V : VebOps (arr2 (i 15)) V :=
  Tree_ops fixed (arr2_key i_cmp) (I16E fixed) (I16 fixed V) (Array_coll i16_idx (I16 fixed V)).
Definition TI16E {B : Build} fixed : VebType fixed (i 15) unit i_cmp (I16E fixed) :=
  VT_Tree fixed _ _ _ _ i16_key (iso_laws i16_iso) _ _ _ (T8E fixed) (T8E fixed) (CT_Array _ _ u8_idx u8_idx_laws).
Definition TI16 {B : Build} fixed V : VebType fixed (i 15) V i_cmp (I16 fixed V) :=
  VT_Tree fixed _ _ _ _ i16_key (iso_laws i16_iso) _ _ _ (T8E fixed) (T8 fixed V) (CT_Array _ _ u8_idx u8_idx_laws).
Definition s2 (a b : Z) : arr2 (i 15) := A2 (wrapi 15 a) (wrapi 15 b).
Definition show2 {h} (o : out (arr2 (i h)) N) : option (Z * Z * N) + bool :=
  match o with OP (Some (A2 a b, v)) => inl (Some (ival a, ival b, v)) | OP None => inl None | OB b => inr b end.
Definition panics {A} (r : res A) : bool := match r with Panic => true | Ret _ => false end.
(** As long as what is between the minimum and the maximum begins with a negative number it is a sorted map; [find] of an absent key above the
    maximum, [remove] of one below the minimum and a key with a first half from 0 on in the middle are what breaks it *)
Definition neg_run : list (op (arr2 (i 15)) N) :=
  [Insert (s2 (-300) 5) 1; Insert (s2 7 (-2)) 2; Insert (s2 (-300) 9) 3; Insert (s2 (-8) 0) 4; Succ (s2 (-300) 5); Pred (s2 9 0); Succ (s2 7 (-2));
   Remove (s2 (-300) 5); Find (s2 (-8) 0); Find (s2 (-8) 1); Min; Max; Insert (s2 (-9) 100) 5; Remove (s2 (-1) 1)]%N.
Example C64_case :
  sized_signed i16_idx /\
  (forall l k, ascending (k_cmp (arr2_key i_cmp)) l -> @adm_any (arr2 (i 15)) N l k ->
     fits_tree true (arr2_key i_cmp) (fits (TI16E true)) (fits (TI16 true N)) (keys l) k = true) /\
  map show2 (answers (run (I32 true N) neg_run None)) = map show2 (snd (sp_run (cmp2 i_cmp) neg_run [])) /\
  length (answers (run (I32 true N) neg_run None)) = 14 /\
  (let later c := panics (run (I32 true N) (neg_run ++ [c]) None) in
   later (Find (s2 8 0)) = true /\ later (Pred (s2 8 0)) = false /\ later (Remove (s2 8 0)) = true /\ later (Insert (s2 8 0) 1%N) = true /\
   later (Insert (s2 3 0) 1%N) = true /\ later (Succ (s2 3 0)) = true /\ later (Insert (s2 (-4) 0) 1%N) = false).
Proof.
  split; [apply S_i16; reflexivity|]. split; [intros l k Hl _; exact (AL_fixed (hash_type true (arr2_key i_cmp) (arr2_laws (i_cmp_laws 15)) _ _ (TI16E true) (TI16 true N)) eq_refl l k Hl I)|].
  split; [vm_compute; reflexivity|]. split; [vm_compute; reflexivity|]. repeat split; vm_compute; reflexivity.
Qed.
(** A user's [index], thrice the number: with 1000 slots each half has its own, though most slots belong to none; with 300 the halves from 100
    on have none *)
Definition thrice (n : N) : IdxOps (u 8) := {| i_card := n; i_CARDINALITY := n; i_index := fun x => (3 * uval x)%N |}.
Definition D16 (n : N) : VebOps (u 16) N := Tree_ops true u16_key M8E (M8 N) (Array_coll (thrice n) (M8 N)).
Definition D16_run : list (op (u 16) N) :=
  [Insert (b16 3) 1; Insert (b16 60000) 2; Insert (b16 25599) 3; Find (b16 25599); Succ (b16 4); Remove (b16 25599)]%N.
Definition D16_far : list (op (u 16) N) := [Insert (b16 300) 4; Succ (b16 25600); Min]%N.
Example C64_index_case :
  (forall n a b, i_index (thrice n) a = i_index (thrice n) b -> a = b) /\
  (forall a, (i_index (thrice 1000) a < i_card (thrice 1000) mod 2 ^ usize_bits)%N) /\
  map show (answers (run (D16 1000) (D16_run ++ D16_far) None)) = map show (snd (sp_run u_cmp (D16_run ++ D16_far) [])) /\
  length (answers (run (D16 1000) (D16_run ++ D16_far) None)) = 9 /\
  map show (answers (run (D16 300) D16_run None)) = map show (snd (sp_run u_cmp D16_run [])) /\
  panics (run (D16 300) D16_run None) = false /\ panics (run (D16 300) (D16_run ++ D16_far) None) = true /\
  needs_slot u_cmp (fun k => negb (i_index (thrice 300) (fst (k_split_val u16_key k)) <? 300)%N)
    (fst (sp_run u_cmp (D16_run ++ [Insert (b16 300) 4%N]) [])) (Succ (b16 25600)) = true.
Proof.
  split; [intros n a b E; apply u_eq; change (3 * uval a = 3 * uval b)%N in E; lia|]. split.
  { intros a. assert (H := uval_lt a). cbn [i_index i_card thrice]. rewrite N.mod_small by (vm_compute; reflexivity). change (uval a < 256)%N in H. lia. }
  repeat split; vm_compute; reflexivity.
Qed.
