(** C81: what the ring buffer behind a [ByteMap]'s list writes.

    [std_ring A] is the ring of DequeGen.v with the choices of [VecDeque]: the shorter side moves, a full buffer is replaced by one twice as long.
    [only_in ss b b']: the buffers [b] and [b'] are alike outside of the slots [ss].  [cp_run v os]: the ring begun with [v] after the calls [os], and how many
    values growing has copied so far (RingMoves.v). *)
From Verif Require Import Base Ints Ops Spec ByteSet ByteMap Coll Hist GenMap DequeGen DequeGenCor RingMoves RingMovesCor RingByteCor.

(** ** C81 An insertion into a ring that is not full writes one slot more than the shorter side has values, a removal one for each of them *)
Theorem C81_insert : forall A (r : Ring A) i v r', rg_len r < length (rg_buf r) -> d_insert (std_ring A) r i v = Ret r' ->
  exists ss, length ss <= S (Nat.min (N.to_nat i) (rg_len r - N.to_nat i)) /\ only_in ss (rg_buf r) (rg_buf r').
Proof. exact (fun A => insert_slots). Qed.
Print Assumptions C81_insert.
Theorem C81_remove : forall A (r : Ring A) i r' v, d_remove (std_ring A) r i = (r', Some v) ->
  exists ss, length ss <= Nat.min (N.to_nat i) (rg_len r - N.to_nat i - 1) /\ only_in ss (rg_buf r) (rg_buf r').
Proof. exact (fun A => remove_slots). Qed.
Print Assumptions C81_remove.
(** ** A value changed in place writes one slot, and a value taken out through it does what a removal does *)
Theorem C81_entry : forall A (r : Ring A) i v put, d_entry (std_ring A) r i = Some (v, put) ->
  put None = fst (d_remove (std_ring A) r i) /\ snd (d_remove (std_ring A) r i) = Some v /\
  forall x, exists s, only_in [s] (rg_buf r) (rg_buf (put (Some x))).
Proof. exact (fun A => entry_slots). Qed.
Print Assumptions C81_entry.
(** ** So with the at most 256 values of a ByteMap, no call writes more than 128 slots of the buffer it keeps *)
Theorem C81_bytes : forall A (r : Ring A) i v r',
  (rg_len r < length (rg_buf r) -> rg_len r < 256 -> d_insert (std_ring A) r i v = Ret r' -> exists ss, length ss <= 128 /\ only_in ss (rg_buf r) (rg_buf r')) /\
  (rg_len r <= 256 -> d_remove (std_ring A) r i = (r', Some v) -> exists ss, length ss <= 127 /\ only_in ss (rg_buf r) (rg_buf r')).
Proof. exact (fun A r i v r' => conj (insert_bytes r i v r') (remove_bytes r i v r')). Qed.
Print Assumptions C81_bytes.
(** ** All the copying to longer buffers, over any history, is of fewer values than twice the most there ever were; nor is the buffer longer *)
Theorem C81_growth : forall A (v : A) os p, (forall os1 os2, os = os1 ++ os2 -> length (fold_left list_step os1 [v]) <= p) ->
  let c := cp_run v os in cp_count c < length (rg_buf (cp_ring c)) /\ length (rg_buf (cp_ring c)) <= 2 * p.
Proof. exact (fun A => cap_bound). Qed.
Print Assumptions C81_growth.
(** ** What is counted: a call either is counted as a copying of all the values, of a full buffer, or writes no more slots than half of the values and one *)
Theorem C81_counted : forall A (v : A) os, cp_count (cp_run v []) = 0 /\ forall o, let c := cp_run v os in let c' := cp_run v (os ++ [o]) in let n := length (fold_left list_step os [v]) in
  (cp_count c' = cp_count c /\ exists ss, 2 * length ss <= n + 2 /\ only_in ss (rg_buf (cp_ring c)) (rg_buf (cp_ring c'))) \/
  (cp_count c' = cp_count c + n /\ n = length (rg_buf (cp_ring c)) /\ n < length (rg_buf (cp_ring c')) /\ exists i x, o = RIns i x).
Proof. exact (fun A v os => conj eq_refl (counted_step v os)). Qed.
Print Assumptions C81_counted.
(** ** The histories are those of the lists: the ring keeps the values that the calls on a list leave *)
Theorem C81_contents : forall A (v : A) os, rg_list (cp_ring (cp_run v os)) = fold_left list_step os [v].
Proof. exact (fun A => run_list). Qed.
Print Assumptions C81_contents.
(** ** A full ring is the only one that grows, to twice its slots and to four at least *)
Theorem C81_full : forall A (v0 : A) os i v r', let r := cp_ring (cp_run v0 os) in rg_len r = length (rg_buf r) -> d_insert (std_ring A) r i v = Ret r' ->
  length (rg_buf r') = Nat.max 4 (2 * length (rg_buf r)).
Proof. exact (fun A v0 os i v r' => grown _ _ i v r' (run_holds v0 os)). Qed.
Print Assumptions C81_full.
(** ** When it grows, no more than half of the values are then in another slot than before: the shorter part of a ring that wraps around *)
Theorem C81_stay : forall A (v0 : A) os, let r := cp_ring (cp_run v0 os) in rg_len r = length (rg_buf r) -> let q := rg_room std_plan r in
  rg_list q = rg_list r /\ exists is, 2 * length is <= rg_len r /\ forall i, i < rg_len r -> ~ In i is -> rg_slot q i = rg_slot r i.
Proof. exact (fun A v0 os Hr => conj (room_list _ _ (run_holds v0 os)) (stay _ _ (run_holds v0 os) Hr)). Qed.
Print Assumptions C81_stay.
(** ** In a ByteMap: after any history the buffer has one of eight sizes, and the next call writes 128 slots of it at the most, or replaces a full one of
    fewer than 256 slots *)
Theorem C81_bytemap : forall (B : Build) V, let O := ByteMapOf_ops (DequeList (std_ring V)) in forall cs (m : vt O) os c (m' : vt O) o,
  run O cs None = Ret (Some m, os) -> step O c (Some m) = Ret (Some m', o) -> let r := bm_list m in let r' := bm_list m' in
  rg_list r = map snd (fst (sp_run u_cmp cs [])) /\ rg_len r <= length (rg_buf r) /\ In (length (rg_buf r)) [1; 4; 8; 16; 32; 64; 128; 256] /\
  ((exists ss, length ss <= 128 /\ only_in ss (rg_buf r) (rg_buf r')) \/
   (rg_len r = length (rg_buf r) /\ rg_len r < 256 /\ length (rg_buf r') = Nat.max 4 (2 * length (rg_buf r)))).
Proof. exact (fun B V => map_slots). Qed.
Print Assumptions C81_bytemap.
(** ** In a ByteMap of trees, whose ring keeps the list [l], each call writes no more slots than half of its trees and one, or replaces a full buffer;
    [writes] is defined in RingMoves.v *)
Theorem C81_trees : forall (B : Build) Lo V (Tr : VebOps Lo V), let C := ByteMapOf_coll (DequeTrees Tr (std_ring (vt Tr))) in
  forall (m : ct C) (l : list (vt Tr)) h, holds (bm_list m) l ->
  (forall t put, c_get_mut C m h = Ret (Some (t, put)) -> exists s, forall t', only_in [s] (rg_buf (bm_list m)) (rg_buf (bm_list (put t')))) /\
  (forall lv m' x, c_insert_key C m h lv = Ret (m', x) -> writes (bm_list m) (bm_list m')) /\
  (forall f m' b x, c_remove_key C m h f = Ret (Some (m', b), x) -> writes (bm_list m) (bm_list m')) /\
  (forall f m' b x, c_maybe_remove_key C m h f = Ret (Ok (Some (m', b), x)) -> writes (bm_list m) (bm_list m')) /\
  (forall f m', c_maybe_remove_key C m h f = Ret (Err m') -> writes (bm_list m) (bm_list m')).
Proof. exact (fun B Lo V Tr => coll_writes). Qed.
Print Assumptions C81_trees.

(** Witness: a ring of five values in eight slots *)
Definition five : list (rop N) := [RIns 1 11; RIns 2 12; RIns 3 13; RIns 4 14]%N.
Definition ring5 : Ring N := cp_ring (cp_run 10%N five).
(** ** Fewer slots are not enough: here the shorter side has two values, and three slots must be written *)
Theorem C81_fewer_refuted : exists (r : Ring N) i v r', rg_len r < length (rg_buf r) /\ d_insert (std_ring N) r i v = Ret r' /\
  ~ exists ss, length ss <= Nat.min (N.to_nat i) (rg_len r - N.to_nat i) /\ only_in ss (rg_buf r) (rg_buf r').
Proof.
  exists ring5, 2%N, 99%N, (rg_insert std_plan (fun r i => rg_len r - i <? i) ring5 2 99%N). split; [vm_compute; repeat constructor|]. split; [vm_compute; reflexivity|].
  exact (fun E => match E with ex_intro _ ss (conj Hl Ho) => Nat.nle_succ_diag_l 2 (Nat.le_trans _ _ _ (differ_le _ _ ss Ho) Hl) end).
Qed.
Print Assumptions C81_fewer_refuted.
(** ** Nor is it enough always to move the values behind: then an insertion in front writes every slot in use *)
Theorem C81_behind_refuted : exists (r : Ring N) i v, rg_len r < length (rg_buf r) /\
  ~ exists ss, length ss <= S (Nat.min i (rg_len r - i)) /\ only_in ss (rg_buf r) (rg_buf (rg_insert std_plan (fun _ _ => true) r i v)).
Proof.
  exists ring5, 0, 99%N. split; [vm_compute; repeat constructor|].
  exact (fun E => match E with ex_intro _ ss (conj Hl Ho) => Nat.nle_succ_0 0 (le_S_n 1 0 (Nat.le_trans 2 6 1 ltac:(repeat constructor) (Nat.le_trans 6 _ _ (differ_le _ _ ss Ho) Hl)) ) end).
Qed.
Print Assumptions C81_behind_refuted.

Example C81_case : rg_list ring5 = [10; 11; 12; 13; 14]%N /\ length (rg_buf ring5) = 8 /\ cp_count (cp_run 10%N five) = 5 /\
  (exists r', d_insert (std_ring N) ring5 0%N 99%N = Ret r' /\ differ (rg_buf ring5) (rg_buf r') = 1) /\
  (exists r' v, d_remove (std_ring N) ring5 1%N = (r', Some v) /\ differ (rg_buf ring5) (rg_buf r') = 1) /\
  (forall os1 os2, five = os1 ++ os2 -> length (fold_left list_step os1 [10%N]) <= 5) /\
  rg_len (cp_ring (cp_run 10%N (firstn 3 five))) = 4 /\ length (rg_buf (cp_ring (cp_run 10%N (firstn 3 five)))) = 4.
Proof.
  split; [vm_compute; reflexivity|]. split; [vm_compute; reflexivity|]. split; [vm_compute; reflexivity|].
  split; [eexists; split; vm_compute; reflexivity|]. split; [eexists; eexists; split; vm_compute; reflexivity|].
  split; [|split; vm_compute; reflexivity].
  intros os1 os2 E. assert (E1 : os1 = firstn (length os1) five) by (rewrite E, firstn_app, firstn_all, Nat.sub_diag, app_nil_r; reflexivity). rewrite E1.
  destruct (length os1) as [|[|[|[|[|n]]]]]; vm_compute; repeat constructor.
Qed.
(** and a full ring that wraps around: of its four values one is in another slot once it has grown *)
Definition wrapped : Ring N := cp_ring (cp_run 10%N [RIns 1 11; RIns 2 12; RIns 0 9]%N).
Example C81_stay_case : rg_len wrapped = 4 /\ length (rg_buf wrapped) = 4 /\ rg_list wrapped = [9; 10; 11; 12]%N /\
  map (rg_slot wrapped) (seq 0 4) = [3; 0; 1; 2] /\ map (rg_slot (rg_room std_plan wrapped)) (seq 0 4) = [7; 0; 1; 2] /\
  rg_list (rg_room std_plan wrapped) = [9; 10; 11; 12]%N.
Proof. vm_compute. repeat split. Qed.
(** and a map of bytes, filled to four and then beyond: the fifth key replaces the buffer, the sixth, in front of all, writes one slot of it *)
Definition bmap {B : Build} : VebOps (u 8) N := ByteMapOf_ops (DequeList (std_ring N)).
Definition bput (k : N) : op (u 8) N := Insert (pack 8 k) (k * 10)%N.
Definition buffers {B : Build} (cs : list (op (u 8) N)) : list (option N) :=
  match run bmap cs None with Ret (Some m, _) => rg_buf (bm_list m) | _ => [] end.
Example C81_bytemap_case : forall B : Build,
  buffers [bput 50; bput 60; bput 70; bput 55]%N = [Some 550; Some 600; Some 700; Some 500]%N /\
  length (buffers [bput 50; bput 60; bput 70; bput 55; bput 80]%N) = 8 /\
  differ (buffers [bput 50; bput 60; bput 70; bput 55; bput 80]%N) (buffers [bput 50; bput 60; bput 70; bput 55; bput 80; bput 40]%N) = 1.
Proof. intros [[] []]; vm_compute; repeat split. Qed.
(** and a map of bytes to maps of bytes: three children, a new one in the middle, one that goes *)
Definition btrees {B : Build} : CollOps (u 8) (u 8) N bmap := ByteMapOf_coll (DequeTrees bmap (std_ring (vt bmap))).
Definition three {B : Build} : res (ct btrees) :=
  m <- c_create btrees (pack 8 5) (v_from_monad bmap (pack 8 1) 10%N) ;;
  ' (m, _) <- c_insert_key btrees m (pack 8 9) (pack 8 2, 20%N) ;;
  ' (m, _) <- c_insert_key btrees m (pack 8 3) (pack 8 4, 40%N) ;; Ret m.
Example C81_trees_case : forall B : Build, exists m l m1 m2 b x y, three = Ret m /\ holds (bm_list m) l /\ rg_len (bm_list m) = 3 /\ length (rg_buf (bm_list m)) = 4 /\
  c_insert_key btrees m (pack 8 7) (pack 8 6, 60%N) = Ret (m1, x) /\ rg_len (bm_list m1) = 4 /\
  c_remove_key btrees m (pack 8 5) (fun t => v_remove_min bmap t) = Ret (Some (m2, b), y) /\ rg_len (bm_list m2) = 2.
Proof.
  intros [[] []]; eexists; exists (match three with Ret m => rg_list (bm_list m) | Panic => [] end); repeat eexists; try (vm_compute; reflexivity); try (vm_compute; repeat constructor);
    intros [|[|[|[|i]]]] x E; vm_compute in E |- *; try discriminate E; exact E.
Qed.
