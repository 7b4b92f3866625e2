(** C44, C45: the running time promised by the documentation (src/lib.rs 32-161: "O(lg lg K)", "O(1)").
    [type_cost T] (Cost.v) are the operations of the tree type [T] written again in a monad that counts: [outcome] is what
    the operation gives, [calls] the calls of methods of trees and collections it makes, itself included, and [slots]
    the slots of arrays it allocates.  [depth T] is the number of [Tree]s nested in each other.
    For the rest of the notation see the head of PropsMap.v. *)
From Verif Require Import Base Ints Ops Spec Key ByteSet ByteMap Coll Boxed BTree SizedT Tree Markers Laws Lists CollProofs
  KeyProofs Hist Types HistProofs TypesProofs HistCor Concrete Cost CostCor CountCor.
Local Open Scope N_scope.

(** ** C44 What is counted is what runs: without the counts the operations are those of the model ... *)
Theorem C44_faithful : forall (B : Build) fixed K V cmp (O : VebOps K V) (T : VebType fixed K V cmp O),
  let CO := type_cost T in
  (forall k v, outcome (cv_from_monad CO k v) = Ret (v_from_monad O k v)) /\
  (forall t, outcome (cv_is_monad CO t) = v_is_monad O t) /\
  (forall t, outcome (cv_into_monad CO t) = v_into_monad O t) /\
  (forall t, outcome (cv_min_val CO t) = v_min_val O t) /\
  (forall t, outcome (cv_min_val_mut CO t) = v_min_val_mut O t) /\
  (forall t, outcome (cv_max_val CO t) = v_max_val O t) /\
  (forall t, outcome (cv_max_val_mut CO t) = v_max_val_mut O t) /\
  (forall t k, outcome (cv_find CO t k) = v_find O t k) /\
  (forall t k, outcome (cv_find_mut CO t k) = v_find_mut O t k) /\
  (forall t k, outcome (cv_predecessor CO t k) = v_predecessor O t k) /\
  (forall t k, outcome (cv_predecessor_mut CO t k) = v_predecessor_mut O t k) /\
  (forall t k, outcome (cv_successor CO t k) = v_successor O t k) /\
  (forall t k, outcome (cv_successor_mut CO t k) = v_successor_mut O t k) /\
  (forall t k v, outcome (cv_insert CO t k v) = v_insert O t k v) /\
  (forall t k, outcome (cv_remove CO t k) = v_remove O t k) /\
  (forall t, outcome (cv_remove_min CO t) = v_remove_min O t) /\
  (forall t, outcome (cv_remove_max CO t) = v_remove_max O t).
Proof. exact @cost_faithful. Qed.
Print Assumptions C44_faithful.
(** ... every operation makes a number of calls linear in the depth, whatever is stored, and the ones on the extremes
    and on single pairs make one ... *)
Theorem C44_calls : forall (B : Build) fixed K V cmp (O : VebOps K V) (T : VebType fixed K V cmp O),
  let CO := type_cost T in
  (forall k v, calls (cv_from_monad CO k v) <= 1) /\
  (forall t, calls (cv_is_monad CO t) <= 1) /\
  (forall t, calls (cv_into_monad CO t) <= 1) /\
  (forall t, calls (cv_min_val CO t) <= 1) /\
  (forall t, calls (cv_min_val_mut CO t) <= 1) /\
  (forall t, calls (cv_max_val CO t) <= 1) /\
  (forall t, calls (cv_max_val_mut CO t) <= 1) /\
  (forall t k, calls (cv_find CO t k) <= 2 * depth T + 1) /\
  (forall t k, calls (cv_find_mut CO t k) <= 2 * depth T + 1) /\
  (forall t k, calls (cv_predecessor CO t k) <= 5 * depth T + 1) /\
  (forall t k, calls (cv_predecessor_mut CO t k) <= 5 * depth T + 1) /\
  (forall t k, calls (cv_successor CO t k) <= 5 * depth T + 1) /\
  (forall t k, calls (cv_successor_mut CO t k) <= 5 * depth T + 1) /\
  (forall t k v, calls (cv_insert CO t k v) <= 3 * depth T + 1) /\
  (forall t k, calls (cv_remove CO t k) <= 4 * depth T + 2) /\
  (forall t, calls (cv_remove_min CO t) <= 4 * depth T + 1) /\
  (forall t, calls (cv_remove_max CO t) <= 4 * depth T + 1).
Proof. exact @cost_calls. Qed.
Print Assumptions C44_calls.
(** ... and no call goes uncounted: what runs to its end counts itself, in trees and in collections, and the cost of a part is part of the cost *)
Theorem C44_counted : forall (B : Build) fixed K V cmp (O : VebOps K V) (T : VebType fixed K V cmp O),
  let CO := type_cost T in
  (forall k v r, outcome (cv_from_monad CO k v) = Ret r -> 1 <= calls (cv_from_monad CO k v)) /\
  (forall t r, outcome (cv_is_monad CO t) = Ret r -> 1 <= calls (cv_is_monad CO t)) /\
  (forall t r, outcome (cv_into_monad CO t) = Ret r -> 1 <= calls (cv_into_monad CO t)) /\
  (forall t r, outcome (cv_min_val CO t) = Ret r -> 1 <= calls (cv_min_val CO t)) /\
  (forall t r, outcome (cv_min_val_mut CO t) = Ret r -> 1 <= calls (cv_min_val_mut CO t)) /\
  (forall t r, outcome (cv_max_val CO t) = Ret r -> 1 <= calls (cv_max_val CO t)) /\
  (forall t r, outcome (cv_max_val_mut CO t) = Ret r -> 1 <= calls (cv_max_val_mut CO t)) /\
  (forall t k r, outcome (cv_find CO t k) = Ret r -> 1 <= calls (cv_find CO t k)) /\
  (forall t k r, outcome (cv_find_mut CO t k) = Ret r -> 1 <= calls (cv_find_mut CO t k)) /\
  (forall t k r, outcome (cv_predecessor CO t k) = Ret r -> 1 <= calls (cv_predecessor CO t k)) /\
  (forall t k r, outcome (cv_predecessor_mut CO t k) = Ret r -> 1 <= calls (cv_predecessor_mut CO t k)) /\
  (forall t k r, outcome (cv_successor CO t k) = Ret r -> 1 <= calls (cv_successor CO t k)) /\
  (forall t k r, outcome (cv_successor_mut CO t k) = Ret r -> 1 <= calls (cv_successor_mut CO t k)) /\
  (forall t k v r, outcome (cv_insert CO t k v) = Ret r -> 1 <= calls (cv_insert CO t k v)) /\
  (forall t k r, outcome (cv_remove CO t k) = Ret r -> 1 <= calls (cv_remove CO t k)) /\
  (forall t r, outcome (cv_remove_min CO t) = Ret r -> 1 <= calls (cv_remove_min CO t)) /\
  (forall t r, outcome (cv_remove_max CO t) = Ret r -> 1 <= calls (cv_remove_max CO t)).
Proof. exact @type_paid. Qed.
Print Assumptions C44_counted.
Theorem C44_counted_collections : forall (B : Build) Lo V (Tr : VebOps Lo V) (CT : CVeb Tr) Hi (C : CollOps Hi Lo V Tr) (X : CollType Tr Hi C),
  let CC := coll_cost CT X in
  (forall h t r, outcome (cc_create CC h t) = Ret r -> 1 <= calls (cc_create CC h t)) /\
  (forall c h r, outcome (cc_get CC c h) = Ret r -> 1 <= calls (cc_get CC c h)) /\
  (forall c h r, outcome (cc_get_mut CC c h) = Ret r -> 1 <= calls (cc_get_mut CC c h)) /\
  (forall c h lv r, outcome (cc_insert_key CC c h lv) = Ret r -> 1 <= calls (cc_insert_key CC c h lv)) /\
  (forall c h f r, outcome (cc_remove_key CC c h f) = Ret r -> 1 <= calls (cc_remove_key CC c h f)) /\
  (forall c h f r, outcome (cc_maybe_remove_key CC c h f) = Ret r -> 1 <= calls (cc_maybe_remove_key CC c h f)).
Proof. exact @colls_paid. Qed.
Print Assumptions C44_counted_collections.
Theorem C44_adds : forall A A' (m : cres A) (f : A -> cres A') a, outcome m = Ret a ->
  calls (cbind m f) = calls m + calls (f a) /\ slots (cbind m f) = slots m + slots (f a) /\ outcome (cbind m f) = outcome (f a).
Proof. exact @cost_adds. Qed.
Print Assumptions C44_adds.
(** ... at the bottom [remove] too is one call, which the bound for it leaves open *)
Theorem C44_bottom : forall (B : Build) fixed K V cmp (O : VebOps K V) (T : VebType fixed K V cmp O) t k, depth T = 0 ->
  calls (cv_remove (type_cost T) t k) = 1.
Proof. exact (fun B fixed K V cmp O T t k H => bottom_remove T H t k). Qed.
Print Assumptions C44_bottom.
Example C44_bottom_case : depth (VT_Sized false _ _ _ _ (T8 false N)) = 0 /\
  calls (cv_remove (type_cost (VT_Sized false _ _ _ _ (T8 false N))) (v_from_monad (Sized_ops (M8 N)) (b8 7) 3) (b8 7)) = 1.
Proof. split; [reflexivity|]. apply C44_bottom. reflexivity. Qed.
(** ... the conditions [plain] and [shallow] of other theorems (PropsMap.v, PropsFits.v) are conditions on this depth *)
Theorem C44_levels : forall (B : Build) fixed K V cmp (O : VebOps K V) (T : VebType fixed K V cmp O),
  (plain T = true <-> depth T = 0) /\ (shallow T = true <-> depth T <= 1).
Proof. exact @levels. Qed.
Print Assumptions C44_levels.
(** ... and the depth of the markers of the library for keys of [w] bits, so of [2 ^ w] keys, is [log2 w - 3] *)
Theorem C44_markers : forall (B : Build) (W16 : Wide (2 ^ 16)) (W32 : Wide (2 ^ 32)) fixed V,
  (depth (T8E fixed) = N.log2 8 - 3 /\ depth (T16E fixed) = N.log2 16 - 3 /\
   depth (T32E fixed) = N.log2 32 - 3 /\ depth (T64E fixed) = N.log2 64 - 3) /\
  (depth (T8 fixed V) = N.log2 8 - 3 /\ depth (T16 fixed V) = N.log2 16 - 3 /\
   depth (T32 fixed V) = N.log2 32 - 3 /\ depth (T64 fixed V) = N.log2 64 - 3).
Proof. exact @depth_markers. Qed.
Print Assumptions C44_markers.

(** The bounds for the queries and updates are all met, here with depth 2: a tree of 14 pairs ... *)
Definition busy32 : list (op (u 32) N) :=
  map (fun n => Insert (b32 n) n)
    [3; 16; 16777232; 33619984; 33620256; 33620272; 33620544; 33685520; 50397200; 50397472; 50397488; 50397760; 67108880; 83886080].
Definition busy_tree : vt (H32 false N) := tree_of (H32 false N) busy32 (v_from_monad (H32 false N) (b32 0) 0).
Definition count32 := type_cost (TH32 false N).
Example C44_case : depth (TH32 false N) = 2 /\ run (H32 false N) busy32 None = Ret (Some busy_tree, answers (run (H32 false N) busy32 None)) /\
  calls (cv_find count32 busy_tree (b32 33620272)) = 2 * 2 + 1 /\
  calls (cv_find_mut count32 busy_tree (b32 33620272)) = 2 * 2 + 1 /\
  calls (cv_predecessor count32 busy_tree (b32 33619984)) = 5 * 2 + 1 /\
  calls (cv_predecessor_mut count32 busy_tree (b32 33619984)) = 5 * 2 + 1 /\
  calls (cv_successor count32 busy_tree (b32 16777232)) = 5 * 2 + 1 /\
  calls (cv_successor_mut count32 busy_tree (b32 16777232)) = 5 * 2 + 1 /\
  calls (cv_insert count32 busy_tree (b32 2) 0) = 3 * 2 + 1 /\
  calls (cv_remove count32 busy_tree (b32 16)) = 4 * 2 + 2 /\
  calls (cv_remove_min count32 busy_tree) = 4 * 2 + 1 /\
  calls (cv_remove_max count32 busy_tree) = 4 * 2 + 1.
Proof.
  split; [reflexivity|]. split; [apply run_final, tree_of_ok; vm_compute; reflexivity|]. repeat split; vm_compute; reflexivity.
Qed.

(** ** C45 Only insertions allocate arrays, and never more than the slots of one of the arrays nested in the type ... *)
Theorem C45_slots : forall (B : Build) fixed K V cmp (O : VebOps K V) (T : VebType fixed K V cmp O),
  let CO := type_cost T in
  (forall k v, slots (cv_from_monad CO k v) = 0) /\
  (forall t, slots (cv_is_monad CO t) = 0) /\
  (forall t, slots (cv_into_monad CO t) = 0) /\
  (forall t, slots (cv_min_val CO t) = 0) /\
  (forall t, slots (cv_min_val_mut CO t) = 0) /\
  (forall t, slots (cv_max_val CO t) = 0) /\
  (forall t, slots (cv_max_val_mut CO t) = 0) /\
  (forall t k, slots (cv_find CO t k) = 0) /\
  (forall t k, slots (cv_find_mut CO t k) = 0) /\
  (forall t k, slots (cv_predecessor CO t k) = 0) /\
  (forall t k, slots (cv_predecessor_mut CO t k) = 0) /\
  (forall t k, slots (cv_successor CO t k) = 0) /\
  (forall t k, slots (cv_successor_mut CO t k) = 0) /\
  (forall t k v, slots (cv_insert CO t k v) <= largest_array T) /\
  (forall t k, slots (cv_remove CO t k) = 0) /\
  (forall t, slots (cv_remove_min CO t) = 0) /\
  (forall t, slots (cv_remove_max CO t) = 0).
Proof. exact @cost_slots. Qed.
Print Assumptions C45_slots.
(** ... the third of three keys inserted into an empty tree allocates the whole array of the outermost [Tree], the first two
    allocate nothing ... *)
Theorem C45_third : forall (B : Build) fixed K V cmp (O : VebOps K V) (T : VebType fixed K V cmp O) a va b vb c vc t r,
  a <> b -> a <> c -> b <> c -> v_insert O (v_from_monad O a va) b vb = Ret (t, r) ->
  slots (cv_insert (type_cost T) (v_from_monad O a va) b vb) = 0 /\ slots (cv_insert (type_cost T) t c vc) = first_array T.
Proof. exact (fun B fixed K V cmp O T => third_insert T). Qed.
Print Assumptions C45_third.
(** ... which for the markers of the library has as many slots as the square root of the number of keys *)
Theorem C45_markers : forall (B : Build) (W16 : Wide (2 ^ 16)) (W32 : Wide (2 ^ 32)) fixed V,
  (first_array (T8E fixed) = 0 /\ first_array (T16E fixed) = 2 ^ 8 /\
   first_array (T32E fixed) = 2 ^ 16 /\ first_array (T64E fixed) = 2 ^ 32) /\
  (first_array (T8 fixed V) = 0 /\ first_array (T16 fixed V) = 2 ^ 8 /\
   first_array (T32 fixed V) = 2 ^ 16 /\ first_array (T64 fixed V) = 2 ^ 32) /\
  largest_array (T64 fixed V) = 2 ^ 32.
Proof. exact @arrays_markers. Qed.
Print Assumptions C45_markers.
(** the slots allocated by five insertions into a tree of Marker16 *)
Definition step16 (acc : res (vt (M16 false N)) * list N) (n : N) : res (vt (M16 false N)) * list N :=
  match fst acc with
  | Ret t => let m := cv_insert (type_cost (T16 false N)) t (b16 n) n in
             (match outcome m with Ret (t', _) => Ret t' | Panic => Panic end, snd acc ++ [slots m])
  | Panic => acc
  end.
Example C45_case : snd (fold_left step16 [700; 1000; 900; 905; 40000] (Ret (v_from_monad (M16 false N) (b16 5) 5), [])) = [0; 256; 0; 0; 0] /\
  exists t r, v_insert (M16 false N) (v_from_monad (M16 false N) (b16 5) 5) (b16 700) 700 = Ret (t, r).
Proof. split; [vm_compute; reflexivity|eexists _, _; reflexivity]. Qed.
