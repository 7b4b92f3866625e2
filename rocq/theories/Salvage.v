(** What the defect of [Tree::insert] (src/tree.rs 524-531; C04, C43, C65) cannot spoil, and how a tree built by insertions can be put right afterwards. *)
From Verif Require Import Base Ops Spec Hist.

(** Insertions, and questions that change nothing *)
Definition adds_or_asks {K V} (c : op K V) : bool :=
  match c with
  | Insert _ _ | IsMonad | Min | Max | Find _ | Pred _ | Succ _ => true
  | _ => false
  end.
(** The questions that go right all the same *)
Definition sure {K V} (c : op K V) : bool := match c with IsMonad | Min | Find _ => true | _ => false end.

(** Pairs put into a sorted map one after the other, as [BTreeMap::from_iter] does: of equal keys the last stays *)
Definition collect {K V} (cmp : K -> K -> comparison) (d : list (K * V)) : list (K * V) :=
  fold_left (fun l p => sp_insert cmp (fst p) (snd p) l) d [].

(** A user's program (src/lib.rs 41, 143, 155): take everything out with [remove_min], at most [n] times, into a [BTreeMap], and build a new tree from
    the map in ascending order *)
Definition salvage {K V} (cmp : K -> K -> comparison) (O : VebOps K V) (n : nat) (ot : option (vt O)) : res (option (vt O)) :=
  ' (_, d) <- drain (v_remove_min O) n ot ;;
  ' (ot', _) <- run O (map (fun p => Insert (fst p) (snd p)) (collect cmp d)) None ;;
  Ret ot'.
