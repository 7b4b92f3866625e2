(** Histories that insert only keys that are absent and take out by key: the calls on which the defect of [Tree::insert] (src/tree.rs 524-531; C04, C43, C65)
    has no effect. *)
From Verif Require Import Base Ops Spec Hist.

(** Insertions, removals by key, and questions that change nothing *)
Definition puts_or_takes {K V} (c : op K V) : bool :=
  match c with
  | Insert _ _ | Remove _ | IntoMonad | IsMonad | Min | Max | Find _ | Pred _ | Succ _ => true
  | _ => false
  end.
(** Of these, the calls that go right all the same *)
Definition settled {K V} (c : op K V) : bool := match c with Insert _ _ | Remove _ | IntoMonad | IsMonad => true | _ => false end.

(** The key to insert is absent *)
Definition adm_absent {K V} (l : list (K * V)) (k : K) : Prop := ~ In k (map fst l).

(** A user's dictionary over any tree, of calls of VebTree (src/lib.rs 63-157): insert only what was taken out before, and find by taking out and putting back *)
Definition put {K V} (O : VebOps K V) (ot : option (vt O)) (k : K) (v : V) : res (option (vt O)) :=
  match ot with
  | None => Ret (Some (v_from_monad O k v))
  | Some t => ' (t', _) <- v_insert O t k v ;; Ret (Some t')
  end.
Definition take {K V} (O : VebOps K V) (ot : option (vt O)) (k : K) : res (option (vt O) * option (K * V)) :=
  match ot with
  | None => Ret (None, None)
  | Some t => r <- v_remove O t k ;; Ret match r with Ok (ot', p) => (ot', Some p) | Err t' => (Some t', None) end
  end.
Definition dict_step {K V} (O : VebOps K V) (c : op K V) (ot : option (vt O)) : res (option (vt O) * out K V) :=
  match c with
  | Insert k v => ' (ot1, o) <- take O ot k ;; ot2 <- put O ot1 k v ;; Ret (ot2, OP o)
  | Remove k => ' (ot1, o) <- take O ot k ;; Ret (ot1, OP o)
  | Find k => ' (ot1, o) <- take O ot k ;; match o with None => Ret (ot1, OP None) | Some p => ot2 <- put O ot1 (fst p) (snd p) ;; Ret (ot2, OP o) end
  | FindMut k w => ' (ot1, o) <- take O ot k ;; match o with None => Ret (ot1, OP None) | Some p => ot2 <- put O ot1 (fst p) w ;; Ret (ot2, OP o) end
  | _ => step O c ot
  end.
Fixpoint dict_run {K V} (O : VebOps K V) (cs : list (op K V)) (ot : option (vt O)) : res (option (vt O) * list (out K V)) :=
  match cs with
  | [] => Ret (ot, [])
  | c :: cs' => ' (ot1, o) <- dict_step O c ot ;; ' (ot2, os) <- dict_run O cs' ot1 ;; Ret (ot2, o :: os)
  end.
(** The calls such a dictionary offers *)
Definition by_key {K V} (c : op K V) : bool := match c with Insert _ _ | Remove _ | Find _ | FindMut _ _ | IntoMonad | IsMonad => true | _ => false end.
