(** Trees and collections written by a user of the library: [VebTree], [TreeCollection] and [VebKey] are public traits
    (src/lib.rs 32, src/collection/mod.rs 61, src/key.rs 94), so the parts of a [Tree] need not come from the library.
    This file says what such a part must do, in terms of the sorted list (Hist.v, Spec.v) and the finite map (CollSpec.v) only. *)
From Verif Require Import Base Ops Spec Hist CollSpec Laws Types Coll Boxed SizedT Tree Fits.

(** *** The contract of [VebTree] (src/lib.rs 32-161): every tree stands for a non-empty sorted list *)
Record TreeContract {B : Build} {K V : Type} (cmp : K -> K -> comparison) (O : VebOps K V) : Type := mkTC {
  tc_inv : vt O -> Prop;
  tc_abs : vt O -> list (K * V);
  tc_ascending : forall t, tc_inv t -> ascending cmp (tc_abs t);
  tc_nonempty : forall t, tc_inv t -> tc_abs t <> [];
  (** lib.rs 38-41 *)
  tc_from_monad : forall k v, tc_inv (v_from_monad O k v) /\ tc_abs (v_from_monad O k v) = [(k, v)];
  (** every call answers as the sorted list does and leaves what it leaves; no tree is left exactly when the list is empty *)
  tc_step : forall c t, tc_inv t -> (forall k v, c = Insert k v -> (N.of_nat (length (tc_abs t)) < usize_max)%N) ->
    exists ot, step O c (Some t) = Ret (ot, snd (sp_step cmp c (tc_abs t))) /\
      match ot with
      | Some t' => tc_inv t' /\ tc_abs t' = fst (sp_step cmp c (tc_abs t))
      | None => fst (sp_step cmp c (tc_abs t)) = []
      end;
  (** an attempt that fails gives back the tree as it was (lib.rs 59-62, 145-148) *)
  tc_into_err : forall t t', tc_inv t -> v_into_monad O t = Ret (Err t') -> t' = t;
  tc_remove_err : forall t k t', tc_inv t -> v_remove O t k = Ret (Err t') -> t' = t;
  (** lib.rs 48-51 *)
  tc_len_hint : forall t, tc_inv t -> exists lo hi, v_len_hint O t = Ret (lo, hi) /\
    (lo <= N.of_nat (length (tc_abs t)))%N /\ (forall h, hi = Some h -> (N.of_nat (length (tc_abs t)) <= h)%N)
}.
Arguments tc_inv {B K V cmp O}.
Arguments tc_abs {B K V cmp O}.
Arguments tc_ascending {B K V cmp O}.
Arguments tc_nonempty {B K V cmp O}.
Arguments tc_from_monad {B K V cmp O}.
Arguments tc_step {B K V cmp O}.
Arguments tc_into_err {B K V cmp O}.
Arguments tc_remove_err {B K V cmp O}.
Arguments tc_len_hint {B K V cmp O}.

(** *** The contract of [TreeCollection] (src/collection/mod.rs 61-106): every collection stands for a non-empty finite map.
    [remove_key] is only asked for keys that are there. *)
Record CollContract {Hi Lo V : Type} {Tr : VebOps Lo V} (deq : Hi -> Hi -> bool) (C : CollOps Hi Lo V Tr) : Type := mkCC {
  cc_inv : ct C -> Prop;
  cc_abs : ct C -> list (Hi * vt Tr);
  cc_nodup : forall c, cc_inv c -> NoDup (map fst (cc_abs c));
  cc_nonempty : forall c, cc_inv c -> cc_abs c <> [];
  (** mod.rs 67-69 *)
  cc_create : forall h t, exists c, c_create C h t = Ret c /\ cc_inv c /\ cc_abs c = [(h, t)];
  (** every call the finite map answers is answered so, and leaves what the finite map leaves *)
  cc_step : forall x c m o, cc_inv c -> m_step deq x (cc_abs c) = Ret (m, o) ->
    exists oc, c_step C x (Some c) = Ret (oc, o) /\
      match oc with Some c' => cc_inv c' /\ Permutation (cc_abs c') m | None => m = [] end;
  (** a removal that fails gives back the collection as it was, if its closure gives back the tree as it was (mod.rs 97-105) *)
  cc_maybe_err : forall c h f c', cc_inv c -> (forall t, m_get deq (cc_abs c) h = Some t -> f t = Ret (Err t)) ->
    c_maybe_remove_key C c h f = Ret (Err c') -> c' = c;
  (** a panic in a part is a panic *)
  cc_insert_panic : forall c h t lv, cc_inv c -> m_get deq (cc_abs c) h = Some t ->
    v_insert Tr t (fst lv) (snd lv) = Panic -> c_insert_key C c h lv = Panic;
  cc_remove_panic : forall c h t f, cc_inv c -> m_get deq (cc_abs c) h = Some t -> f t = Panic -> c_remove_key C c h f = Panic;
  cc_maybe_panic : forall c h t f, cc_inv c -> m_get deq (cc_abs c) h = Some t -> f t = Panic -> c_maybe_remove_key C c h f = Panic
}.
Arguments cc_inv {Hi Lo V Tr deq C}.
Arguments cc_abs {Hi Lo V Tr deq C}.
Arguments cc_nodup {Hi Lo V Tr deq C}.
Arguments cc_nonempty {Hi Lo V Tr deq C}.
Arguments cc_create {Hi Lo V Tr deq C}.
Arguments cc_step {Hi Lo V Tr deq C}.
Arguments cc_maybe_err {Hi Lo V Tr deq C}.
Arguments cc_insert_panic {Hi Lo V Tr deq C}.
Arguments cc_remove_panic {Hi Lo V Tr deq C}.
Arguments cc_maybe_panic {Hi Lo V Tr deq C}.

(** *** Types built from the library's parts and a user's *)
Inductive OpenColl {B : Build} {Lo V : Type} (Tr : VebOps Lo V) : forall Hi : Type, CollOps Hi Lo V Tr -> Type :=
| OC_user (Hi : Type) (C : CollOps Hi Lo V Tr) (deq : Hi -> Hi -> bool) (Hdeq : forall a b, deq a b = true <-> a = b)
    (CC : CollContract deq C) : OpenColl Tr Hi C
| OC_known (Hi : Type) (C : CollOps Hi Lo V Tr) (CT : CollType Tr Hi C) : OpenColl Tr Hi C
| OC_Box (Hi : Type) (C : CollOps Hi Lo V Tr) (CT : OpenColl Tr Hi C) : OpenColl Tr Hi (Box_coll C).

Inductive OpenType {B : Build} (fixed : bool) : forall K V : Type, (K -> K -> comparison) -> VebOps K V -> Type :=
| OT_user (K V : Type) cmp (O : VebOps K V) (OL : OrdLaws cmp) (TC : TreeContract cmp O) : OpenType fixed K V cmp O
| OT_known (K V : Type) cmp (O : VebOps K V) (T : VebType fixed K V cmp O) : OpenType fixed K V cmp O
| OT_Tree (K Hi Lo V : Type) (ko : KeyOps K Hi Lo) (KL : KeyLaws ko)
    (S : VebOps Hi unit) (Tr : VebOps Lo V) (C : CollOps Hi Lo V Tr)
    (TS : OpenType fixed Hi unit (hi_cmp ko) S) (TT : OpenType fixed Lo V (lo_cmp ko) Tr)
    (CT : OpenColl Tr Hi C) : OpenType fixed K V (k_cmp ko) (Tree_ops fixed ko S Tr C)
| OT_Box (K V : Type) cmp (O : VebOps K V) (T : OpenType fixed K V cmp O) : OpenType fixed K V cmp (Box_ops O)
| OT_Sized (K V : Type) cmp (O : VebOps K V) (T : OpenType fixed K V cmp O) : OpenType fixed K V cmp (Sized_ops O).

(** As [plain] and [shallow] (Types.v), [fits] and [allowed] (Fits.v): a user's part counts as one without [Tree]. *)
Fixpoint open_plain {B : Build} {fixed K V cmp O} (T : OpenType fixed K V cmp O) : bool :=
  match T with
  | OT_user _ _ _ _ _ _ _ => true
  | OT_known _ _ _ _ _ T' => plain T'
  | OT_Tree _ _ _ _ _ _ _ _ _ _ _ _ _ => false
  | OT_Box _ _ _ _ _ T' | OT_Sized _ _ _ _ _ T' => open_plain T'
  end.
Fixpoint open_shallow {B : Build} {fixed K V cmp O} (T : OpenType fixed K V cmp O) : bool :=
  match T with
  | OT_user _ _ _ _ _ _ _ => true
  | OT_known _ _ _ _ _ T' => shallow T'
  | OT_Tree _ _ _ _ _ _ _ _ _ _ TS TT _ => open_plain TS && open_plain TT
  | OT_Box _ _ _ _ _ T' | OT_Sized _ _ _ _ _ T' => open_shallow T'
  end.
Fixpoint open_fits {B : Build} {fixed K V cmp O} (T : OpenType fixed K V cmp O) : list K -> K -> bool :=
  match T in OpenType _ K V cmp O return list K -> K -> bool with
  | OT_user _ _ _ _ _ _ _ => fun _ _ => true
  | OT_known _ _ _ _ _ T' => fits T'
  | OT_Tree _ _ _ _ _ ko _ _ _ _ TS TT _ => fits_tree fixed ko (open_fits TS) (open_fits TT)
  | OT_Box _ _ _ _ _ T' | OT_Sized _ _ _ _ _ T' => open_fits T'
  end.
Definition open_allowed {B : Build} {fixed K V cmp O} (T : OpenType fixed K V cmp O) (adm : list (K * V) -> K -> Prop) : Prop :=
  forall l k, ascending cmp l -> adm l k -> open_fits T (keys l) k = true.

(** *** A user's tree and collection, for the examples: a sorted vector of pairs, and a vector of trees in any order *)
Section SortedVec.
  Context {K V : Type} (cmp : K -> K -> comparison).
  Notation L := (list (K * V)).
  Definition sv_first (l : L) : res (K * V) := match l with p :: _ => Ret p | [] => Panic end.
  Definition sv_last (l : L) : res (K * V) := match last_error l with Some p => Ret p | None => Panic end.
  Definition sv_some (l : L) : option L := match l with [] => None | _ => Some l end.
  Definition sv_mut (l : L) (p : K * V) : K * V * (V -> L) := (p, fun w => sp_write cmp (fst p) w l).
  Definition SortedVec_ops : VebOps K V :=
    {| vt := L;
       v_from_monad := fun k v => [(k, v)];
       v_is_monad := fun l => Ret (length l =? 1);
       v_len_hint := fun l => Ret (0%N, Some (N.of_nat (length l) + 7)%N);
       v_into_monad := fun l => Ret (match l with [p] => Ok p | _ => Err l end);
       v_min_val := sv_first;
       v_min_val_mut := fun l => p <- sv_first l ;; Ret (sv_mut l p);
       v_max_val := sv_last;
       v_max_val_mut := fun l => p <- sv_last l ;; Ret (sv_mut l p);
       v_find := fun l k => Ret (sp_find cmp k l);
       v_find_mut := fun l k => Ret (option_map (sv_mut l) (sp_find cmp k l));
       v_predecessor := fun l k => Ret (sp_pred cmp k l);
       v_predecessor_mut := fun l k => Ret (option_map (sv_mut l) (sp_pred cmp k l));
       v_successor := fun l k => Ret (sp_succ cmp k l);
       v_successor_mut := fun l k => Ret (option_map (sv_mut l) (sp_succ cmp k l));
       v_insert := fun l k v => Ret (sp_insert cmp k v l, sp_find cmp k l);
       v_remove := fun l k => Ret (match sp_find cmp k l with
                                   | Some p => Ok (sv_some (sp_remove cmp k l), p)
                                   | None => Err l
                                   end);
       v_remove_min := fun l => p <- sv_first l ;; Ret (sv_some (tl l), p);
       v_remove_max := fun l => p <- sv_last l ;; Ret (sv_some (removelast l), p) |}.
End SortedVec.

Section VecColl.
  Context {Hi Lo V : Type} (deq : Hi -> Hi -> bool) (Tr : VebOps Lo V).
  Notation M := (list (Hi * vt Tr)).
  Definition vc_put (m : M) (h : Hi) (t : vt Tr) : M := map (fun p => if deq h (fst p) then (h, t) else p) m.
  Definition vc_left (m : M) (o : option (vt Tr)) : option (M * bool) :=
    match m with [] => None | _ => Some (m, match o with Some _ => false | None => true end) end.
  Definition VecColl : CollOps Hi Lo V Tr :=
    {| ct := M;
       c_create := fun h t => Ret [(h, t)];
       c_get := fun m h => Ret (m_get deq m h);
       c_get_mut := fun m h => Ret (option_map (fun t => (t, vc_put m h)) (m_get deq m h));
       c_insert_key := fun m h lv =>
         match m_get deq m h with
         | None => Ret (m ++ [(h, v_from_monad Tr (fst lv) (snd lv))], Ok h)
         | Some t => ' (t', r) <- v_insert Tr t (fst lv) (snd lv) ;; Ret (vc_put m h t', Err (h, r))
         end;
       c_remove_key := fun m h f =>
         match m_get deq m h with
         | None => Panic
         | Some t => ' (o, p) <- f t ;; Ret (vc_left (m_set deq m h o) o, p)
         end;
       c_maybe_remove_key := fun m h f =>
         match m_get deq m h with
         | None => Ret (Err m)
         | Some t =>
             r <- f t ;;
             match r with
             | Err t' => Ret (Err (vc_put m h t'))
             | Ok (o, p) => Ret (Ok (vc_left (m_set deq m h o) o, p))
             end
         end |}.
End VecColl.
