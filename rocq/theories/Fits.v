(** Which insertions keep a tree in order: a test on the stored keys alone, by the nesting of the type.
    Specification only: the nesting of the type and the splitting of keys are used, no model of the code. *)
From Verif Require Import Base Spec Ops Hist Types.

(** first element, what is between, last element *)
Definition ends {A} (l : list A) : option (A * list A * A) :=
  match l with
  | [] => None
  | a :: l' => match rev l' with [] => None | b :: m => Some (a, rev m, b) end
  end.

Section Halves.
  Context {K Hi Lo : Type} (ko : KeyOps K Hi Lo).
  (** the high halves of an ascending list of keys, each once *)
  Definition highs (ks : list K) : list Hi :=
    fold_right (fun k hs =>
      let h := fst (k_split_val ko k) in
      match hs with
      | [] => [h]
      | h' :: _ => if eqb (hi_cmp ko) h h' then hs else h :: hs
      end) [] ks.
  (** the low halves of the keys with high half [h] *)
  Definition lows (h : Hi) (ks : list K) : list Lo :=
    map (fun k => snd (k_split_val ko k)) (filter (fun k => eqb (hi_cmp ko) (fst (k_split_val ko k)) h) ks).
End Halves.

(** A tree whose insertions into its summary and its children are subject to the tests [fS] and [fT] *)
Section TreeFits.
  Context {K Hi Lo : Type} (fixed : bool) (ko : KeyOps K Hi Lo) (fS : list Hi -> Hi -> bool) (fT : list Lo -> Lo -> bool).
  (** the key [p] goes to join the keys [m] between the extremes *)
  Definition fits_between (m : list K) (p : K) : bool :=
    match m with
    | [] => true
    | _ => let (h, l) := k_split_val ko p in
           match lows ko h m with
           | [] => fS (highs ko m) h
           | ls => fT ls l
           end
    end.
  (** [ks] is the ascending list of stored keys, [k] the key to be inserted *)
  Definition fits_tree (ks : list K) (k : K) : bool :=
    match ends ks with
    | None => true
    | Some (mn, m, mx) =>
        match k_cmp ko k mn, k_cmp ko k mx with
        | Eq, _ => true
        | Lt, _ => fixed && fits_between m mn
        | Gt, Eq => true
        | Gt, Lt => fits_between m k
        | Gt, Gt => fits_between m mx
        end
    end.
End TreeFits.

(** [fits T ks k]: [ks] is the ascending list of stored keys, [k] the key to be inserted *)
Fixpoint fits {B : Build} {fixed K V cmp O} (T : VebType fixed K V cmp O) : list K -> K -> bool :=
  match T in VebType _ K V cmp O return list K -> K -> bool with
  | VT_ByteSet _ | VT_ByteMap _ _ | VT_BTree _ _ _ _ _ => fun _ _ => true
  | VT_Tree _ _ _ _ _ ko _ _ _ _ TS TT _ => fits_tree fixed ko (fits TS) (fits TT)
  | VT_Box _ _ _ _ _ T' | VT_Sized _ _ _ _ _ T' => fits T'
  end.
(** the condition on insertions it makes *)
Definition adm_fits {B : Build} {fixed K V cmp O} (T : VebType fixed K V cmp O) (l : list (K * V)) (k : K) : Prop := fits T (keys l) k = true.

(** The conditions on insertions under which a tree type is claimed to be a sorted map: those that let only insertions pass
    that fit.  Such are (FitsCor.v, C43): any insertion, if no [Tree] is inside or if [Tree::insert] is corrected; at one
    level of [Tree], not below the minimum of two or more; ascending insertions in general; and [adm_fits] itself. *)
Definition allowed {B : Build} {fixed K V cmp O} (T : VebType fixed K V cmp O) (adm : list (K * V) -> K -> Prop) : Prop :=
  forall l k, ascending cmp l -> adm l k -> fits T (keys l) k = true.
