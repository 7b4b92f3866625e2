(** The provided methods that std builds from [next], [next_back] and [size_hint] of the iterator (src/iter.rs 37-195, src/lib.rs 166).
    std is outside the crate: the loops are its documented default bodies. *)
From Verif Require Import Base Ops Iter IterSpec.

Section Use.
  Context {B : Build} {K V : Type} (O : VebOps K V) (keq : K -> K -> bool) (t : vt O).

  (** [ExactSizeIterator::len] of [impl ExactSizeIterator for Iter<SizedVebTree<V>> {}] (src/lib.rs 166):
      [let (lower, upper) = self.size_hint(); assert_eq!(upper, Some(lower)); lower] *)
  Definition it_len (it : Iter K) : res N :=
    ' (lo, hi) <- it_size_hint O t it ;;
    match hi with
    | Some h => if (h =? lo)%N then Ret lo else Panic
    | None => Panic
    end.

  (** [nth(n)] and [nth_back(n)] of src/iter.rs 37-123, 125-195 (provided): [n] items thrown away, ending early at [None], then one more *)
  Fixpoint it_nth (d : bool) (n : nat) (it : Iter K) : res (Iter K * option (K * V)) :=
    match n with
    | 0 => it_call O keq t d it
    | Datatypes.S n' =>
        ' (it1, o) <- it_call O keq t d it ;;
        match o with
        | Some _ => it_nth d n' it1
        | None => Ret (it1, None)
        end
    end.

  (** [try_fold] and [try_rfold] of src/iter.rs 37-123, 125-195 (provided): [while let Some(x) = self.next() { acc = f(acc, x)?; }].
      The closure [f] goes on ([inl]), breaks off ([inr]) or panics.  A relation and not a function, since the loop need not end.
      for loops, fold, collect, count, last, find, any, all, position, min_by, max_by and rev are this loop with some [f]. *)
  Inductive loops {A X : Type} (d : bool) (f : A -> K * V -> res (A + X)) : Iter K -> A -> res (Iter K * (A + X)) -> Prop :=
  | L_end it a it' : it_call O keq t d it = Ret (it', None) -> loops d f it a (Ret (it', inl a))
  | L_next it a it1 p a1 r : it_call O keq t d it = Ret (it1, Some p) -> f a p = Ret (inl a1) -> loops d f it1 a1 r -> loops d f it a r
  | L_break it a it1 p x : it_call O keq t d it = Ret (it1, Some p) -> f a p = Ret (inr x) -> loops d f it a (Ret (it1, inr x))
  | L_closure it a it1 p : it_call O keq t d it = Ret (it1, Some p) -> f a p = Panic -> loops d f it a Panic
  | L_panic it a : it_call O keq t d it = Panic -> loops d f it a Panic.
End Use.

(** Specification: the same on a list, with what is left of it *)
Fixpoint sp_loop {A X E : Type} (f : A -> E -> res (A + X)) (l : list E) (a : A) : res (list E * (A + X)) :=
  match l with
  | [] => Ret ([], inl a)
  | p :: l' => s <- f a p ;; match s with inl a' => sp_loop f l' a' | inr x => Ret (l', inr x) end
  end.
(** from the other end: the reversed list *)
Definition sp_rloop {A X E : Type} (f : A -> E -> res (A + X)) (l : list E) (a : A) : res (list E * (A + X)) :=
  ' (r, s) <- sp_loop f (rev l) a ;; Ret (rev r, s).
(** an iterator of which the items [l] are left: whatever is asked of it next *)
Definition leaves {B : Build} {K V} (O : VebOps K V) (keq : K -> K -> bool) (t : vt O) (it : Iter K) (l : list (K * V)) : Prop :=
  forall dirs, exists it', it_run O keq t dirs it = Ret (it', fst (Spec.sp_pops dirs l)).
