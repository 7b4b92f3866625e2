(** Driving an iterator: a sequence of calls of [next] ([false]) and [next_back] ([true]). *)
From Verif Require Import Base Ops Iter Types Coll Boxed BTree SizedT Tree.

Section Drive.
  Context {B : Build} {K V : Type} (O : VebOps K V) (keq : K -> K -> bool) (t : vt O).
  Definition it_call (d : bool) (it : Iter K) : res (Iter K * option (K * V)) :=
    if d then it_next_back O keq t it else it_next O keq t it.
  Fixpoint it_run (dirs : list bool) (it : Iter K) : res (Iter K * list (option (K * V))) :=
    match dirs with
    | [] => Ret (it, [])
    | d :: ds =>
        ' (it1, o) <- it_call d it ;;
        ' (it2, os) <- it_run ds it1 ;;
        Ret (it2, o :: os)
    end.
End Drive.

(** The types whose [len_hint] is exact: those that count (SizedVebTree: src/lib.rs 203-205; ByteSet: src/bitset/set.rs 123-125;
    BTreeMap: src/lib.rs 445-447), and boxes of them *)
Fixpoint counts {B : Build} {fixed K V cmp O} (T : VebType fixed K V cmp O) : bool :=
  match T with
  | VT_ByteSet _ | VT_BTree _ _ _ _ _ | VT_Sized _ _ _ _ _ _ => true
  | VT_ByteMap _ _ | VT_Tree _ _ _ _ _ _ _ _ _ _ _ _ _ => false
  | VT_Box _ _ _ _ _ T' => counts T'
  end.
