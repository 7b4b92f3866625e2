(** Model of the operations that the benchmark compares (benches/random/main.rs 25-145) and of the two structures it
    fills for that (main.rs 168-188), and what sorted association lists answer.
    The benchmark is for [u32] keys and [()] values; here keys, values and the tree inside [SizedVebTree] are arbitrary.
    A call that gives a [&mut Data] is followed by a write of the call's last argument.
    Not modelled: criterion, the timing, the profiler (perf.rs), and the random numbers, which are arbitrary inputs here. *)
From Verif Require Import Base Ints Spec Ops Boxed SizedT BTree Hist Markers Types Fits Concrete.

Section Bench.
  Context {K V : Type}.
  (** trait VEBOperations (main.rs 26-36) *)
  Record BenchOps : Type := {
    b_t : Type;
    b_len : b_t -> res N;
    b_insert : b_t -> K -> res (b_t * option V);
    b_remove : b_t -> K -> res (b_t * option V);
    b_find : b_t -> K -> res (option V);
    b_next : b_t -> K -> res (option (K * V));
    b_prev : b_t -> K -> res (option (K * V));
    b_find_mut : b_t -> K -> res (option (V * (V -> b_t)));
    b_next_mut : b_t -> K -> res (option (K * V * (V -> b_t)));
    b_prev_mut : b_t -> K -> res (option (K * V * (V -> b_t)))
  }.

  Definition drop_key {X} (o : option (K * V * X)) : option (V * X) :=
    match o with Some (_, v, x) => Some (v, x) | None => None end.

  (** impl VEBOperations for Option<U32Tree> (main.rs 38-102); [U32Tree] is a [SizedVebTree] *)
  Section Veb.
    Context {Bd : Build} (O : VebOps K V) (data : V).
    Notation T := (sized (vt O)).
    Notation S' := (Sized_ops O).
    Definition on_tree {X} (m : T -> res (option X)) (ot : option T) : res (option X) :=
      match ot with Some t => m t | None => Ret None end.
    Definition put_back {X} (o : option (X * (V -> T))) : option (X * (V -> option T)) :=
      match o with Some (x, put) => Some (x, fun w => Some (put w)) | None => None end.
    Definition veb_insert (ot : option T) (k : K) : res (option T * option V) :=      (* main.rs 42-52 *)
      match ot with
      | Some t => ' (t', r) <- v_insert S' t k data ;; Ret (Some t', omap snd r)
      | None => Ret (Some (v_from_monad S' k data), None)
      end.
    Definition veb_remove (ot : option T) (k : K) : res (option T * option V) :=      (* main.rs 54-69 *)
      match ot with
      | None => Ret (None, None)
      | Some t =>
          r <- v_remove S' t k ;;
          match r with
          | Err t' => Ret (Some t', None)
          | Ok (ot', p) => Ret (ot', Some (snd p))
          end
      end.
    Definition veb_bench : BenchOps :=
      {| b_t := option T;
         b_len := fun ot => Ret (match ot with Some t => sz_len t | None => 0%N end);  (* main.rs 39-41 *)
         b_insert := veb_insert;
         b_remove := veb_remove;
         b_find := fun ot k => rmap (omap snd) (on_tree (fun t => v_find S' t k) ot);  (* main.rs 71-73 *)
         b_next := fun ot k => on_tree (fun t => v_successor S' t k) ot;              (* main.rs 75-79 *)
         b_prev := fun ot k => on_tree (fun t => v_predecessor S' t k) ot;            (* main.rs 81-85 *)
         b_find_mut := fun ot k =>                                                    (* main.rs 87-89 *)
           rmap (fun o => drop_key (put_back o)) (on_tree (fun t => v_find_mut S' t k) ot);
         b_next_mut := fun ot k => rmap put_back (on_tree (fun t => v_successor_mut S' t k) ot);   (* main.rs 91-95 *)
         b_prev_mut := fun ot k => rmap put_back (on_tree (fun t => v_predecessor_mut S' t k) ot)  (* main.rs 97-101 *) |}.
  End Veb.

  (** impl VEBOperations for BTreeSetWrapper (main.rs 103-145) *)
  Section BTreeSet.
    Context (cmp : K -> K -> comparison) (data : V).
    Notation M := (list (K * V)).
    (** [range(k..).next()] *)
    Fixpoint map_range_ge (m : M) (k : K) : option (K * V) :=
      match m with
      | [] => None
      | (k', v') :: m' => match cmp k' k with Lt => map_range_ge m' k | _ => Some (k', v') end
      end.
    (** [range(..=k).next_back()] *)
    Fixpoint map_range_le_back (m : M) (k : K) : option (K * V) :=
      match m with
      | [] => None
      | (k', v') :: m' =>
          match cmp k' k with
          | Gt => None
          | _ => match map_range_le_back m' k with Some p => Some p | None => Some (k', v') end
          end
      end.
    Definition btree_bench : BenchOps :=
      {| b_t := M;
         b_len := fun m => Ret (N.of_nat (length m));                                 (* main.rs 106-108 *)
         b_insert := fun m k => Ret (map_insert cmp m k data, omap snd (map_get cmp m k));  (* main.rs 109-111 *)
         b_remove := fun m k => Ret (map_del cmp m k, omap snd (map_get cmp m k));    (* main.rs 113-115 *)
         b_find := fun m k => Ret (omap snd (map_get cmp m k));                       (* main.rs 117-119 *)
         b_next := fun m k => Ret (map_range_ge m k);                                 (* main.rs 121-123 *)
         b_prev := fun m k => Ret (map_range_le_back m k);                            (* main.rs 125-127 *)
         b_find_mut := fun m k => Ret (drop_key (opt_put cmp m (map_get cmp m k)));   (* main.rs 129-131 *)
         b_next_mut := fun m k => Ret (opt_put cmp m (map_range_ge m k));             (* main.rs 133-135 *)
         b_prev_mut := fun m k => Ret (opt_put cmp m (map_range_le_back m k))         (* main.rs 137-144 *) |}.
  End BTreeSet.

  (** *** Histories of these calls *)
  Inductive bop : Type :=
  | BLen | BInsert (k : K) | BRemove (k : K) | BFind (k : K) | BNext (k : K) | BPrev (k : K)
  | BFindMut (k : K) (w : V) | BNextMut (k : K) (w : V) | BPrevMut (k : K) (w : V).
  Inductive bout : Type := BN (n : N) | BV (o : option V) | BP (o : option (K * V)).

  Definition b_write {B : BenchOps} {X} (f : option X -> bout) (b : b_t B) (o : option (X * (V -> b_t B))) (w : V) : b_t B * bout :=
    match o with Some (x, put) => (put w, f (Some x)) | None => (b, f None) end.
  Definition b_step (B : BenchOps) (c : bop) (b : b_t B) : res (b_t B * bout) :=
    match c with
    | BLen => n <- b_len B b ;; Ret (b, BN n)
    | BInsert k => ' (b', o) <- b_insert B b k ;; Ret (b', BV o)
    | BRemove k => ' (b', o) <- b_remove B b k ;; Ret (b', BV o)
    | BFind k => o <- b_find B b k ;; Ret (b, BV o)
    | BNext k => o <- b_next B b k ;; Ret (b, BP o)
    | BPrev k => o <- b_prev B b k ;; Ret (b, BP o)
    | BFindMut k w => o <- b_find_mut B b k ;; Ret (b_write BV b o w)
    | BNextMut k w => o <- b_next_mut B b k ;; Ret (b_write BP b o w)
    | BPrevMut k w => o <- b_prev_mut B b k ;; Ret (b_write BP b o w)
    end.
  Fixpoint b_run (B : BenchOps) (cs : list bop) (b : b_t B) : res (b_t B * list bout) :=
    match cs with
    | [] => Ret (b, [])
    | c :: cs' =>
        ' (b1, o) <- b_step B c b ;;
        ' (b2, os) <- b_run B cs' b1 ;;
        Ret (b2, o :: os)
    end.

  (** veb_maker and btree_maker (main.rs 168-188): the keys [xs] in turn, each inserted if its coin says so *)
  Definition fill (xs : list K) (coin : K -> bool) : list bop := map BInsert (filter coin xs).

  (** *** The specification, on ascending association lists *)
  Section Sp.
    Context (cmp : K -> K -> comparison) (data : V).
    Notation L := (list (K * V)).
    (** the first pair with a key not below [k], the last with a key not above [k] *)
    Definition sp_ge (k : K) (l : L) : option (K * V) := hd_error (filter (fun p => negb (ltb cmp (fst p) k)) l).
    Definition sp_le (k : K) (l : L) : option (K * V) := last_error (filter (fun p => negb (ltb cmp k (fst p))) l).
    (** does "next" mean "this or the next"? *)
    Context (incl : bool).
    Definition sp_next (k : K) (l : L) := if incl then sp_ge k l else sp_succ cmp k l.
    Definition sp_prev (k : K) (l : L) := if incl then sp_le k l else sp_pred cmp k l.
    Definition sp_put (o : option (K * V)) (w : V) (l : L) : L :=
      match o with Some p => sp_write cmp (fst p) w l | None => l end.
    Definition sp_bstep (c : bop) (l : L) : L * bout :=
      match c with
      | BLen => (l, BN (N.of_nat (length l)))
      | BInsert k => (sp_insert cmp k data l, BV (omap snd (sp_find cmp k l)))
      | BRemove k => (sp_remove cmp k l, BV (omap snd (sp_find cmp k l)))
      | BFind k => (l, BV (omap snd (sp_find cmp k l)))
      | BNext k => (l, BP (sp_next k l))
      | BPrev k => (l, BP (sp_prev k l))
      | BFindMut k w => (sp_put (sp_find cmp k l) w l, BV (omap snd (sp_find cmp k l)))
      | BNextMut k w => (sp_put (sp_next k l) w l, BP (sp_next k l))
      | BPrevMut k w => (sp_put (sp_prev k l) w l, BP (sp_prev k l))
      end.
    Fixpoint sp_brun (cs : list bop) (l : L) : L * list bout :=
      match cs with
      | [] => (l, [])
      | c :: cs' =>
          let (l1, o) := sp_bstep c l in
          let (l2, os) := sp_brun cs' l1 in
          (l2, o :: os)
      end.

    (** every insertion satisfies [adm] and finds room for a size *)
    Fixpoint b_admissible {Bd : Build} (adm : L -> K -> Prop) (cs : list bop) (l : L) : Prop :=
      match cs with
      | [] => True
      | c :: cs' =>
          match c with BInsert k => adm l k /\ (N.of_nat (length l) < usize_max)%N | _ => True end /\
          b_admissible adm cs' (fst (sp_bstep c l))
      end.
    (** every call of next or prev is made at a key that is not stored *)
    Fixpoint at_gaps (cs : list bop) (l : L) : Prop :=
      match cs with
      | [] => True
      | c :: cs' =>
          match c with BNext k | BPrev k | BNextMut k _ | BPrevMut k _ => ~ In k (keys l) | _ => True end /\
          at_gaps cs' (fst (sp_bstep c l))
      end.
  End Sp.
End Bench.
(** calls other than insertions *)
Definition no_insert {K V} (c : bop (K := K) (V := V)) : Prop := match c with BInsert _ => False | _ => True end.
(** insertions above all keys, or accepted by [fits] *)
Definition adm_ok {B : Build} {fixed K V cmp O} (T : VebType fixed K V cmp O) (l : list (K * V)) (k : K) : Prop :=
  adm_ascending cmp l k \/ fits T (keys l) k = true.
Arguments BenchOps : clear implicits.
Arguments bop : clear implicits.
Arguments bout : clear implicits.

(** [U32TreeSet] (benches/random/main.rs 14, 23) is [SizedVebTree] of this *)
Definition U32Set {B : Build} : VebOps (u 32) unit := M32E false.
Definition TU32 {B : Build} {W : Wide (2 ^ 16)} : VebType false (u 32) unit u_cmp U32Set := T32E false.
(** the keys of [0..1 << bits] (main.rs 170, 181) *)
Definition keys32 (bits : nat) : list (u 32) := map (fun n => wrap 32 (N.of_nat n)) (seq 0 (2 ^ bits)).
