(** Basic vocabulary of the model: panics, results, comparisons, machine words. *)
From Coq Require Export List Arith NArith ZArith Lia Bool Permutation Sorted.
Export ListNotations.

(** A computation of the modelled program either returns or panics.  A failed [debug_assert!] and an
    arithmetic overflow are panics as well in a build that checks them (see [Build] below). *)
Inductive res (A : Type) : Type :=
| Ret (a : A)
| Panic.
Arguments Ret {A} a.
Arguments Panic {A}.

Definition bind {A B} (m : res A) (f : A -> res B) : res B :=
  match m with
  | Ret a => f a
  | Panic => Panic
  end.

Declare Scope res_scope.
Delimit Scope res_scope with res.
Notation "x <- m ;; k" := (bind m (fun x => k))
  (at level 61, m at next level, right associativity) : res_scope.
Notation "' p <- m ;; k" := (bind m (fun x => match x with p => k end))
  (at level 61, p pattern, m at next level, right associativity) : res_scope.
Open Scope res_scope.

(** Rust's [Option::expect] / [unwrap] *)
Definition expect {A} (o : option A) : res A :=
  match o with
  | Some a => Ret a
  | None => Panic
  end.

(** How wide a pointer of the target is, in bits, and so [usize]: the widths the crate has code for (src/key.rs 160, 207, 254-258, 309-314) *)
Inductive Pointer : Type := P16 | P32 | P64 | P128.

(** How the crate is compiled: with [debug_assertions] and [overflow-checks] (the default of [cargo build] and
    [cargo test], [true]) or without (the default of [cargo build --release] and [cargo bench], [false];
    /repo/Cargo.toml changes neither), and for which target.  A definition that does not name a build is about the checked one of a
    64-bit target. *)
Class Build : Type := { dbg : bool; ptr : Pointer }.
Definition debug_build : Build := {| dbg := true; ptr := P64 |}.
Definition release_build : Build := {| dbg := false; ptr := P64 |}.

(** Rust's [debug_assert!]: skipped in a release build *)
Definition debug_assert {B : Build} (b : bool) : res unit :=
  if b then Ret tt else if dbg then Panic else Ret tt.

(** [usize] *)
Definition usize_bits {B : Build} : N :=
  match ptr with P16 => 16 | P32 => 32 | P64 => 64 | P128 => 128 end.
Definition usize_max {B : Build} : N := 2 ^ usize_bits - 1.

(** [n] is a [usize] of the target *)
Class Wide {B : Build} (n : N) : Prop := wide : (n <= usize_max)%N.

(** [a - b] of unsigned integers: on underflow it panics if overflow is checked and wraps otherwise.  The wrapped
    value is that of [usize]; the two uses at [u32] (src/bitset/set.rs 45, 47) cut the result to a [u8], where
    the width makes no difference. *)
Definition checked_sub {B : Build} (a b : N) : res N :=
  if (b <=? a)%N then Ret (a - b)%N else if dbg then Panic else Ret ((a + 2 ^ usize_bits - b) mod 2 ^ usize_bits)%N.
(** [a + b] in [usize]: on overflow it panics if overflow is checked and wraps otherwise. *)
Definition usize_add {B : Build} (a b : N) : res N :=
  if (a + b <=? usize_max)%N then Ret (a + b)%N else if dbg then Panic else Ret ((a + b) mod 2 ^ usize_bits)%N.
(** [usize::checked_add] (and [NonZeroUsize]'s): no build makes it wrap *)
Definition checked_add {B : Build} (a b : N) : option N := if (a + b <=? usize_max)%N then Some (a + b)%N else None.

(** Rust's [Result<A, E>] *)
Inductive result (A E : Type) : Type :=
| Ok (a : A)
| Err (e : E).
Arguments Ok {A E} a.
Arguments Err {A E} e.

(** Rust's [Ord] contract, for keys whose equality is identity. *)
Record OrdLaws {K : Type} (cmp : K -> K -> comparison) : Prop := {
  cmp_eq : forall a b, cmp a b = Eq <-> a = b;
  cmp_opp : forall a b, cmp b a = CompOpp (cmp a b);
  cmp_trans : forall a b c, cmp a b = Lt -> cmp b c = Lt -> cmp a c = Lt
}.
Arguments cmp_eq {K cmp}.
Arguments cmp_opp {K cmp}.
Arguments cmp_trans {K cmp}.

(** The operators [<], [<=], [==] that Rust derives from [Ord::cmp]. *)
Definition ltb {K} (cmp : K -> K -> comparison) (a b : K) : bool :=
  match cmp a b with Lt => true | _ => false end.
Definition leb {K} (cmp : K -> K -> comparison) (a b : K) : bool :=
  match cmp a b with Gt => false | _ => true end.
Definition eqb {K} (cmp : K -> K -> comparison) (a b : K) : bool :=
  match cmp a b with Eq => true | _ => false end.
