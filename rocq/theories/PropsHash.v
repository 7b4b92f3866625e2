(** C72: the hash collection over any hash map, whatever its hash function.

    [HashContract H]: the dictionary [H] of a hash map holds pairs, each key once (HashGen.v).  [HashOf H]: the library's collection over it.
    [Table_hash eq hash draw rows0 grow]: a table of rows, with any hash function of a seed and a key, any choice of seed and of the first
    size, any policy of growth.  [rehashed B' fam T]: the type [T] in the build [B'] with [fam] for all its hash maps.  [CollContract]: see C54. *)
From Verif Require Import Base Ints Ops Spec Key ByteSet ByteMap Coll Boxed BTree SizedT Tree Markers Laws Lists CollProofs
  KeyProofs Hist CollSpec Types HistProofs TypesProofs HistCor WrapProofs Concrete Iter IterSpec IterProofs Fits FitsCor Rel Open OpenCor HashGen HashGenCor.

(** ** C72 The hash collection is right over any correct hash map *)
Theorem C72_collection : forall (B : Build) Hi Lo V (Tr : VebOps Lo V) (H : HashOps Hi (vt Tr)) deq, HashContract H ->
  (forall a b, deq a b = true <-> a = b) -> inhabited (CollContract deq (HashOf H)).
Proof. exact (fun B Hi Lo V Tr H deq HC => @hash_contract B Hi Lo V Tr H HC deq). Qed.
Print Assumptions C72_collection.
(** a table of rows is such a map, whatever the hash function, the seeds, the sizes and the moments of growth *)
Theorem C72_table : forall Seed Hi T (eq : Hi -> Hi -> bool) (hash : Seed -> Hi -> N) (draw : Hi -> T -> Seed) rows0
  (grow : Table Seed Hi T -> option (Seed * nat)), (forall a b, eq a b = true <-> a = b) ->
  inhabited (HashContract (Table_hash eq hash draw rows0 grow)).
Proof. exact (fun Seed Hi T eq hash draw rows0 grow Heq => inhabits (Table_contract eq Heq hash draw rows0 grow)). Qed.
Print Assumptions C72_table.
(** so is the association list of the other files, and the collection over it is theirs *)
Theorem C72_assoc : forall (B : Build) Hi Lo V (eq : Hi -> Hi -> bool) (Tr : VebOps Lo V),
  ((forall a b, eq a b = true <-> a = b) -> inhabited (HashContract (Assoc_hash (vt Tr) eq))) /\
  let C := HashOf (Assoc_hash (vt Tr) eq) in let C' := Hash_coll eq Tr in
  (forall h t, c_create C h t = c_create C' h t) /\ (forall m h, c_get C m h = c_get C' m h) /\ (forall m h, c_get_mut C m h = c_get_mut C' m h) /\
  (forall m h lv, c_insert_key C m h lv = c_insert_key C' m h lv) /\ (forall m h f, c_remove_key C m h f = c_remove_key C' m h f) /\
  (forall m h f, c_maybe_remove_key C m h f = c_maybe_remove_key C' m h f).
Proof. exact (fun B Hi Lo V eq Tr => conj (fun Heq => inhabits (Assoc_contract eq Heq)) (assoc_same eq Tr)). Qed.
Print Assumptions C72_assoc.

(** ** Every history, the insertion defect included, gets the same answers whatever the hash maps and the builds *)
Theorem C72_same : forall (fam fam' : HashFamily),
  (forall Hi T eq, (forall a b : Hi, eq a b = true <-> a = b) -> HashContract (fam Hi T eq)) ->
  (forall Hi T eq, (forall a b : Hi, eq a b = true <-> a = b) -> HashContract (fam' Hi T eq)) ->
  forall B B1 B2 : Build, dbg (Build := B) = true -> (usize_bits (B := B) <= usize_bits (B := B1))%N -> (usize_bits (B := B) <= usize_bits (B := B2))%N ->
  forall fixed K V cmp (O : VebOps K V) (T : @VebType B fixed K V cmp O) cs, (N.of_nat (length cs) <= usize_max (B := B))%N ->
  exists ot ot' os, run (rehashed B1 fam T) cs None = Ret (ot, os) /\ run (rehashed B2 fam' T) cs None = Ret (ot', os) /\ (ot = None <-> ot' = None).
Proof. exact rehashed_two. Qed.
Print Assumptions C72_same.
(** ... the answers the type of the other files gives *)
Theorem C72_library : forall (fam : HashFamily),
  (forall Hi T eq, (forall a b : Hi, eq a b = true <-> a = b) -> HashContract (fam Hi T eq)) ->
  forall B B' : Build, dbg (Build := B) = true -> (usize_bits (B := B) <= usize_bits (B := B'))%N ->
  forall fixed K V cmp (O : VebOps K V) (T : @VebType B fixed K V cmp O) cs ot os, run O cs None = Ret (ot, os) ->
  exists ot', run (rehashed B' fam T) cs None = Ret (ot', os) /\ (ot = None <-> ot' = None).
Proof. exact (fun fam FC B B' Hd Hw fixed K V cmp O T => rehashed_run fam FC B' Hd Hw T). Qed.
Print Assumptions C72_library.
(** ... and their iterators, called from the two ends in any order, give the same pairs *)
Theorem C72_iter : forall (fam : HashFamily),
  (forall Hi T eq, (forall a b : Hi, eq a b = true <-> a = b) -> HashContract (fam Hi T eq)) ->
  forall B B' : Build, dbg (Build := B) = true -> (usize_bits (B := B) <= usize_bits (B := B'))%N ->
  forall fixed K V cmp (O : VebOps K V) (T : @VebType B fixed K V cmp O) cs t os t' os' dirs it ps,
  run O cs None = Ret (Some t, os) -> run (rehashed B' fam T) cs None = Ret (Some t', os') ->
  it_run (B := B) O (eqb cmp) t dirs it_new = Ret (it, ps) -> it_run (B := B') (rehashed B' fam T) (eqb cmp) t' dirs it_new = Ret (it, ps).
Proof.
  exact (fun fam FC B B' Hd Hw fixed K V cmp O T cs t os t' os' dirs it ps => rehashed_iter fam FC B' Hd Hw T cs t os t' os' dirs it ps (eqb cmp)).
Qed.
Print Assumptions C72_iter.
(** for tables the hash function is free at every type of keys *)
Theorem C72_any_hash : forall (Seed : Type -> Type -> Type) (hash : forall Hi T, (Hi -> Hi -> bool) -> Seed Hi T -> Hi -> N)
  (draw : forall Hi T, Hi -> T -> Seed Hi T) (rows0 : nat) (grow : forall Hi T, Table (Seed Hi T) Hi T -> option (Seed Hi T * nat)),
  forall B B' : Build, dbg (Build := B) = true -> (usize_bits (B := B) <= usize_bits (B := B'))%N ->
  forall fixed K V cmp (O : VebOps K V) (T : @VebType B fixed K V cmp O) cs, (N.of_nat (length cs) <= usize_max (B := B))%N ->
  exists ot ot' os, run O cs None = Ret (ot, os) /\
    run (rehashed B' (fun Hi T eq => Table_hash eq (hash Hi T eq) (draw Hi T) rows0 (grow Hi T)) T) cs None = Ret (ot', os) /\
    (ot = None <-> ot' = None).
Proof. exact (fun Seed hash draw rows0 grow B B' Hd Hw fixed K V cmp O T => rehashed_same _ (table_family hash draw rows0 grow) B' Hd Hw T). Qed.
Print Assumptions C72_any_hash.
(** so they are sorted maps wherever the library's types are (C49) *)
Theorem C72_sorted_map : forall (fam : HashFamily),
  (forall Hi T eq, (forall a b : Hi, eq a b = true <-> a = b) -> HashContract (fam Hi T eq)) ->
  forall B B' : Build, dbg (Build := B) = true -> (usize_bits (B := B) <= usize_bits (B := B'))%N ->
  forall fixed K V cmp (O : VebOps K V) (T : @VebType B fixed K V cmp O) adm cs, allowed T adm -> admissible (B := B) cmp adm cs [] ->
  exists ot, run (rehashed B' fam T) cs None = Ret (ot, snd (sp_run cmp cs [])) /\ (ot = None <-> fst (sp_run cmp cs []) = []).
Proof. exact rehashed_sorted. Qed.
Print Assumptions C72_sorted_map.

(** *** Two families of tables: one row for every key, and one that is seeded with the first key and moved at every insertion *)
Definition one_row : HashFamily := fun Hi T eq => Table_hash (Seed := unit) eq (fun _ _ => 0%N) (fun _ _ => tt) 0 (fun _ => None).
Definition restless : HashFamily := fun Hi T eq =>
  Table_hash (Seed := Hi) eq (fun s h => if eq s h then 5%N else 2%N) (fun h _ => h) 1
    (fun m => match rev (concat (tb_rows m)) with [] => None | (h, _) :: _ => Some (h, length (concat (tb_rows m))) end).
(** insertions below the minimum: the defect shows *)
Definition wild32 : list (op (u 32) N) :=
  [Insert (b32 300000) 2%N; Insert (b32 350000) 8%N; Insert (b32 320000) 9%N; Insert (b32 70000) 1%N; Insert (b32 300000) 2%N; Insert (b32 5) 3%N; Insert (b32 70001) 4%N; Insert (b32 4000000) 5%N; Insert (b32 131072) 6%N;
   Insert (b32 70000) 7%N; Min; Max; Pred (b32 70001); Succ (b32 5); Succ (b32 0); Find (b32 5); FindMut (b32 300000) 8%N; PredMut (b32 300001) 9%N;
   Remove (b32 300000); Remove (b32 300000); Insert (b32 300001) 10%N; Remove (b32 70000); RemoveMin; Succ (b32 0); RemoveMax; RemoveMin; IsMonad; RemoveMin; RemoveMin; RemoveMin; RemoveMin].
Example C72_case :
  (forall Hi T eq, (forall a b : Hi, eq a b = true <-> a = b) -> inhabited (HashContract (one_row Hi T eq)) /\ inhabited (HashContract (restless Hi T eq))) /\
  map show (answers (run (rehashed debug_build one_row (TH32 false N)) wild32 None)) = map show (answers (run (H32 false N) wild32 None)) /\
  map show (answers (run (rehashed release_build restless (TH32 false N)) wild32 None)) = map show (answers (run (H32 false N) wild32 None)) /\
  map show (answers (run (H32 false N) wild32 None)) <> map show (snd (sp_run u_cmp wild32 [])) /\
  map show (answers (run (rehashed debug_build restless (TH32 true N)) wild32 None)) = map show (snd (sp_run u_cmp wild32 [])).
Proof.
  split; [intros Hi T eq Heq; split; apply inhabits, Table_contract, Heq|].
  split; [vm_compute; reflexivity|]. split; [vm_compute; reflexivity|]. split; [vm_compute; discriminate|vm_compute; reflexivity].
Qed.
(** a table of byte sets with a hash function of the usual kind: five keys in four rows, then one of the trees emptied *)
Definition mixed : HashOps (u 8) (vt M8E) :=
  Table_hash (Seed := N) u_eqb (fun s h => (uval h * 31 + s)%N) (fun h _ => uval h) 3 (fun _ => None).
Definition put_in (m : Table N (u 8) (vt M8E)) (h l : N) : Table N (u 8) (vt M8E) :=
  match c_insert_key (HashOf mixed) m (b8 h) (b8 l, tt) with Ret (m', _) => m' | Panic => m end.
Definition filled : Table N (u 8) (vt M8E) :=
  fold_left (fun m h => put_in m h (h + 1)) [7; 11; 200; 90; 7]%N (match c_create (HashOf mixed) (b8 7) (v_from_monad M8E (b8 3) tt) with Ret m => m | Panic => h_one mixed (b8 0) (v_from_monad M8E (b8 0) tt) end).
Example C72_table_case : inhabited (HashContract mixed) /\
  map (map (fun p => uval (fst p))) (tb_rows filled) = [[11; 7]; [90]; []; [200]]%N /\ h_len mixed filled = 4%N /\
  match c_remove_key (HashOf mixed) filled (b8 11) (fun t => v_remove_min M8E t) with
  | Ret (Some (m, true), p) => map (map (fun p => uval (fst p))) (tb_rows m) = [[7]; [90]; []; [200]]%N /\ uval (fst p) = 12%N
  | _ => False
  end.
Proof. split; [apply inhabits, Table_contract, u_eqb_eq|]. vm_compute. repeat split. Qed.
(** ** Without agreement of the hash with [==] it fails: a tree kept under a key is not found under a key equal to it
    ([Hash] is a public trait, and [Hi: Clone + Eq + Hash] all that is asked: hash.rs 28, 37) *)
Theorem C72_hash_refuted : exists (eq : N * N -> N * N -> bool) (hash : unit -> N * N -> N) (h h' : N * N) m,
  (forall a b, eq a b = (fst a =? fst b)%N) /\ eq h h' = true /\
  c_create (HashOf (B := debug_build) (Tr := M8E) (Table_hash eq hash (fun _ _ => tt) 1 (fun _ => None))) h (v_from_monad M8E (b8 3) tt) = Ret m /\
  c_get (HashOf (B := debug_build) (Tr := M8E) (Table_hash eq hash (fun _ _ => tt) 1 (fun _ => None))) m h' = Ret None.
Proof.
  exists (fun a b => (fst a =? fst b)%N), (fun _ h => snd h), (1, 0)%N, (1, 1)%N. eexists.
  split; [reflexivity|]. split; [reflexivity|]. split; [reflexivity|]. vm_compute. reflexivity.
Qed.
Print Assumptions C72_hash_refuted.
