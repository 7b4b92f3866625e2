(** C75: the hash collection over one array of slots, probed by groups, with tombstones.

    [Swiss_hash w eq hash tag draw bits0 policy]: a hash map in the layout of hashbrown (Probe.v), with groups of [2 ^ w] slots, any hash function of a
    seed and a key, any tag, any choice of seed and of the first size, any wish for the size at a rebuilding.  [HashContract]: see C72.
    [sw_made]: the tables a program can come to.  [sw_find] and [sw_free] are the two loops over the groups: [None] is a loop that does not end. *)
From Verif Require Import Base Ints Ops Spec Key ByteSet ByteMap Coll Boxed BTree SizedT Tree Markers Laws Lists CollProofs
  KeyProofs Hist CollSpec Types HistProofs TypesProofs HistCor WrapProofs Concrete Iter IterSpec IterProofs Fits FitsCor Rel Open OpenCor HashGen HashGenCor
  Probe ProbeCor PropsHash.

(** ** C75 A probed table with tombstones is a correct hash map *)
Theorem C75_contract : forall w Seed Hi T (eq : Hi -> Hi -> bool) (hash : Seed -> Hi -> N) tag (draw : Hi -> T -> Seed) bits0
  (policy : Swiss Seed Hi T -> nat), (forall a b, eq a b = true <-> a = b) ->
  inhabited (HashContract (Swiss_hash w eq hash tag draw bits0 policy)).
Proof. exact (fun w Seed Hi T eq hash tag draw bits0 policy Heq => inhabits (Swiss_contract w eq Heq hash tag draw bits0 policy)). Qed.
Print Assumptions C75_contract.
(** so the library's collection over it is right *)
Theorem C75_collection : forall (B : Build) w Seed Hi Lo V (Tr : VebOps Lo V) (eq : Hi -> Hi -> bool) (hash : Seed -> Hi -> N) tag
  (draw : Hi -> vt Tr -> Seed) bits0 (policy : Swiss Seed Hi (vt Tr) -> nat), (forall a b, eq a b = true <-> a = b) ->
  inhabited (CollContract eq (HashOf (Swiss_hash w eq hash tag draw bits0 policy))).
Proof.
  exact (fun B w Seed Hi Lo V Tr eq hash tag draw bits0 policy Heq =>
    @hash_contract B Hi Lo V Tr _ (Swiss_contract w eq Heq hash tag draw bits0 policy) eq Heq).
Qed.
Print Assumptions C75_collection.
(** the two loops end on every table a program can come to, for every key *)
Theorem C75_ends : forall w Seed Hi T (eq : Hi -> Hi -> bool) (hash : Seed -> Hi -> N) tag (draw : Hi -> T -> Seed) bits0
  (policy : Swiss Seed Hi T -> nat), (forall a b, eq a b = true <-> a = b) ->
  forall m h, sw_made w eq hash tag draw bits0 policy m -> sw_find w eq hash tag m h <> None /\ sw_free w hash m h <> None.
Proof. exact (fun w Seed Hi T eq hash tag draw bits0 policy Heq => made_ends w eq Heq hash tag draw bits0 policy). Qed.
Print Assumptions C75_ends.
(** because no table is ever full: pairs, tombstones and what is left make up the room *)
Theorem C75_load : forall w Seed Hi T (eq : Hi -> Hi -> bool) (hash : Seed -> Hi -> N) tag (draw : Hi -> T -> Seed) bits0
  (policy : Swiss Seed Hi T -> nat), (forall a b, eq a b = true <-> a = b) ->
  forall m, sw_made w eq hash tag draw bits0 policy m -> length (sw_slots m) = 2 ^ sw_bits m /\
    sw_items m + sw_left m + length (filter is_tomb (sw_slots m)) = room (2 ^ sw_bits m) /\ room (2 ^ sw_bits m) < 2 ^ sw_bits m /\
    sw_items m = length (pairs_of (sw_slots m)) /\ In SEmpty (sw_slots m).
Proof. exact (fun w Seed Hi T eq hash tag draw bits0 policy Heq => made_load w eq Heq hash tag draw bits0 policy). Qed.
Print Assumptions C75_load.
(** and because steps that grow by one group each time come by every group of a power of two *)
Theorem C75_triangular : forall c q, q < 2 ^ c -> exists i, i < 2 ^ c /\ (i * (i + 1) / 2) mod 2 ^ c = q.
Proof. exact triangular. Qed.
Print Assumptions C75_triangular.

(** ** Every history, the insertion defect included, gets the same answers as over the maps of the other files *)
Theorem C75_same : forall w (Seed : Type -> Type -> Type) (hash : forall Hi T, (Hi -> Hi -> bool) -> Seed Hi T -> Hi -> N) tag
  (draw : forall Hi T, Hi -> T -> Seed Hi T) bits0 (policy : forall Hi T, Swiss (Seed Hi T) Hi T -> nat),
  forall B B' : Build, dbg (Build := B) = true -> (usize_bits (B := B) <= usize_bits (B := B'))%N ->
  forall fixed K V cmp (O : VebOps K V) (T : @VebType B fixed K V cmp O) cs, (N.of_nat (length cs) <= usize_max (B := B))%N ->
  exists ot ot' os, run O cs None = Ret (ot, os) /\
    run (rehashed B' (fun Hi T eq => Swiss_hash w eq (hash Hi T eq) tag (draw Hi T) bits0 (policy Hi T)) T) cs None = Ret (ot', os) /\
    (ot = None <-> ot' = None).
Proof.
  exact (fun w Seed hash tag draw bits0 policy B B' Hd Hw fixed K V cmp O T => rehashed_same _ (swiss_family w hash tag draw bits0 policy) B' Hd Hw T).
Qed.
Print Assumptions C75_same.
(** so they are sorted maps wherever the library's types are (C49) *)
Theorem C75_sorted_map : forall w (Seed : Type -> Type -> Type) (hash : forall Hi T, (Hi -> Hi -> bool) -> Seed Hi T -> Hi -> N) tag
  (draw : forall Hi T, Hi -> T -> Seed Hi T) bits0 (policy : forall Hi T, Swiss (Seed Hi T) Hi T -> nat),
  forall B B' : Build, dbg (Build := B) = true -> (usize_bits (B := B) <= usize_bits (B := B'))%N ->
  forall fixed K V cmp (O : VebOps K V) (T : @VebType B fixed K V cmp O) adm cs, allowed T adm -> admissible (B := B) cmp adm cs [] ->
  exists ot, run (rehashed B' (fun Hi T eq => Swiss_hash w eq (hash Hi T eq) tag (draw Hi T) bits0 (policy Hi T)) T) cs None =
      Ret (ot, snd (sp_run cmp cs [])) /\ (ot = None <-> fst (sp_run cmp cs []) = []).
Proof.
  exact (fun w Seed hash tag draw bits0 policy => rehashed_sorted _ (swiss_family w hash tag draw bits0 policy)).
Qed.
Print Assumptions C75_sorted_map.

(** *** Two families: all keys collide, one slot per group; and groups of four in tables that begin with two slots, one tag for all *)
Definition colliding : HashFamily := fun Hi T eq => Swiss_hash (Seed := unit) 0 eq (fun _ _ => 3%N) (fun h => h) (fun _ _ => tt) 1 (fun m => sw_bits m).
Definition grouped : HashFamily := fun Hi T eq =>
  Swiss_hash (Seed := Hi) 2 eq (fun s h => if eq s h then 5%N else 2%N) (fun _ => 0%N) (fun h _ => h) 0 (fun _ => 0).
Example C75_case :
  map show (answers (run (rehashed debug_build colliding (TH32 false N)) wild32 None)) = map show (answers (run (H32 false N) wild32 None)) /\
  map show (answers (run (rehashed release_build grouped (TH32 false N)) wild32 None)) = map show (answers (run (H32 false N) wild32 None)) /\
  map show (answers (run (rehashed debug_build grouped (TH32 true N)) wild32 None)) = map show (snd (sp_run u_cmp wild32 [])).
Proof. split; [vm_compute; reflexivity|]. split; [vm_compute; reflexivity|]. vm_compute. reflexivity. Qed.

(** Keys [0, 1, 2, ...] whose hash is the key, in groups of four: eight slots, seven of them filled, then the third is erased and becomes a
    tombstone, and the next key is put there.  In a table with three keys erasing leaves no tombstone. *)
Definition plain_hash (policy : Swiss unit N N -> nat) : HashOps N N :=
  Swiss_hash (Seed := unit) 2 N.eqb (fun _ h => h) (fun h => (h mod 128)%N) (fun _ _ => tt) 2 policy.
Definition plain_put (m : Swiss unit N N) (h : N) : Swiss unit N N :=
  sw_insert 2 (fun _ h => h) (fun h => (h mod 128)%N) (fun m => sw_bits m) m h (h * 10)%N.
Definition plain_row (l : list N) : Swiss unit N N := fold_left plain_put l (h_one (plain_hash (fun m => sw_bits m)) 0%N 0%N).
Definition seen (s : Slot N N) : N := match s with SEmpty => 255 | SDeleted => 128 | SFull _ h _ => h end.
Definition erased (m : Swiss unit N N) (h : N) : Swiss unit N N :=
  match h_entry (plain_hash (fun m => sw_bits m)) m h with Occupied _ _ rep => fst (rep None) | Vacant _ => m end.
Example C75_slots_case :
  map seen (sw_slots (plain_row [1; 2; 3; 4; 5; 6]%N)) = [0; 1; 2; 3; 4; 5; 6; 255]%N /\
  map seen (sw_slots (erased (plain_row [1; 2; 3; 4; 5; 6]%N) 2%N)) = [0; 1; 128; 3; 4; 5; 6; 255]%N /\
  map seen (sw_slots (plain_put (erased (plain_row [1; 2; 3; 4; 5; 6]%N) 2%N) 10%N)) = [0; 1; 10; 3; 4; 5; 6; 255]%N /\
  map seen (sw_slots (erased (plain_row [1; 2]%N) 1%N)) = [0; 255; 2; 255; 255; 255; 255; 255]%N /\
  (let m := plain_put (plain_row [1; 2; 3; 4; 5; 6]%N) 8%N in
   map seen (sw_slots m) = [0; 1; 2; 3; 4; 5; 6; 255; 8; 255; 255; 255; 255; 255; 255; 255]%N /\ sw_items m = 8 /\ sw_left m = 6) /\
  h_get (plain_hash (fun m => sw_bits m)) (plain_put (erased (plain_row [1; 2; 3; 4; 5; 6]%N) 2%N) 10%N) 10%N = Some 100%N.
Proof. vm_compute. repeat split. Qed.
(** ** Tombstones are needed: where the slot of a removed pair is made empty whatever is around it, another pair is lost *)
Theorem C75_no_tombstones_refuted : exists (m : Swiss unit N N) h h' i t,
  sw_made 0 N.eqb (fun _ _ => 0%N) (fun x => x) (fun _ _ => tt) 1 (fun m => sw_bits m) m /\ h <> h' /\
  sw_lookup 0 N.eqb (fun _ _ => 0%N) (fun x => x) m h = Some (i, t) /\
  (exists i' t', sw_lookup 0 N.eqb (fun _ _ => 0%N) (fun x => x) m h' = Some (i', t') /\
     sw_lookup 0 N.eqb (fun _ _ => 0%N) (fun x => x) (fst (sw_replace 0 m i None)) h' = Some (i', t')) /\
  sw_lookup 0 N.eqb (fun _ _ => 0%N) (fun x => x) (SW (sw_seed m) (sw_bits m) (set_slot m i SEmpty) (sw_items m - 1) (S (sw_left m))) h' = None.
Proof.
  exists (sw_insert 0 (fun _ _ => 0%N) (fun x => x) (fun m => sw_bits m)
    (h_one (Swiss_hash 0 N.eqb (fun _ _ => 0%N) (fun x => x) (fun _ _ => tt) 1 (fun m => sw_bits m)) 7%N 70%N) 8%N 80%N), 7%N, 8%N, 0, 70%N.
  split; [apply SM_insert; [apply SM_one|vm_compute; reflexivity]|]. split; [discriminate|]. split; [vm_compute; reflexivity|].
  split; [exists 1, 80%N; split; vm_compute; reflexivity|vm_compute; reflexivity].
Qed.
Print Assumptions C75_no_tombstones_refuted.
