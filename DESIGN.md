# A Rocq model of veb-tree

The crate in /repo is modelled function by function in Rocq (Coq 8.16.1), and the properties of
`properties.jsonl` are proved about the model, for all inputs, states and histories. There are no bounds on the number of
entries, on the width or nesting of types, or on the length of histories, except where stated: fewer than
`usize::MAX` stored pairs where a counter could overflow.

Build: in `rocq/`, `coq_makefile -f _CoqProject -o Makefile && make -j4` (about five minutes).

## Method

Every trait of the crate becomes a record of functions (a *dictionary*), every `impl` a value of that record:

* `VebTree` -> `VebOps K V` (Ops.v), `TreeCollection` -> `CollOps`, `VebKey`/`VebKeyRef` -> `KeyOps`,
  `SizedVebKey` -> `IdxOps`.
* `&mut self` functions return the new value. A returned `&mut V` is a *lens*: the current value together with the
  function that gives the whole tree after a write through the reference.
* A panic (expect, unwrap, unreachable!, index out of bounds, overflow, failed debug assertion) is the value `Panic`
  of the result monad `res`.
* How the crate is compiled is a parameter, the class `Build` (Base.v). It has two parts: whether there are debug assertions and
  overflow checks (without them a failed debug assertion is skipped and arithmetic wraps), and how wide a pointer of the target is,
  16, 32, 64 or 128 bits, and so `usize`. The laws of all impls and all theorems are for every build (`forall (B : Build)`), some
  for every build with checks (`dbg = true`: C32, C41, C58, C60_ends) or without (`dbg = false`), apart from witnesses of
  refutations and examples, which are for 64 bits with checks unless they say otherwise. C49, C41_builds and C58_builds compare
  builds. Arrays of 2^16 or 2^32 slots are only in types of targets whose `usize` holds these numbers (the class `Wide`).
* Machine integers are records of a number with a proof of its range; every operation that can wrap or drop bits does so
  explicitly.
* A boolean parameter `fixed` of the model of `Tree` chooses between the code as it is (`false`) and the code with the
  defect below put right (`true`). All theorems about the library are about `false`; those with `forall fixed` hold of both.

The specification (Spec.v) is a strictly ascending association list with one-line operations (filters), independent of
the model. The other specifications are as small: KeySpec.v (numbers), BitSpec.v (one 256-bit number), CollSpec.v
(association list of trees), IterSpec.v (a list consumed from both ends), Fits.v (a test on lists of keys).

Proofs are layered:

1. *Weak laws* (hold on every history of the code as it is): an entry multiset, panic freedom, conservation.
2. *Strong laws* (hold while the tree is ordered): every query equals the specification, order is preserved by
   every removal and write, and by insertions that are *safe*. Both are the record `VebLaws` (Laws.v); each impl has
   an instance (TreeProofs.v, ByteSetProofs.v, ByteMapProofs.v, BTreeProofs.v, WrapProofs.v, CollProofs.v).
3. `VebType` (Types.v) is an inductive family of all tree types the library can build, and `CollType` of all collections.
   The laws hold for all of them by induction (TypesProofs.v).
4. Histories (Hist.v): the code and the specification run side by side (HistProofs.v, HistCor.v).
5. The theorems are in the files `Props*.v`, each closed by `exact` of a lemma, each followed by
   `Print Assumptions`, each beside an `Example` that meets its hypotheses with a non-trivial tree.

## Defects found

1. `Tree::insert`, src/tree.rs 524-531. When the new key is below the minimum, the old minimum is compared with `max` the
   wrong way round: `max` is replaced by the old minimum and the old maximum is pushed into the children. Shortest
   history: insert 10, 20, 5. From there on `max_val`, `successor`, `predecessor`, `find`, `insert` and iteration give
   wrong answers; after these three insertions a forward iterator misses 10, a backward one hands out 10 and 20 without
   end, and one called from both ends panics in a debug build (C65, for all keys in that order). No test of the repository inserts below the minimum of a
   `Tree` with two entries. The affected properties are refuted by concrete histories (`*_refuted`), proved on the
   histories where the defect cannot strike, and proved for all histories of the corrected program (C38). C42 says which
   types are affected, C43 which insertions are, and C67 which orders of insertion: at one level of `Tree` those whose smallest key
   comes third or later, that is all but 2(n-1)! of the n! orders of n keys; at greater depth those and more. A caller can avoid it
   at one level by keeping the least key in the tree, but not at two (C68);
   and at any depth by a wrapper that follows such an insertion by `remove_max` and a second insertion (C69).
   A tree built by insertions alone still finds every key and its newest value, and can be rebuilt from what `remove_min` hands out (C70).
   With insertions of absent keys only, `remove` stays right whatever the order, so that a dictionary made of these two calls does (C71).
2. `SizedVebKey::index` of the signed types narrower than a pointer, on 64-bit targets i8, i16 and i32 (src/key.rs 392, 347, 290),
   sign-extends before conversion to `usize`, so the keys from 0 on index out of bounds (C30, C53).
   The crate's own signed integers split into unsigned halves, so this strikes keys such as `[i16; 2]` with Marker32, or a
   user's; C64 says which calls then panic.
3. `SizedVebKey::CARDINALITY` is `MAX` instead of the number of keys, or `usize::MAX` (C39).
4. The documented O(lg lg K) of `insert` fails for array collections: the third insertion fills `Cardinality` slots (C45).
5. With keys that compare equal but differ: `BTreeMap` as a `VebTree` returns the new key with the old value from `insert` and
   keeps the old key, against the documentation and unlike `Tree`; and `Tree::find`, `predecessor` and `successor` can
   return a key made of half the query and half a stored key (C47).
6. `TreeCollection::remove_key` is documented to panic when the key is absent (src/collection/mod.rs 85-86), but `ByteMap`'s only
   has a debug assertion for it (src/bitset/map/mod.rs 76). In a release build it removes from the tree of another key, and set
   and list can get out of step (C49). `Tree` never calls it with an absent key.
7. `Tree::insert` takes the children out of the tree (src/tree.rs 545) before it calls code of the key type. If that panics and the
   panic is caught, all pairs but the smallest and the largest can be lost, and a `SizedVebTree` counts them still (C62).
8. Marker64 on 32-bit targets and Marker32 on 16-bit ones panic at the third key: `Cardinality::USIZE` (src/collection/array.rs 51) of
   2^32 or 2^16 is 0 there, so the array has no slots. The same holds of u128 keys over arrays on 64-bit targets (C63).
9. The benchmark compares different queries: its `next` and `prev` are strict for the tree and inclusive for the `BTreeMap` (C48).

## What is modelled, what is not

| source | model | left out |
|--------|-------|----------|
| src/lib.rs 19-161 | Ops.v | - |
| src/lib.rs 163-325 `SizedVebTree` | SizedT.v | - |
| src/lib.rs 327-431 `Box` | Boxed.v | allocation |
| src/lib.rs 433-580 `BTreeMap` | BTree.v, MapGen.v, Nodes.v | `BTreeMap` itself: a sorted association list by contract (BTree.v); any map that keeps `MapContract` gives the same answers (MapGen.v, C73); a B-tree after the standard library's design is one of them (Nodes.v, C76); the standard library's code is not modelled |
| src/tree.rs 10-79 | Tree.v, Clone.v, Markers.v | - |
| src/tree.rs 80-736 | Tree.v | - |
| src/iter.rs 1-197 | Iter.v | lifetimes |
| src/lib.rs 166, and the methods std provides for src/iter.rs | IterUse.v | specialised bodies std may choose instead of the default ones |
| src/key.rs 20-92 `MaybeBorrowed` | Key.v | lifetimes; in the trees a key stands for its borrowed form |
| src/key.rs 94-740 | Ints.v, Key.v; Target.v for which widths have `SizedVebKey` | that an impl is absent on a target (`offered`, Target.v, and the hypotheses of `sized_right`, KeySpec.v, say where it is there) |
| src/bitset/set.rs | ByteSet.v | - |
| src/bitset/map/*.rs | ByteMap.v (over `VecDeque`), GenMap.v (over any `List` and `TreeList`), DequeGen.v (over any queue) | `VecDeque` is a list by contract (ByteMap.v); any queue that keeps `DequeContract`, a ring buffer among them, gives the same answers (C74); the memory of the standard library's queue is not modelled; `replace_entry_with` of `vec_entry`: update of one element, or its removal with the later ones moving up, and a panic out of range |
| src/collection/array.rs | Coll.v | `Box<[Option<V>]>` and `GenericArray` are both a list of options, as many as `usize` keeps of Cardinality (typenum, by contract). A `GenericArray` too large for the address space does not compile, so C63 concerns boxed slices |
| src/collection/hash.rs | Coll.v, HashGen.v, Probe.v | `HashMap`: an association list by contract (Coll.v); any map that keeps `HashContract`, with any hash function, gives the same answers (HashGen.v, C72); a table probed by groups as hashbrown's design describes is one of them (Probe.v, C75); hashbrown's code is not modelled |
| src/collection/mod.rs | Coll.v, Ops.v | - |
| src/markers.rs | Markers.v, Concrete.v | - |
| `#[test]`s in src | Tests.v | loops over all i16 keys |
| benches/random/main.rs 14-145, 168-188 | Bench.v | criterion, timing, the random numbers (arbitrary here), perf.rs |

Simplifications that hold throughout:

* Keys have an order whose equality is identity (`OrdLaws`, Base.v); `==` of keys in the code is `cmp .. = Eq` in the model.
  C46 carries the results over to keys with a coarser equality, given as a map into a lawful key type.
* A user's key type must split lawfully (`KeyLaws`) and, in an array, index injectively below its cardinality (`IdxLaws`);
  these are proved for the key types of the crate in KeyProofs.v (C26-C28, C30), except where refuted. `KeyLaws` does not ask
  every pair of halves to come from a key (`KeyIso` does, and the keys of the crate have it). C61 shows the laws to be needed.
* Memory is unbounded: allocation does not fail. C45 counts slots of arrays.
* Values are moved and dropped silently: `Drop` is not modelled.
* Types are finite: recursion through markers is unfolded into `VebType`.
* The cost model of C44 counts calls of methods of trees and collections; what a call of an external container costs, and what
  `clone` of a key costs, is outside it.

Model validation: Tests.v runs all unit tests of the repository on the model, by computation, with the results they
assert.

## Trusted base

* The Coq kernel and its virtual machine (`vm_compute` for examples and refutations).
* `Print Assumptions` says "Closed under the global context" for every theorem of the manifest: no axiom is used.
  The gate lists seven names `Coq.ssr.ssrunder.Under_rel.*`; these are parameters of a module of the standard library
  that is loaded with `lia`; no theorem depends on them.
* The reading of the Rust source in the model files; each definition cites the lines it stands for.
* The contracts of external crates in the table above.

## Properties

| id | what is modelled | how it is proved |
|----|------------------|------------------|
| C01 | all impls, panics explicit | weak laws, induction on tree types and histories (HistProofs.v) |
| C02 | all impls | weak laws (`Permutation` of entries) |
| C03 | `remove` of all impls | weak laws |
| C04 (partial) | all impls | refuted for `Tree`; full refinement for all types without `Tree`. Missing: nothing more is true, see C42 and C43 |
| C05, C06 | all impls | strong laws with the `safe` side condition discharged by the shape of the history |
| C07, C08, C09 | ByteSet, ByteMap, BTreeMap | strong laws, unconditional |
| C10-C17 | per operation | corollaries of the refinement, on trees reached by admissible histories (HistCor.v) |
| C18, C19 | `_mut` functions as lenses | weak laws |
| C20 | is_monad, into_monad | weak laws |
| C21, C22, C24, C40 | Iter state machine | invariant linking iterator state to the remaining list (IterProofs.v) |
| C23 | Iter state machine | direct |
| C25 | SizedVebTree | invariant: size = number of entries |
| C26-C30, C39 | key.rs | arithmetic, finite lists (KeyProofs.v, KeyCor.v) |
| C31 | bit operations of bitset/set.rs | `testbit` reasoning (BitCor.v) |
| C32 | four collections | each call refines an association list (CollCor.v) |
| C33 | Box | equality of runs (BoxCor.v) |
| C34 | all impls | corollary of refinement |
| C35 | Tree::insert | direct (DefectCor.v) |
| C36 | Clone of all cloneable types | structural induction (CloneCor.v) |
| C37 | MaybeBorrowed | direct; C37_clones counts the calls of `clone` by taking one that is not the identity |
| C38 | Tree::insert with the arms put right | strong laws with `safe` trivial |
| C41 | all impls, `fixed` or not | simulation relation between dictionaries (Sim.v, TreeSim.v, CollSim.v, LeafSim.v, CoreCor.v) |
| C42 | all impls | C04 one way, a witness of three keys for any `Tree` the other way (ExactCor.v) |
| C43 | all impls | `fits` is sufficient by induction on types, necessary because a misplaced maximum changes a successor for good (FitsCor.v); this weakest condition is the hypothesis `allowed` of C10-C24, C34, C40, C49, C50, C56 and C57 |
| C44, C45 | all operations again in a counting monad (Cost.v) | erasure to the model, then bounds by induction on types (CostCor.v); every method counts itself (CountCor.v) |
| C46 | all impls and the iterators over keys with labels (Tagged.v) | simulation in both directions, panics included, entry by entry (KSim.v, KTreeSim.v, KCollSim.v, TaggedCor.v) |
| C47 | `insert`, `find` of Tree and BTreeMap | direct; witnesses |
| C48 | the benchmark's two implementations of its trait (Bench.v) | refinement of two sorted maps that differ in `next` and `prev`; witness (BenchCor.v) |
| C50 | iterators and histories over the counted operations of C44 (CostIter.v) | erasure; bounds by induction on the sequence with the iterator's invariant (CostIterCor.v) |
| C51 | the state of every tree type, measured (Space.v) | induction on types from the invariant that holds on every history (SpaceCor.v) |
| C52 | U4 and U2 in every build (Key.v) | arithmetic on the range of C29 (TargetCor.v) |
| C53 | `SizedVebKey` of the integers for p-bit pointers (Target.v) | arithmetic modulo powers of two (TargetCor.v) |
| C54 | `Tree`, `Box`, `SizedVebTree`, `Iter` over arbitrary dictionaries (Open.v) | a contract gives the laws, the laws give the contract back; the test of C43 is exact here too (OpenCor.v) |
| C55 | `ByteMap` over arbitrary dictionaries for its list (GenMap.v) | it simulates `ByteMap` over `VecDeque`, call by call; a dictionary that simulates a lawful one is lawful (GenMapProofs.v, GenMapCor.v) |
| C56 | the state of every tree type, compared record by record (Twin.v) | induction over the type: minimum and maximum are determined by the pairs, the children of each high half by the pairs below it, words of byte sets by their bits; then C01's refinement (TwinCor.v) |
| C57 | the sizes of key types (Room.v) | the weak laws bound the entries of every reachable tree by induction over the type, so that the next insertion has room (RoomCor.v, RoomEx.v) |
| C58 | all impls, over all value types (Blind.v) | simulation with a relation between values, through the cores of C41 (BlindCor.v) |
| C59 | all impls (nothing new) | induction over tree types with the weak laws only: `finds_removes`, `finds_inserted`, `replaces_inserted` (HeldCor.v); the rest from the weak laws of C01 |
| C60 | std's loop over `next`/`next_back`, `nth`, `ExactSizeIterator::len` (IterUse.v) | induction over the items left with the iterator's invariant of C22 (IterUseCor.v); the counter as a measure; witnesses |
| C61 | user-written keys (`KeyOps`), indices (`IdxOps`), equality of a hash map | necessity: three ascending insertions put the middle key into the children, then `find`, `remove` and `successor` read off the laws (LawNeed.v); sufficiency: C54 |
| C62 | `Tree::insert` again, with the state of the tree at each foreign call, and the iterator likewise (Unwind.v) | watching changes nothing; the states left are listed and keep the invariant of C01, and the strong one if the insertion was allowed, and then they are exactly those of `remnant`, a predicate on sorted lists; then the laws of C01 and C05 from there (UnwindCor.v) |
| C63 | arrays whose `Cardinality` does not fit `usize` | the tree never gets children; it is the sorted list of at most two pairs, by cases over all calls (NarrowCor.v) |
| C64 | arrays whose index leaves some halves without a slot (Coll.v), `needs_slot` on sorted lists (Part.v) | the array is a hash map guarded against such halves, by simulation both ways (Sim.v, TreeSim.v); the guarded tree panics where `needs_slot` says so, by cases over all calls, and else steps as the tree over the hash map (PartCor.v) |
| C65 | the code as it is (Tree.v, `fixed` = false), the three-part machine (Three.v) | the children hold a sorted list whatever is in the minimum and the maximum; each of the 16 calls keeps the relation to the machine and answers alike, by the laws of the summary, the children and the collection (ThreeCor.v); whatever steps as the machine does is drained and iterated as the machine says, and a box and a size around it keep that, as the machine's length changes as the size does; `fits` always holds without a `Tree` inside |
| C66 | the private fields of all trees and collections (Tree.v, Coll.v, ByteMap.v, SizedT.v), `List::is_empty` and `TreeList::len` (GenMap.v) | the specification of states (Built.v) is equivalent to the invariant of the laws, by induction on types; reachability from ascending insertions and C56 (BuiltCor.v) |
| C67 | `Tree::insert` and all calls (Tree.v, Hist.v) | C43 says which insertions go well; for histories of insertions this comes down to the smallest key being first or second; the orders are listed and counted (OrdersCor.v) |
| C68 | `Tree::insert` and all calls (Tree.v, Hist.v) | a kept least key is the minimum, so no insertion goes below it, and C43 applies (SentinelCor.v); at two levels refuted by computation |
| C69 | a user's wrapper (Repair.v) over `Tree` as it is (Tree.v), user contracts (Open.v) | after the insertion C65's three parts hold the old minimum in the maximum's place, and `remove_max` swaps them back; the pair pushed between is the greatest there, so that it fits at any depth; contract then as in C54 (RepairCor.v) |
| C70 | a user's program (Salvage.v) over trees as they are | every pair has an age: of the pairs with one key the newest is at the maximum, else among the children, else at the minimum; insertions keep the minimum below everything and the newest where `find` looks first, `remove_min` hands out older pairs first (`Aged`, SalvageCor.v); the rest as in C43 |
| C71 | a user's programs (Absent.v) over trees as they are | the pairs stored are those of the map, wherever the tree keeps them (`holds`, AbsentCor.v): `insert` of an absent key adds one, `remove` takes out the one with its key, whether or not the tree is in order (the laws `L_insert`, `L_remove` of Laws.v need no order); the rest as in C70 |
| C72 | hash.rs over a record of the operations of the map (HashGen.v), an association list and a table of rows with any hash function | the collection keeps the laws of Laws.v over every map that keeps `HashContract`; the table by splitting its rows at the slot of the key (HashGenCor.v); equal answers by simulation between any two lawful collections (CollSim.v) carried through the tree types (TreeSim.v), as in C49 |
| C73 | lib.rs 433-580 over a record of the operations of `BTreeMap` (MapGen.v), a sorted list and an unbalanced search tree | over every map that keeps `MapContract` each operation gives what BTree.v gives on the sorted list the map stands for (MapGenCor.v); the search tree by induction, read from left to right; equal answers by simulation, carried through the tree types together with that of C72 |
| C74 | list.rs 36-107 and 130-152 over a record of the operations of `VecDeque` and `vec_entry`; a list, a list that does other things out of range, a ring buffer with any growth policy; the tree types with all three containers exchanged (DequeGen.v) | over every queue that keeps `DequeContract` the two implementations keep the contracts of C55; the ring buffer: what each slot holds after each loop of moves, by induction on the loop; the rest by the simulations of C55, C72 and C73 (DequeGenCor.v) |
| C75 | a hash map of one array of slots: control bytes with tags, groups of `2 ^ w` slots, triangular steps, tombstones, the count of slots that may still be filled, rebuilding (Probe.v, after hashbrown's published design; its code is not part of /repo) | it keeps `HashContract` (C72): every filled slot is shown by a group of its key's search before which no group has an empty slot; filling and marking deleted keep that; erasing to empty keeps it because two empty slots less than a group apart enclose the slot (ProbeCor.v, `erase_safe`); triangular numbers run through all residues of a power of two, so with one empty slot every search ends |
| C76 | a B-tree: nodes of height `h` with their children inside, at most 11 pairs and at least 5 but in the root; search, `splitpoint`, `merge`, `steal_left`, `steal_right`, `mend` (`fix_node_through_parent`), removal through the predecessor, loss of a root without pairs, the length kept aside (Nodes.v, after the published design of the standard library; its code is not part of /repo) | `elems` of the result of every operation is the list operation on `elems` (NodesCor.v): `seek` cuts a sorted node at the key, so the rest of the node is on one side; the shape is an invariant of `grow` and `mend`; heights by induction from the shape; comparisons by a counting copy of the lookup, proved equal to it; that it counts all is C76_compared: a comparison function that agrees on the listed keys gets the same answer and the same list; C76_stored_keys needs no law of the order, so it also tells equal keys apart |
| C77 | the models of C74, C75 and C76 together (PropsWhole.v; the ring of DequeGen.v, Probe.v, Nodes.v) | `exchanged_same`, `exchanged_iter` and `exchanged_sorted` of C74 with the contracts proved for the three containers; no contract is left among the hypotheses |
| C78 | histories of insertions and removals on the table of C75 with two counters (Amort.v) | a potential: moves so far plus what is still owed is at most two for each insertion (`insert_costs`, `ledger`); the peak of the pairs bounds the size (`sizes`); both counters are pinned to a specification on lists of keys and on slots (`counted`, `moved_counted`); the other plan of growth is refuted by a computed history |
| C79 | histories on the B-tree of C76, and the number of its nodes (NodeCount.v) | the number of nodes through split, merge and steal (`insert_nodes`, `remove_nodes`, `call`); `space` by induction on the height; for the worst case, falling keys fill the left edge like an odometer (`fill`, `reach`), and splitting it is undone exactly by merging it (`split_low`, `thrash`) |
| C80 | the types of C75 with counted moves, for every collection and wrapper (Moves.v), and the histories of C50 on them | credit: `paid m b R` says that `m`, given `b`, moves pairs for at most that and leaves the answer worth the rest. A table is worth its room less twice its free slots, plus its members (`hoard_insert` from C78's `insert_costs`); a tree is worth its summary and its collection. `tree_saves`, `probe_saves`, `array_saves`, `bytemap_saves` and the boxes carry this through every operation, `crun_paid` through histories; `probe_erases` and `type_same` show that the counted types are those of C75; `calm` that only insertions move |
| C81 | the ring of C74 with `VecDeque`'s choices (`std_ring`), histories on it and a count of what growing copies (RingMoves.v) | `up_other`/`down_other`: a shift by `n` leaves all but `n` slots alone; `cap_bound`: what was copied is less than the buffer's length, which is at most twice the peak; `stay`: the new head is chosen such that the longer part keeps its slots. The specification counts slots that differ (`only_in`), not the model's own moves; `differ_le` turns it into the two refutations. `step_touch` (RingByteCor.v): every call on a ByteMap makes at most one changing call on its ring; with `bytes_room` (at most 256 keys) this gives `C81_bytemap` for all histories. `C81_trees` says the same of the calls of the collection (`coll_writes`), for every ring that keeps a list. `C81_stay` was added because an edit of `std_plan` had gone unnoticed |
| C49 | all impls in every build (`Build`, Rel.v) | laws generic in the build; simulation between builds, from one with checks to any with pointers as wide or wider (RelCor.v); witnesses |

Not expressible in this model: time in seconds, memory layout, borrow checking and lifetimes.

## Mutation tests

`seeded/LOG.jsonl` has one line for each wrong program tried: the definition edited, the edit, the claim it should break, and the
theorems that no longer held. A theorem counts as failed if its proof, or a lemma it needs, cannot be replayed on the edited model.
The lines whose note says "one-token edit" come from a program that changes one token of a definition at a time; for these, and for others
whose note says that the build stops there, only the first proof that failed is named, as a lemma if it is one. Edits that do not type-check are not listed.
