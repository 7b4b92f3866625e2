{"id": "C01", "title": "No public operation ever panics", "statement": "Starting from from_monad, no sequence of VebTree calls (insert, remove, remove_min, remove_max, every query and every *_mut query) on any tree type the library can build ever panics: no expect, unreachable!, out-of-bounds index, arithmetic overflow or debug assertion is reached, as long as fewer than usize::MAX entries are stored.", "quantifier": "every tree type built from ByteSet, ByteMap, BTreeMap, Tree, Box, SizedVebTree and every TreeCollection, to any nesting depth; every lawful key type; every finite history of calls", "why_tests_cant": "the panics sit behind agreement between three structures (summary, collection, child trees); which histories could break the agreement is an unbounded set", "anchors": ["src/tree.rs Tree::remove expect(summary should contain key)", "src/tree.rs Tree::predecessor expect(child should exist)", "src/collection/array.rs remove_key", "src/bitset/map/mod.rs remove_min unreachable!", "src/lib.rs SizedVebTree::remove expect(last item didn't remove tree)"]}
{"id": "C02", "title": "No stored pair is lost, duplicated or invented", "statement": "For any history, the pairs inserted are, as a multiset, exactly the pairs handed back (by insert, remove, remove_min, remove_max) plus the pairs still in the tree, where the pairs still in the tree are those repeated remove_min calls return until the tree is gone.", "quantifier": "every tree type, every history of insertions and removals", "why_tests_cant": "conservation over unbounded histories; a leak needs a particular interleaving of swaps between min, max and children", "anchors": ["src/tree.rs Tree::insert", "src/tree.rs Tree::remove", "src/tree.rs Tree::remove_min", "src/tree.rs Tree::remove_max"]}
{"id": "C03", "title": "A failed remove returns the tree unchanged", "statement": "If remove(k) returns Err(t'), then t' is the very same tree, k is not stored in it; if k is stored, remove(k) returns Ok with a pair whose key is k.", "quantifier": "every tree type, every reachable tree, every key", "why_tests_cant": "the tree is taken apart (take) and rebuilt on the failing path; tests only look at a few keys of the result", "anchors": ["src/lib.rs MaybeRemoveResult", "src/tree.rs Tree::remove", "src/collection/array.rs maybe_remove_key", "src/bitset/map/list.rs maybe_remove_key"]}
{"id": "C04", "title": "Trees behave as a sorted map on every history", "statement": "For every history of calls, every tree type returns for each call exactly what a sorted association list (a map ordered by key) would return. (False of Tree in the code as it stands: see the refutation; true for every other type, and for Tree on the histories described in C05, C06.)", "quantifier": "every tree type, every history of all VebTree calls", "why_tests_cant": "unbounded histories; the failing ones need a key below the current minimum inserted into a tree of two or more", "anchors": ["src/lib.rs VebTree", "src/tree.rs Tree::insert lines 524-533"]}
{"id": "C05", "title": "Trees behave as a sorted map when insertions are ascending", "statement": "On any history whose insertions each use a key that is already present or larger than all present keys (removals, queries and *_mut writes unrestricted), every tree type at every nesting depth returns exactly what a sorted association list would.", "quantifier": "every tree type, every nesting depth, every history with ascending insertions", "why_tests_cant": "unbounded depth and history length", "anchors": ["src/tree.rs Tree (VebTree impl)"]}
{"id": "C06", "title": "One-level trees behave as a sorted map while no insertion goes below the minimum", "statement": "For a Tree whose summary and children are ByteSet/ByteMap/BTreeMap (for instance Marker16 and Marker16Empty), any history in which no insertion into a tree of two or more elements uses a key below the current minimum returns exactly what a sorted association list would.", "quantifier": "all one-level Tree types, all collections, all such histories", "why_tests_cant": "unbounded histories", "anchors": ["src/markers.rs Marker16", "src/markers.rs Marker16Empty", "src/tree.rs Tree::insert"]}
{"id": "C07", "title": "ByteSet is the set of bytes inserted and not removed", "statement": "On every history ByteSet returns exactly what a sorted set of u8 would.", "quantifier": "every history of VebTree calls, all 256 keys, all 2^256-1 states", "why_tests_cant": "2^256 states times unbounded histories", "anchors": ["src/bitset/set.rs ByteSet (VebTree impl)"]}
{"id": "C08", "title": "ByteMap is a sorted map from bytes", "statement": "On every history ByteMap returns exactly what a sorted map from u8 would: the bit set and the value list never get out of step.", "quantifier": "every history, every value type", "why_tests_cant": "alignment of a bit set with a packed list over unbounded histories", "anchors": ["src/bitset/map/mod.rs ByteMap (VebTree impl)", "src/bitset/map/list.rs List for VecDeque"]}
{"id": "C09", "title": "BTreeMap used as a VebTree is a sorted map", "statement": "On every history BTreeMap<K,V> through the VebTree trait returns exactly what a sorted map would and never becomes empty without being returned as None.", "quantifier": "every history, every totally ordered key type", "why_tests_cant": "unbounded histories", "anchors": ["src/lib.rs impl VebTree for BTreeMap"]}
{"id": "C10", "title": "Insertion reports and replaces exactly the pair with that key", "statement": "insert(k, v) returns Some((k, old)) exactly when k was present with value old, and None otherwise; afterwards k maps to v and no other key changes. (For Tree: on admissible histories; refuted in general.)", "quantifier": "every tree type, every reachable tree, every key and value", "why_tests_cant": "what must not change ranges over all other keys", "anchors": ["src/lib.rs VebTree::insert"]}
{"id": "C11", "title": "Lookup returns the latest value", "statement": "find(k) returns the pair (k, v) exactly when v is the latest value inserted for k and k was not removed since. (For Tree: on admissible histories; refuted in general.)", "quantifier": "every tree type, every reachable tree, every key", "why_tests_cant": "depends on the whole history", "anchors": ["src/lib.rs VebTree::find"]}
{"id": "C12", "title": "Predecessor is the greatest smaller key", "statement": "predecessor(k) returns the stored pair with the greatest key strictly below k, None if there is none. (For Tree: on admissible histories; refuted in general.)", "quantifier": "every tree type, every reachable tree, every key present or absent", "why_tests_cant": "all keys times all states", "anchors": ["src/lib.rs VebTree::predecessor", "src/tree.rs Tree::predecessor"]}
{"id": "C13", "title": "Successor is the least larger key", "statement": "successor(k) returns the stored pair with the least key strictly above k, None if there is none. (For Tree: on admissible histories; refuted in general.)", "quantifier": "every tree type, every reachable tree, every key present or absent", "why_tests_cant": "all keys times all states", "anchors": ["src/lib.rs VebTree::successor", "src/tree.rs Tree::successor"]}
{"id": "C14", "title": "min_val and max_val are the extremes", "statement": "min_val returns the stored pair with the least key and max_val the one with the greatest. (For Tree: on admissible histories; refuted in general.)", "quantifier": "every tree type, every reachable tree", "why_tests_cant": "all states", "anchors": ["src/lib.rs VebTree::min_val", "src/lib.rs VebTree::max_val"]}
{"id": "C15", "title": "remove takes out exactly one key", "statement": "remove(k) on a tree holding k returns its pair and a tree holding everything else, or None if nothing else was there. (For Tree: on admissible histories.)", "quantifier": "every tree type, every reachable tree, every key", "why_tests_cant": "the frame covers all other keys", "anchors": ["src/lib.rs VebTree::remove", "src/tree.rs Tree::remove"]}
{"id": "C16", "title": "remove_min and remove_max take out exactly the extremes", "statement": "remove_min (remove_max) returns the pair with the least (greatest) key and a tree holding everything else, or None if nothing else was there. (For Tree: on admissible histories.)", "quantifier": "every tree type, every reachable tree", "why_tests_cant": "all states", "anchors": ["src/lib.rs VebTree::remove_min", "src/lib.rs VebTree::remove_max"]}
{"id": "C17", "title": "Draining sorts", "statement": "Calling remove_min until the tree is gone yields the stored pairs in ascending key order; remove_max yields them in descending order. (For Tree: on admissible histories.)", "quantifier": "every tree type, every reachable tree", "why_tests_cant": "length of the drain is unbounded", "anchors": ["src/lib.rs VebTree::remove_min", "src/lib.rs VebTree::remove_max"]}
{"id": "C18", "title": "Mutable queries find what the immutable ones find", "statement": "find_mut, predecessor_mut, successor_mut, min_val_mut and max_val_mut return the same key and value as find, predecessor, successor, min_val and max_val.", "quantifier": "every tree type, every reachable tree (admissible or not), every key", "why_tests_cant": "the mutable variants are separate code; equality must hold on all states", "anchors": ["src/tree.rs find_mut", "src/tree.rs predecessor_mut", "src/tree.rs successor_mut", "src/bitset/map/mod.rs", "src/lib.rs BTreeMap find_mut range_mut"]}
{"id": "C19", "title": "Writing through a mutable reference changes that one value only", "statement": "Storing w through the reference returned by a *_mut query replaces exactly the returned pair (k, v) by (k, w); every other pair is as before.", "quantifier": "every tree type, every reachable tree (admissible or not), every key, every written value", "why_tests_cant": "frame over all other keys and all nesting levels", "anchors": ["src/tree.rs find_mut", "src/tree.rs predecessor_mut", "src/tree.rs successor_mut"]}
{"id": "C20", "title": "Monad tests agree with the number of elements", "statement": "is_monad is true exactly when one element is stored, into_monad returns that element exactly then and otherwise gives the same tree back, and a removal returns None for the tree exactly then.", "quantifier": "every tree type, every reachable tree (admissible or not)", "why_tests_cant": "all states", "anchors": ["src/lib.rs VebTree::is_monad", "src/lib.rs VebTree::into_monad"]}
{"id": "C21", "title": "Forward iteration yields every pair once in ascending order", "statement": "Iter::from(&tree) followed by next until None yields exactly the stored pairs, ascending, and then stops. (For Tree: on admissible histories; refuted in general, where iteration may even run forever.)", "quantifier": "every tree type, every reachable tree", "why_tests_cant": "unbounded length, termination", "anchors": ["src/iter.rs Iter::next"]}
{"id": "C22", "title": "Any interleaving of next and next_back consumes a deque", "statement": "Any sequence of next and next_back calls on a fresh iterator returns what popping the front and back of the ascending list of pairs returns: no pair twice, none skipped, None once they meet.", "quantifier": "every tree type, every admissibly reachable tree, every sequence of next / next_back calls of any length", "why_tests_cant": "exponentially many call patterns", "anchors": ["src/iter.rs Iter::next", "src/iter.rs Iter::next_back"]}
{"id": "C23", "title": "The iterator is fused", "statement": "Once next or next_back has returned None every later call of either returns None.", "quantifier": "every tree type, every tree whatsoever, every iterator state, every continuation", "why_tests_cant": "every continuation of any length", "anchors": ["src/iter.rs FusedIterator"]}
{"id": "C24", "title": "size_hint bounds the remaining items", "statement": "At every point of an iteration size_hint's lower bound is at most, and its upper bound (if any) at least, the number of items still to come; for SizedVebTree, ByteSet and BTreeMap both equal it, so ExactSizeIterator is lawful.", "quantifier": "every tree type, every admissibly reachable tree, every call pattern", "why_tests_cant": "all intermediate iterator states", "anchors": ["src/iter.rs size_hint", "src/lib.rs ExactSizeIterator for Iter<SizedVebTree>"]}
{"id": "C25", "title": "SizedVebTree::len counts the stored entries", "statement": "After every history len() equals the number of entries stored (and the number of distinct keys whenever the wrapped tree behaves as a map); a removal that empties the tree returns None exactly when len() is 1.", "quantifier": "every wrapped tree type, every history", "why_tests_cant": "counter agreement over unbounded histories", "anchors": ["src/lib.rs SizedVebTree"]}
{"id": "C26", "title": "Keys split and rejoin without loss", "statement": "For every provided key type, join(split_val(k)) = k and split_val(join(hi, lo)) = (hi, lo).", "quantifier": "all values of u8..u128, i8..i128, U4, U2, (), [T;2..8], [T;16] for any ordered T", "why_tests_cant": "2^128 values, arbitrary element types", "anchors": ["src/key.rs VebKey impls"]}
{"id": "C27", "title": "Splitting preserves order", "statement": "For every provided key type, comparing two keys equals comparing their (hi, lo) pairs lexicographically.", "quantifier": "all pairs of values of every provided key type", "why_tests_cant": "2^256 pairs; signed types go through a bias", "anchors": ["src/key.rs VebKey doc", "src/key.rs impl VebKey for i8..i128"]}
{"id": "C28", "title": "split_ref agrees with split_val", "statement": "For every provided key type split_ref hands its closure exactly the components split_val returns.", "quantifier": "all values of every provided key type", "why_tests_cant": "all values; array patterns are written separately per size", "anchors": ["src/key.rs VebKeyRef impls"]}
{"id": "C29", "title": "U4 and U2 stay in range", "statement": "Every U4 (U2) value obtainable through the public API holds a number below 16 (4).", "quantifier": "all public constructors and operators, all arguments", "why_tests_cant": "closure under all operator sequences", "anchors": ["src/key.rs U4", "src/key.rs U2"]}
{"id": "C30", "title": "SizedVebKey::index is a bijection onto 0..Cardinality", "statement": "index() is injective and below Cardinality, so an array of Cardinality slots can be indexed by any key. (True of unsigned types, U4, U2, () and the signed type as wide as a pointer; refuted for narrower signed types, on 64-bit targets i8, i16, i32, whose non-negative values index out of bounds.)", "quantifier": "all values of every SizedVebKey type, on targets of every pointer width", "why_tests_cant": "all values up to 2^64", "anchors": ["src/key.rs SizedVebKey impls"]}
{"id": "C31", "title": "ByteSet masks and counts are exact", "statement": "predecessor/successor masks contain exactly the bits below/above i, lowest/highest are the least/greatest member, len is the number of members, count_below(k) the number of members below k.", "quantifier": "all bytes and all 2^256-1 sets", "why_tests_cant": "2^256 sets", "anchors": ["src/bitset/set.rs mask_lower mask_higher lowest highest len count_below"]}
{"id": "C32", "title": "Every TreeCollection is a finite map of trees", "statement": "create, get, get_mut, insert_key, remove_key and maybe_remove_key of the array, hash map, ByteMap and Box collections act as a finite map from Hi to trees: insert_key answers Ok(h) exactly when h was vacant, a tree is dropped exactly when its removal empties it, and None is returned exactly when the last tree goes.", "quantifier": "all four collections, all element trees, all collections reachable, all keys, all closures", "why_tests_cant": "quantifies over the closure passed to remove_key as well as over states", "anchors": ["src/collection/mod.rs TreeCollection", "src/collection/array.rs", "src/collection/hash.rs", "src/bitset/map/mod.rs TreeCollection for ByteMap"]}
{"id": "C33", "title": "Boxing changes nothing", "statement": "Box<V> behaves call for call as V, as a tree and as a collection.", "quantifier": "every tree type and collection, every call", "why_tests_cant": "all states", "anchors": ["src/lib.rs impl VebTree for Box", "src/collection/mod.rs impl TreeCollection for Box"]}
{"id": "C34", "title": "Observations depend only on contents", "statement": "Two trees, of any two tree types, that hold the same pairs (reached by admissible histories) answer every later admissible history identically; in particular ByteMap, BTreeMap and Tree are interchangeable.", "quantifier": "all pairs of tree types and admissible histories", "why_tests_cant": "pairs of unbounded histories", "anchors": ["src/lib.rs VebTree"]}
{"id": "C35", "title": "Inserting below the minimum misplaces the maximum", "statement": "(Defect, stated so that a fix shows up.) Whenever a key below the minimum is inserted into a Tree of two or more elements, max_val of the result is the old minimum, so every greater element, the old maximum included, is above the reported maximum and successor(old minimum) is None.", "quantifier": "every Tree type, every tree of two or more elements, every key below its minimum", "why_tests_cant": "all states", "anchors": ["src/tree.rs Tree::insert lines 524-531"]}
{"id": "C36", "title": "Cloning a tree gives an equal tree", "statement": "Tree::clone returns a tree with the same contents and structure when the clones of keys, values and children are faithful.", "quantifier": "every Clone-able Tree type, every tree", "why_tests_cant": "all states", "anchors": ["src/tree.rs Clone for Tree", "src/tree.rs Clone for TreeData"]}
{"id": "C37", "title": "MaybeBorrowed is transparent", "statement": "A MaybeBorrowed key compares, dereferences and converts as the key it holds, whether borrowed or owned.", "quantifier": "all key types and values", "why_tests_cant": "all values", "anchors": ["src/key.rs MaybeBorrowed"]}
{"id": "C38", "title": "The insertion defect is the only one", "statement": "With the two swapped arms of Tree::insert's comparison put right (and nothing else changed) every tree type behaves as a sorted map on every history.", "quantifier": "every tree type, every nesting depth, every history", "why_tests_cant": "unbounded", "anchors": ["src/tree.rs Tree::insert lines 526-530"]}
{"id": "C39", "title": "SizedVebKey::CARDINALITY counts the keys", "statement": "CARDINALITY equals the number of values of the key type, i.e. the type-level Cardinality. (Refuted for every provided type but ().)", "quantifier": "every SizedVebKey type, on targets of every pointer width", "why_tests_cant": "it is a statement about all values of the type", "anchors": ["src/key.rs CARDINALITY constants"]}
{"id": "C40", "title": "Iteration never panics", "statement": "No sequence of next / next_back calls on an iterator of a tree panics. (For Tree: on admissible histories; refuted in general by a failing debug assertion.)", "quantifier": "every tree type, every reachable tree, every call pattern", "why_tests_cant": "unbounded call patterns on unbounded trees", "anchors": ["src/iter.rs Iterator for Iter", "src/iter.rs DoubleEndedIterator for Iter"]}
{"id": "C41", "title": "Representation independence", "statement": "The answers of a tree do not depend on whether its leaves are byte sets, byte maps or BTreeMaps, its children are in an array, a byte map or a hash map, nor on boxes and size counters: two types with the same nesting of keys answer every history alike, also where Tree::insert goes wrong.", "quantifier": "every pair of tree types with the same nesting of Tree and keys, every history of calls", "why_tests_cant": "all pairs of nested types and all histories; large types such as Marker64 cannot even be allocated in a test", "anchors": ["src/collection/mod.rs", "src/collection/hash.rs", "src/bitset", "src/tree.rs", "src/lib.rs"]}
{"id": "C42", "title": "Exactly which types are sorted maps", "statement": "A tree type answers every history as a sorted map does if and only if it is not a Tree (boxed or counted or not) or there are no three distinct keys.", "quantifier": "every tree type, every history of calls", "why_tests_cant": "an equivalence over all types and all histories", "anchors": ["src/tree.rs Tree::insert lines 524-533", "src/lib.rs VebTree"]}
{"id": "C43", "title": "Which insertions keep a tree a sorted map, exactly", "statement": "There is a test on the stored keys and the key to be inserted, following only the nesting of the tree type and the splitting of keys, such that: every history whose insertions all pass the test gets the answers of a sorted map; an insertion into a tree so reached leaves all successor queries right if and only if it passes; a history passes if and only if successor queries asked at any point of it are answered as by a sorted map; no weaker condition on insertions makes all histories right; and the test lets pass any insertion if there is no Tree inside or Tree::insert is corrected, any not below the minimum of two or more at one level of Tree, and ascending ones always.", "quantifier": "every tree type of the library, both builds, every history of insertions, removals, queries and writes (fewer than usize::MAX pairs stored), every inserted key, every successor query", "why_tests_cant": "The converse says that no failing insertion is harmless and no passing one harmful, over all nestings, key widths and reachable shapes; tests can only sample histories and find some that go wrong.", "anchors": ["src/tree.rs:503-562", "src/tree.rs:352-400", "src/collection/array.rs:93-200", "src/collection/hash.rs:33-100"]}
{"id": "C44", "title": "Running time O(lg lg K)", "statement": "Counting one for every call of a method of a tree or of a collection, find makes at most 2d+1 calls, predecessor and successor at most 5d+1, insert at most 3d+1, remove at most 4d+2, remove_min and remove_max at most 4d+1, and the operations on the extremes and on single pairs one, where d is the number of Trees nested in each other, whatever the tree stores. For the markers of the library with keys of w bits d = log2 w - 3, so this is the promised O(lg lg K).", "quantifier": "every tree type of the library, every value of it (reachable or not), every key", "why_tests_cant": "The promise is about the number of steps on all trees and keys; it rests on an argument about the worst case of every branch (a search that fails in a child took one step), which no measured run shows.", "anchors": ["src/lib.rs:32-161", "src/tree.rs:142-736", "src/collection/array.rs:93-200", "src/collection/hash.rs:33-100", "src/bitset/map/mod.rs:36-129"]}
{"id": "C45", "title": "Allocation of arrays: the third insertion is not O(lg lg K)", "statement": "Only insert allocates arrays of children, and at most as many slots as the largest array collection nested in the type. The first two keys of a tree allocate nothing; the third, different from both, allocates all Cardinality slots of the collection of the outermost Tree: 2^8, 2^16 and 2^32 for the markers with keys of 16, 32 and 64 bits. So the documented O(lg lg K) of insert does not hold for the array markers.", "quantifier": "every tree type of the library, every value of it, every key and value; every three different keys", "why_tests_cant": "Third insertion into Marker64 would need 2^32 slots to be allocated; the bounds are over all trees.", "anchors": ["src/collection/array.rs:102-110", "src/tree.rs:544-561", "src/lib.rs:138-146"]}
{"id": "C46", "title": "Keys that carry more than their order sees", "statement": "Let a key type be such that comparison, index and hashing see only the image of the key under a map p into a lawful key type, and split and join commute with p. Then a tree over these keys panics exactly when the tree over their images does, is empty exactly when that is, and gives the same answers up to p. So it does not panic on histories of up to usize::MAX commands, and up to p it is a sorted map on all histories whose insertions fit (C43), or on all histories if Tree::insert is corrected. The array keys [T; 2] to [T; 16] are of this kind whenever T is. Iterators over it do the same: next and next_back in any interleaving panic exactly when they do over the images, give the same pairs and size hints up to p, and so consume the sorted map from both ends.", "quantifier": "every such key type, every tree type of the library over it, every history of commands", "why_tests_cant": "Tests use integer keys, where equal keys are the same key; the claim is about all key types with a coarser equality.", "anchors": ["src/key.rs:89-125", "src/key.rs:541-740", "src/tree.rs:80-736", "src/collection/hash.rs:33-124", "src/collection/array.rs:93-198", "src/lib.rs:433-580", "src/iter.rs:37-197"]}
{"id": "C47", "title": "Which key a replacing insertion returns and keeps", "statement": "With distinguishable equal keys: Tree, at its minimum and maximum, stores the new key and returns the stored pair as documented. BTreeMap as a VebTree keeps its stored keys and returns the new key with the old value, so the documented 'replace and return the previously stored values' fails. Tree::find can return a key that was neither inserted nor asked for, half of it taken from the query and half from the stored key.", "quantifier": "every key type, every tree of the two types, every key and value; witnesses for the failures", "why_tests_cant": "Tests use integer keys, where equal keys are the same key.", "anchors": ["src/lib.rs:139-143", "src/lib.rs:541-550", "src/tree.rs:142-169", "src/tree.rs:503-562"]}
{"id": "C48", "title": "The two structures of the benchmark answer alike", "statement": "Option<SizedVebTree<T>> as used by the benchmark is a sorted map with strict next and prev, while insertions are ascending or fit (C43); the wrapped BTreeMap is one with inclusive next and prev, on every history. So both give the same answers to len, insert, remove, find, find_mut, and to next, prev, next_mut, prev_mut at keys that are not stored: on every history whose insertions are ascending or fit, on every history without further insertions after the benchmark's own filling (any coins, any width up to 32), and on every history if Tree::insert is corrected. The tree side does not panic on histories of up to usize::MAX calls. At every stored key next differs, so the benchmark compares different queries. After an insertion below the smallest key even insert and len differ.", "quantifier": "every tree type, every history of the nine calls, every sequence of coins and every width; witness on the benchmark's own type for the difference", "why_tests_cant": "The benchmark never compares the answers of its two structures, and the random filling covers a vanishing part of the histories.", "anchors": ["benches/random/main.rs:14-102", "benches/random/main.rs:103-145", "benches/random/main.rs:168-188"]}
{"id": "C49", "title": "A build without checks or for wider pointers answers as one with checks", "statement": "For every tree type and every history of calls (including those hit by the defect of Tree::insert) of at most usize::MAX calls, every build for pointers as wide or wider, with debug assertions and overflow checks or without, gives exactly the answers of a build with them, and leaves a tree exactly when that does. (Longer histories can tell the widths apart: SizedVebTree panics when its count leaves usize.) So panic freedom, the sorted-map refinement, iteration as a deque and size_hint hold in every build. An iterator gives the same items in both builds as long as the checked one does not panic; without checks no iterator of any reachable tree, in any state, panics, nor does its size_hint. The builds differ where the checked one panics: an iterator over a tree hit by the defect ends instead of panicking, size_hint wraps to usize::MAX, and TreeCollection::remove_key of a ByteMap for an absent key, documented to panic, removes from the tree of the next key above and leaves that key in the set, so that later calls answer with other keys' trees or panic. Array and hash collections panic on an absent key in every build.", "quantifier": "all builds and pointer widths (16, 32, 64, 128), all tree types and collection types, all histories of calls, all iterator call sequences and iterator states, all closures passed to remove_key", "why_tests_cant": "cargo test builds with the checks on, so no test of the crate ever runs the release build; and the claim is about all histories of all types", "anchors": ["src/bitset/map/mod.rs:70-90", "src/collection/mod.rs:85-86", "src/iter.rs:99", "src/iter.rs:119", "src/iter.rs:186", "src/lib.rs:196", "src/tree.rs:280", "src/bitset/map/list.rs:73"]}
{"id": "C50", "title": "The cost of whole iterations and histories", "statement": "Counted as in C44: a call of next or next_back makes at most 5d+1 calls of methods of trees and collections and allocates no array; the first makes at most one; once the iterator has stopped none is made. On a tree holding n pairs any sequence of next and next_back calls, however long, makes at most (n+1)(5d+1) calls. Any history of calls makes at most the sum of the bounds of C44 for its calls, and allocates at most one array, of the largest size in the type, per insertion; none where the type has no array anywhere in it.", "quantifier": "all tree types; all trees and iterator states (call bound), all trees reached by admissible histories and all call sequences (iteration bound), all histories from any tree (history bound)", "why_tests_cant": "a bound on the work over all trees, types and call sequences is not observable in a finite number of timed runs", "anchors": ["src/iter.rs:42-107", "src/iter.rs:129-194", "src/lib.rs:32-161"]}
{"id": "C51", "title": "Space linear in the number of pairs times the depth", "statement": "A tree of depth d holding n pairs consists of at most d(n-1)+1 Trees and leaves, summaries included; it holds at least n and at most n + d(n-1) keys and at most d(n-1)/2 collections; the slots of arrays are at most that many times the largest array of the type, and from the third pair on at least the array of the outermost Tree. It holds whatever the history, so also after the defect of Tree::insert has struck: nothing is leaked by removals.", "quantifier": "all tree types, all trees reachable by any history of calls", "why_tests_cant": "no test looks at the structure of a tree; the bound is about all histories, so about every way of growing and shrinking a tree", "anchors": ["src/tree.rs:29-47", "src/tree.rs:418-560", "src/collection/array.rs:9-18"]}
{"id": "C52", "title": "Arithmetic of U4 and U2", "statement": "From<u8> keeps the value modulo 16 (4) and undoes Into<u8>; | is the bitwise or; << n is multiplication by 2^n modulo 16 (4) and >> n division by 2^n, for n below 8; for greater n they panic with overflow checks and use n modulo 8 without; U2 to U4 keeps the value, U4 to U2 takes it modulo 4, U2 to bool its parity.", "quantifier": "all values obtainable through the public API, all shift amounts, all builds", "why_tests_cant": "shift amounts are unbounded and the behaviour depends on the build", "anchors": ["src/key.rs:401-440", "src/key.rs:470-516"]}
{"id": "C53", "title": "index and CARDINALITY on every pointer width", "statement": "Where the crate offers SizedVebKey for w-bit integers on a target with p-bit pointers, index of the unsigned integers numbers all keys 0..2^w-1 without repetition. index of the signed ones does iff w = p; otherwise exactly the negative keys get a number below 2^w. CARDINALITY of the unsigned ones is 2^w-1; of the signed ones too, except for i16 and i32 where w < p.", "quantifier": "all pointer widths 16, 32, 64, 128; all widths offered there; all keys", "why_tests_cant": "tests run on the one pointer width of the machine, and on a few keys", "anchors": ["src/key.rs:160-192", "src/key.rs:207-240", "src/key.rs:254-350", "src/key.rs:365-395"]}
{"id": "C54", "title": "Tree is correct over any correct parts", "statement": "VebTree, TreeCollection and VebKey are public traits. Let the summary, the subtrees and the collection of a Tree be any implementations, of the library or not, that behave call by call as sorted lists and finite maps. Then no call panics and no pair is lost; the tree is a sorted map on ascending insertions, on insertions not below the minimum when the parts contain no Tree, on all histories once Tree::insert is corrected, and in general exactly on the histories whose insertions pass the test of C43; the corrected Tree is itself such a part. The same holds through Box and SizedVebTree, and for the iterator.", "quantifier": "all key types, all implementations of the three traits keeping the contract, all nestings, all histories, both builds", "why_tests_cant": "implementations written by users do not exist yet when the library is tested", "anchors": ["src/lib.rs:32-161", "src/collection/mod.rs:61-106", "src/key.rs:94-106", "src/tree.rs:80-737"]}
{"id": "C55", "title": "ByteMap is correct over any correct list", "statement": "List and TreeList are public traits. Let the list of a ByteMap be any implementation that behaves as a non-empty sequence at positions in range. Then the ByteMap, as a tree, behaves call by call as a sorted list, never panics and asks the list only for positions in range; as a collection it behaves as a finite map. A Tree over 16-bit keys whose summary, subtrees and collection are such byte maps is a sorted map on the histories C01 and C02 name. VecDeque is such a list.", "quantifier": "all value types, all implementations of List and TreeList keeping the contract, all histories, both builds", "why_tests_cant": "lists written by users do not exist yet when the library is tested; the library's tests only use VecDeque", "anchors": ["src/bitset/map/list.rs:16-30", "src/bitset/map/list.rs:113-124", "src/bitset/map/mod.rs:30-300"]}
{"id": "C56", "title": "A tree is built from what it holds, not from its history", "statement": "Two trees of one type whose histories are among those C01, C02 and C04 admit consist of the same records, keys and values in the same places, at every level and in summaries, exactly when they hold the same pairs; the only freedom is where a hash map keeps its entries, and without hash maps they are equal. So calls that put everything back leave no trace, in particular inserting a new key and removing it, and the order of insertions does not matter where any order is admitted. The equality ByteSet derives decides whether two sets hold the same keys. For Tree as it is this fails once a key was inserted below the least of two or more.", "quantifier": "all tree types, all keys and values, all admitted pairs of histories, both builds", "why_tests_cant": "tests compare answers, not the trees inside, and only along a few histories; that no pair of histories leaves a trace is a statement about all pairs", "anchors": ["src/tree.rs:29-47", "src/tree.rs:497-735", "src/collection/array.rs:87-198", "src/collection/hash.rs:33-121", "src/bitset/set.rs:5-31", "src/bitset/map/mod.rs:13-18", "src/lib.rs:169-172"]}
{"id": "C57", "title": "Trees over small keys never run out of room", "statement": "A tree holds at most as many pairs as its key types leave room for: 256 in a byte set or byte map, all keys in a BTreeMap, 2 plus (number of high halves) times (room of a child) in a Tree, whatever the history, the defect of Tree::insert included. If that is below usize::MAX, as for every marker up to 32 bits (on targets with wider pointers), boxed and counted or not, then no history at all panics, in either build, and the side condition of C01-C03 that fewer than usize::MAX pairs are stored holds by itself; likewise that of C04-C06 and C38 if there are fewer than usize::MAX keys. Tree as it is can hold one key twice, so the number of keys alone is no bound for it.", "quantifier": "all tree types with finitely many high halves, all keys and values, all histories of any length, both builds", "why_tests_cant": "filling a tree over 32-bit keys takes billions of insertions, and the claim is about every sequence of them of any length", "anchors": ["src/tree.rs:29-47", "src/lib.rs:169-325", "src/bitset/set.rs:5-31", "src/bitset/map/mod.rs:13-18", "src/markers.rs:19-77", "src/tree.rs:503-563"]}
{"id": "C58", "title": "Values are never looked at", "statement": "Two tree types over the same keys that nest Tree alike, whatever their leaves, collections, boxes and counters and whatever the types of their values, given the same calls with related values, answer with the same keys and truth values and with related values, for every relation and every history, in either build. So mapping all values handed over maps all values answered; what is answered apart from values does not depend on values; every value answered was handed over by some call; and iterators go through the same states and yield related pairs.", "quantifier": "all tree types, all relations between all value types, all histories, both builds", "why_tests_cant": "tests use a few value types; a free theorem speaks of all of them", "anchors": ["src/collection/mod.rs", "src/collection/hash.rs", "src/bitset", "src/tree.rs", "src/iter.rs Iter::next", "src/lib.rs"]}
{"id": "C59", "title": "What still holds once the insertion defect has struck", "statement": "For every tree type, every history (also one in which Tree::insert went wrong) and in every build: every pair answered by min, max, find, predecessor, successor, insert, remove or an iterator is one of the pairs stored; find and remove answer a pair with the key asked for; what find finds, remove takes out; and what was just inserted is found, can be removed, and is answered by a second insertion with the same key. It is not true that insert answers a pair with the key it is given, nor that a removed key is no longer found.", "quantifier": "all tree types, all reachable trees, all keys and values, all builds", "why_tests_cant": "tests stop at the first wrong answer; what remains reliable after one must hold in all the states wrong insertions can lead to", "anchors": ["src/tree.rs find", "src/tree.rs insert", "src/tree.rs remove", "src/iter.rs Iter::next", "src/lib.rs SizedVebTree"]}
{"id": "C60", "title": "Loops, nth and len over an iterator", "statement": "For every tree type and in every build, on trees reached by allowed insertions and after any mix of next and next_back: a loop over the iterator from either end, with any closure that may break off or panic (fold, collect, count, find, rev and the like), ends with the result of the same loop over the items left in the sorted list and leaves the iterator at what the list has left; nth and nth_back give the item at that place; and len of a SizedVebTree's iterator is the number of items left. With checks a loop ends on every tree whatsoever. On trees put out of order by the insertion defect len can panic in every build, and without checks a loop can fail to end.", "quantifier": "all tree types, all allowed histories, all sequences of next/next_back, all closures, all builds", "why_tests_cant": "the closure and the point at which it breaks off are arbitrary, and non-termination cannot be observed by running", "anchors": ["src/iter.rs Iter::next", "src/iter.rs Iter::next_back", "src/iter.rs Iter::size_hint", "src/lib.rs ExactSizeIterator for Iter<SizedVebTree>"]}
{"id": "C61", "title": "The laws asked of keys are the ones the trees need", "statement": "Let the parts of a Tree behave as sorted lists and a finite map. If the key order has no first or last key, the Tree behaves as a sorted map on all histories of ascending insertions if and only if: join undoes split_val, split_ref agrees with split_val, and keys are ordered as their halves are, high half first; the same for the corrected Tree on all histories. In any key order these are needed of all keys with one on either side, and split_ref of no other key may equal the halves of such a key. Nothing more is needed: a pair of halves need not come from a key. An array of trees is a finite map only if index is below Cardinality and injective, so an array indexed by i8, i16 or i32 is none; a hash map if and only if == is identity.", "quantifier": "all key types and orders, all parts that keep their contracts, all histories, all builds, Tree::insert as it is and corrected", "why_tests_cant": "it quantifies over key types and parts a user may write, and the converse derives the laws from the behaviour on all histories", "anchors": ["src/key.rs VebKey", "src/key.rs SizedVebKey", "src/tree.rs Tree::insert", "src/tree.rs Tree::find", "src/tree.rs Tree::successor", "src/tree.rs Tree::remove", "src/collection/array.rs", "src/collection/hash.rs"]}
{"id": "C62", "title": "What a caught panic leaves of a tree or an iterator", "statement": "Let code of the key type, a collection or an inner tree panic inside insert and the caller catch the panic. In every tree type without a SizedVebTree around it, with or without the insertion defect, the tree left behind holds some of the old pairs and the new one, at least one of them lost; no later call panics; each accounts for every pair held; answers are stored pairs; what is inserted afterwards is found and can be removed. If all insertions were allowed ones it is again a sorted map of exactly the pairs it holds, under operations and iterators. With a Tree on top, an insertion between the smallest and the largest key can leave only these two. A SizedVebTree keeps its old count: it is never too small but stays too large, every call but is_monad answers as the tree inside, and is_monad panics in a checked build exactly when one pair is left and the count is not one. A panic caught in next or next_back of an iterator leaves the iterator exhausted: it answers None from both ends for ever and size_hint is (0, Some(0)), whatever was left.", "quantifier": "all tree types, all histories with any number of caught panics at any point, all later calls, all builds", "why_tests_cant": "the panic can come from any foreign call in any state; tests would need a key type that panics at each of them in turn", "anchors": ["src/tree.rs Tree::insert", "src/lib.rs SizedVebTree::insert", "src/lib.rs SizedVebTree::is_monad", "src/lib.rs Box::insert", "src/iter.rs Iter::next", "src/iter.rs Iter::next_back"]}
{"id": "C63", "title": "Arrays of children need pointers wider than the high halves", "statement": "The array of children has as many slots as usize keeps of the type-level Cardinality. Where that is a multiple of 2^(pointer width) there are none: u32 halves on 32-bit targets (Marker64), u16 halves on 16-bit targets (Marker32), u64 halves on 64-bit targets (u128 keys). Such a tree panics on exactly those histories in which more than two keys are stored at a time, and answers as a sorted map up to there, whatever the order of insertions.", "quantifier": "every build and pointer width, every key type, summary and child type, every history of calls", "why_tests_cant": "tests run on the one pointer width of the machine, and the claim characterises all histories", "anchors": ["src/collection/array.rs:47-60", "src/collection/array.rs:102-110", "src/markers.rs:41-77", "src/tree.rs:544-561", "src/key.rs:254-266"]}
{"id": "C64", "title": "Arrays with a slot for some of the high halves only: exactly which calls panic", "statement": "ArrayTreeCollection takes the slot of a high half from SizedVebKey::index, which nothing keeps below the number of slots. If no two halves share a slot, a Tree over such an array panics exactly when a call uses the slot of a half that has none, by a predicate on sorted lists, and answers as a sorted map up to there. If each half has a slot nothing panics, though slots may be left over. With signed halves narrower than a pointer ([i16; 2] keys with Marker32) the halves from 0 on have none: find of an absent key above the maximum panics, predecessor of the same key does not.", "quantifier": "every build, key type with the laws of VebKey, summary and child type, index that is one to one below the number of slots, history of insertions as in C43 and any other calls", "why_tests_cant": "the claim is an equivalence over all histories and all index functions, and the arrays of the tests are indexed by unsigned keys", "anchors": ["src/collection/array.rs:47-60", "src/collection/array.rs:102-180", "src/key.rs:121-125", "src/key.rs:343-350", "src/tree.rs:153-164", "src/tree.rs:594-619", "src/markers.rs:50-58"]}
{"id": "C65", "title": "Exactly what a Tree answers on every history, the insertion defect included", "statement": "Tree::insert of a key below the minimum of a tree of two or more swaps the two remaining pairs (src/tree.rs 524-531). From then on the tree is no sorted map, but what it answers is still determined: a machine of a pair called minimum, a pair called maximum and a sorted list of pairs between, with the defect as one arm of one match, gives all answers of all 16 calls of VebTree, mutable ones and what they write included, for every history on one level of Tree, and at any depth as long as the defect strikes at the top only. remove_min hands out what the machine holds, in its order, and an iterator called at either end in any mix hands out, stops and panics as the machine says. The same holds in a Box and in a SizedVebTree, whose size counts what is held, keys stored twice included. Keys can be stored twice and insert can hand back a pair with another key than the one inserted. After any three insertions of which the last has the smallest key, a forward iterator misses the middle pair, a backward one never ends, and one called from both ends panics in a debug build.", "quantifier": "every build, key type with the laws of VebKey, summary type, child type, collection, history of calls with room for its pairs; for nested Trees, histories whose pairs that go between pass the test of C43 there", "why_tests_cant": "the tests never insert below a minimum, and the claim is about all histories after the defect has struck, in which the orderings the code relies on no longer hold", "anchors": ["src/tree.rs:112-169", "src/tree.rs:202-500", "src/tree.rs:503-562", "src/tree.rs:565-736", "src/iter.rs:40-197", "src/lib.rs:169-325", "src/lib.rs:327-431"]}
{"id": "C66", "title": "Exactly which states a tree can be in", "statement": "After any history, the defect of Tree::insert included, the records of a tree agree with each other at every level: no tree, collection or list is empty, the summary lists each high half there is a child for once, each child holds the low halves of its own high half, an array has a slot for every high half and counts the occupied ones, the values of a byte map match the bits of its set, a SizedVebTree counts its pairs, and what is held in all is what was inserted and not handed back. That agreement suffices: from any such state no call panics and the agreement is kept. If moreover every minimum is least and every maximum greatest, the tree answers as the sorted map, and these states are exactly the ones that histories admitted by C01-C06 and C43 lead to, up to where a hash map keeps its entries. So List::is_empty is always false and TreeList::len never panics.", "quantifier": "for all tree types, builds, states, pairs and histories", "why_tests_cant": "tests look at answers, not at the private fields of a tree, and reach only a few states; that a summary or a counter is stale shows many calls later if at all", "anchors": ["src/tree.rs:28-47", "src/collection/array.rs:87-198", "src/collection/hash.rs:33-121", "src/bitset/map/mod.rs:13-18", "src/bitset/map/list.rs:16-152", "src/lib.rs:169-172"]}
{"id": "C67", "title": "The orders of insertion that the defect spares", "statement": "Insert n distinct keys one after the other into a tree with one level of Tree, boxed or sized or not. Every question asked in between and at the end is answered as by a sorted map if and only if the smallest key is inserted first or second. So of the n! orders exactly 2(n-1)! go well, for n >= 2. At any depth the smallest key has to come first or second as well, and no more orders than that go well. With no Tree inside, or with Tree::insert corrected, every order goes well.", "quantifier": "for all tree types, builds, keys, values and orders", "why_tests_cant": "a test tries a few orders, and the repository's own tests insert in ascending or lucky ones; which orders go wrong and how many is a statement about all of them", "anchors": ["src/tree.rs:502-562"]}
{"id": "C68", "title": "Keeping the least key avoids the defect at one level only", "statement": "In a tree with at most one level of Tree, boxed or sized or not, insert the least key of the key type first and never take it out: then every call of every history is answered as by a sorted map, the insertion defect notwithstanding. With two levels this does not help, since the children suffer from the same defect.", "quantifier": "for all tree types of one level, builds, keys, values and histories", "why_tests_cant": "that a workaround is safe is a claim about every history that follows it; that it fails one level deeper shows only for keys that share a high half and arrive in an unlucky order", "anchors": ["src/tree.rs:502-562", "src/markers.rs:1-60"]}
{"id": "C69", "title": "A caller can undo the insertion defect through the public interface", "statement": "Inserting a key below the minimum of two pairs or more and calling remove_max right after hands out the old minimum and leaves the tree as if the new pair had taken its place. A wrapper that does so and then inserts the old minimum again makes a Tree over sound parts keep the whole contract of VebTree, the defect notwithstanding. With every Tree of a type so wrapped, every history is answered as by a sorted map at any depth. Around a sound tree the wrapper does no harm. Wrapping only the outermost of two levels is not enough.", "quantifier": "for all key types, tree and collection types keeping their contracts, depths, builds and histories", "why_tests_cant": "that a repair is complete is a claim about every history and every nesting of types, and the repair leans on what the tree looks like after the defect has struck", "anchors": ["src/tree.rs:502-562", "src/tree.rs:696-736", "src/lib.rs:32-161"]}
{"id": "C70", "title": "What insertions alone can and cannot spoil, and how a tree they built is put right", "statement": "In a tree built by insertions in any order, repeated keys included, the insertion defect never makes is_monad, min_val or find answer otherwise than a sorted map, at any depth. remove_min until the tree is gone hands out, of the pairs stored with one key, the newest last, so that a map filled from it is exactly the map the tree should have been. A tree rebuilt from that map in ascending order answers from then on as it should have from the start. The answers of max_val, predecessor, successor and insert are not safe, and after one removal neither find nor the collected map is.", "quantifier": "for all tree types of any depth, builds, and histories of insertions and questions", "why_tests_cant": "the order of pairs with equal keys inside a tree out of order depends on every insertion before; that the newest always comes last, at every level, is a claim about all of them", "anchors": ["src/tree.rs:502-562", "src/tree.rs:652-693", "src/tree.rs:142-169", "src/lib.rs:32-161"]}
{"id": "C71", "title": "Inserting absent keys and removing by key always goes right", "statement": "As long as only absent keys are inserted and pairs are taken out by key, the insertion defect (src/tree.rs 524-531) loses or doubles nothing: at any depth and in any order of keys every insert, remove, into_monad and is_monad answers as a sorted map does, a SizedVebTree counts right, and what remove_min or remove_max hand out until the tree is gone are exactly the pairs of the map, in some order; rebuilt from them in ascending order the tree is right again. So a dictionary that takes a key out before it inserts it, and finds by taking out and putting back, is right on every history. find, min_val, max_val, predecessor and successor are not safe, and neither are insert and remove once a key that is there was inserted again.", "quantifier": "for all tree types of any depth, builds, and histories of insertions of absent keys, removals by key and questions", "why_tests_cant": "where the defect puts pairs depends on every call before; that removal by key still finds every one of them, at every level, is a claim about all of them", "anchors": ["src/tree.rs:502-562", "src/tree.rs:563-651", "src/lib.rs:32-161", "src/lib.rs:541-580"]}
{"id": "C72", "title": "The hash function and the table behind a HashMap collection do not show", "statement": "The hash collection (src/collection/hash.rs) is a correct collection over any map that keeps each key once and finds what it keeps: an association list, or a table of rows with any hash function, any seed, any size and any moment of growth. Every history on every tree type, the insertion defect included, gets the same answers whatever hash maps are inside and in whatever build, and its iterators give the same pairs; so these types are sorted maps wherever the library's are. It fails if keys that are equal may have different hashes.", "quantifier": "for all hash maps that keep the contract, all hash functions, seeds, sizes and growth policies of a table, all tree types, builds and histories", "why_tests_cant": "DefaultHashBuilder draws a new seed for every map, so a test sees one of very many placements of its keys; S: BuildHasher is a public parameter that no test instantiates", "anchors": ["src/collection/hash.rs:21-33", "src/collection/hash.rs:33-124"]}
{"id": "C73", "title": "The ordered map behind BTreeMap does not show", "statement": "The implementation of VebTree for BTreeMap (src/lib.rs 433-580) keeps the contract of a tree over any ordered map whose operations do what their documentation says, asking only for ranges that do not panic: a sorted list, or an unbalanced search tree. Every history over such a map gets the answers of the sorted list, and the map left holds the list left. Every history on every tree type, the insertion defect included, gets the same answers whatever ordered maps and hash maps are inside and in whatever build, and its iterators give the same pairs. It fails for an order of keys that is not transitive.", "quantifier": "for all ordered maps and hash maps that keep their contracts, all key types with a lawful order, all tree types, builds and histories", "why_tests_cant": "a test runs one implementation of BTreeMap on some keys; that only its documented behaviour is relied on, for every map and every history, is a statement about all implementations", "anchors": ["src/lib.rs:433-580"]}
{"id": "C74", "title": "The buffer behind VecDeque does not show", "statement": "The implementations of List and TreeList for VecDeque (src/bitset/map/list.rs 36-107, 130-152) keep their contracts over any double-ended queue whose operations, at positions in range, do what their documentation says: a list, a list that misbehaves out of range, or a ring buffer, however it grows and whichever side it moves. After every history on a map of bytes over such a queue the set has the keys of the sorted list and the queue its values, in order. Every history on every tree type, the insertion defect included, gets the same answers whatever queues, ordered maps and hash maps are inside and in whatever build, and its iterators give the same pairs.", "quantifier": "for all queues, ordered maps and hash maps that keep their contracts, all tree types, builds and histories; for the ring buffer, all growth policies, starting slots and choices of side", "why_tests_cant": "a test runs one VecDeque, with its own growth and its own wrap-around; that the library never leaves the range and never depends on the layout, for any queue and any history, is a statement about all implementations", "anchors": ["src/bitset/map/list.rs:36-107", "src/bitset/map/list.rs:130-152", "src/bitset/map/mod.rs:36-119", "src/bitset/map/mod.rs:131-300"]}
{"id": "C75", "title": "Probing and tombstones do not show", "statement": "A hash map of one array of slots, searched group by group with growing steps, with a tag per slot, tombstones, and rebuildings (the published layout of hashbrown, the crate behind src/collection/hash.rs) keeps the contract of C72, so the library's collection over it is right (src/collection/hash.rs 33-124) and every history on a tree type with such maps gets the answers the other files prove. Both search loops end on every table a program can come to, for every key; pairs, tombstones and free room always add up; the steps reach every group. Making the slot of a removed pair empty whatever surrounds it would lose another pair.", "quantifier": "for all hash functions, seeds, tags, group widths that are powers of two, first sizes, wishes for the size at a rebuilding, types of keys and trees, builds and histories", "why_tests_cant": "which keys collide depends on the random seed of the hash function: a test sees a few layouts of a few tables, while the statement covers every layout, all keys in one chain included", "anchors": ["src/collection/hash.rs:33-124"]}
{"id": "C76", "title": "Nodes, splits and merges do not show", "statement": "A B-tree with nodes of five to eleven pairs, split, merged and refilled by the rules published for the standard library's BTreeMap, keeps the contract of C73. So the library's implementation of VebTree over it (src/lib.rs 433-580) answers every history as the sorted list of pairs does, and every tree type with such maps inside gets the answers the other files prove, the insertion defect included. The tree left by any history holds exactly the pairs of the list, knows their number, and is well shaped: with n pairs and h levels below the root, 2 * 6^h <= n + 1 <= 12^(h+1), and a lookup compares at most 11 * (h + 1) keys. A key that is there stays the one stored when an equal key is inserted.", "quantifier": "for all key types with a total order, value types, builds, histories and sizes; C76_same and C76_sorted_map for all tree types, and all hash maps that keep the contract of C72", "why_tests_cant": "which merge, which steal and which split a removal or insertion meets depends on the whole history; a tree three levels high needs hundreds of pairs, and the number of shapes grows beyond any test", "anchors": ["src/lib.rs:433-580"]}
{"id": "C77", "title": "The whole stack, with no container left to trust", "statement": "Every type the library can build, put on top of a probed hash table (C75), a B-tree (C76) and a ring buffer (C74) instead of maps and queues assumed to be right, never panics, answers every history as the types of the other files do, iterates alike, and is a sorted map wherever they are (src/tree.rs 80-736, src/lib.rs 433-580, src/collection/hash.rs 33-124, src/bitset/map/list.rs 36-152). What is assumed is the order and the splitting of the keys, nothing of the containers.", "quantifier": "for all tree types, builds, histories, hash functions, seeds, tags, group widths, sizes, plans of growth and choices of the side that moves", "why_tests_cant": "each container has layouts that a test meets by chance only, and the layouts of the three multiply", "anchors": ["src/tree.rs:80-736", "src/lib.rs:433-580", "src/collection/hash.rs:33-124", "src/bitset/map/list.rs:36-152"]}
{"id": "C78", "title": "Rebuilding the hash table costs a constant for each insertion", "statement": "Whatever trees are put in and taken out of a collection kept in the probed hash table (src/collection/hash.rs 43, 59-72, 75-124), the rebuildings of the table move at most two pairs for each insertion of an absent key, and the table has at most eight slots for each pair of the most that were in at once, unless it still has its first size. The insertions counted are exactly those of absent keys, and a call not counted as a move of all pairs changes at most one slot. To keep the size whenever the pairs fit does not do.", "quantifier": "for all keys, trees, hash functions, seeds, tags, group widths, first sizes and histories", "why_tests_cant": "an amortised bound is about every history; a benchmark measures a few, and the bad ones alternate deletions and insertions in a nearly full table", "anchors": ["src/collection/hash.rs:43", "src/collection/hash.rs:59-72", "src/collection/hash.rs:75-124"]}
{"id": "C79", "title": "How many nodes a B-tree creates and frees", "statement": "In the B-tree after the standard library's design that stands behind BTreeMap (src/lib.rs 433-580), an insertion creates at most h+2 nodes and frees none and a removal frees at most h+1 and creates none, with h levels below the root; there are five pairs for each node but one; a full node is split where the table of the design says, and a node that ran under is merged exactly if one node can hold both; insertions alone create at most one node for five of them. But mixed with removals no constant is enough: falling keys lead to a tree of any height h where putting the next key in creates h+2 nodes and taking it out again frees them all and leaves the very same tree, over and over.", "quantifier": "for all key types with a lawful order, trees, histories and heights; the unbounded cost for every constant", "why_tests_cant": "the bad state needs the whole left edge full at once, and a bound for all constants cannot be tested", "anchors": ["src/lib.rs:541-550", "src/lib.rs:551-564", "src/lib.rs:565-579"]}
{"id": "C80", "title": "Rebuilding the hash tables inside a whole tree costs a fixed number of moves per insertion", "statement": "In a tree whose hash collections are probed tables, over any history of calls, the pairs that all the tables inside it move at rebuildings, together with the slots of the arrays that are made, are at most a number per insertion that depends on the type alone: at each Tree the larger of what its children need and of what a new member of its collection and a new key of its summary need, where a new member of a table needs two and one of an array its slots. With hash collections only this is at most two for each level of trees. Calls that do not insert move nothing. No smaller number is enough for one level or for two, and a single insertion may move more pairs than it has paid for (28 in the witness).", "quantifier": "for all tree types of the library, builds, hash functions, seeds, group widths, first sizes, trees and histories", "why_tests_cant": "the bound is on the sum over all tables of all levels, for all histories and hash functions; a single call may exceed it by far", "anchors": ["src/collection/hash.rs:42-48", "src/collection/hash.rs:57-67", "src/collection/hash.rs:69-123", "src/tree.rs:503-562", "src/tree.rs:565-736"]}
{"id": "C81", "title": "What the ring buffer behind a ByteMap's list writes", "statement": "An insertion at place i into a ring buffer of n values that is not full writes at most 1 + min(i, n - i) slots, a removal at most min(i, n - i - 1), a change in place one; so in a ByteMap, after any history of calls, the next call writes at most 128 slots of the buffer or replaces a full one, and the buffer has 1, 4, 8, 16, 32, 64, 128 or 256 slots, never more. In a ByteMap of trees each call of the collection writes at most half as many slots as there are trees and one, or replaces a full buffer. Only an insertion into a full buffer replaces it, by one of twice the slots (four at least), and then at most half of the values are in another slot than before. Over any history all this copying together is of fewer values than twice the most there ever were at once, and the buffer is never longer than that. Fewer slots are not enough, and always moving the values behind the place is not.", "quantifier": "for all types of values, rings, places and histories of insertions and removals, with no bound on their length", "why_tests_cant": "the bounds hold for every ring state, wrapped around or not, and every history; a ring that moves the longer side or grows by a fixed number of slots answers every call correctly", "anchors": ["src/bitset/map/list.rs:52-54", "src/bitset/map/list.rs:55-106", "src/bitset/map/list.rs:144-151", "src/bitset/map/mod.rs:131-300", "src/bitset/map/mod.rs:36-119"]}
