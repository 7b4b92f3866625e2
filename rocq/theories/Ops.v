(** The traits of the crate as records of functions. *)
From Verif Require Import Base.

(** [trait VebTree] (src/lib.rs 32-161).  [K], [V] are [Self::Key], [Self::Value], [vt] is [Self].
    Simplifications: a key returned as [MaybeBorrowed<Key>] is represented by the key it
    dereferences to (see MaybeBorrowed in Key.v); [&V] by the value; [&mut V] by the value together
    with the function giving the whole tree after a write through the reference; [&mut self]
    methods return the new tree; a query argument [Q: Borrow<Key>] is represented by the key. *)
Record VebOps (K V : Type) : Type := mkVeb {
  vt : Type;
  v_from_monad : K -> V -> vt;                                               (* lib.rs 41 *)
  v_is_monad : vt -> res bool;                                               (* lib.rs 46 *)
  v_len_hint : vt -> res (N * option N);                                     (* lib.rs 51-57 *)
  v_into_monad : vt -> res (result (K * V) vt);                              (* lib.rs 62 *)
  v_min_val : vt -> res (K * V);                                             (* lib.rs 67 *)
  v_min_val_mut : vt -> res (K * V * (V -> vt));                             (* lib.rs 72 *)
  v_max_val : vt -> res (K * V);                                             (* lib.rs 77 *)
  v_max_val_mut : vt -> res (K * V * (V -> vt));                             (* lib.rs 82 *)
  v_find : vt -> K -> res (option (K * V));                                  (* lib.rs 94 *)
  v_find_mut : vt -> K -> res (option (K * V * (V -> vt)));                  (* lib.rs 101 *)
  v_predecessor : vt -> K -> res (option (K * V));                           (* lib.rs 108 *)
  v_predecessor_mut : vt -> K -> res (option (K * V * (V -> vt)));           (* lib.rs 115 *)
  v_successor : vt -> K -> res (option (K * V));                             (* lib.rs 125 *)
  v_successor_mut : vt -> K -> res (option (K * V * (V -> vt)));             (* lib.rs 132 *)
  v_insert : vt -> K -> V -> res (vt * option (K * V));                      (* lib.rs 143 *)
  v_remove : vt -> K -> res (result (option vt * (K * V)) vt);               (* lib.rs 148 *)
  v_remove_min : vt -> res (option vt * (K * V));                            (* lib.rs 155 *)
  v_remove_max : vt -> res (option vt * (K * V))                             (* lib.rs 160 *)
}.
Arguments vt {K V}.
Arguments v_from_monad {K V}.
Arguments v_is_monad {K V}.
Arguments v_len_hint {K V}.
Arguments v_into_monad {K V}.
Arguments v_min_val {K V}.
Arguments v_min_val_mut {K V}.
Arguments v_max_val {K V}.
Arguments v_max_val_mut {K V}.
Arguments v_find {K V}.
Arguments v_find_mut {K V}.
Arguments v_predecessor {K V}.
Arguments v_predecessor_mut {K V}.
Arguments v_successor {K V}.
Arguments v_successor_mut {K V}.
Arguments v_insert {K V}.
Arguments v_remove {K V}.
Arguments v_remove_min {K V}.
Arguments v_remove_max {K V}.

(** The default body of [VebTree::len_hint] (src/lib.rs 51-57). *)
Definition default_len_hint {T} (is_monad : T -> res bool) (t : T) : res (N * option N) :=
  m <- is_monad t ;;
  Ret (if m then (1%N, None) else (2%N, None)).

(** [trait TreeCollection] (src/collection/mod.rs 61-106) for trees of the dictionary [Tr].
    [ct] is [Self], [Hi] is [Self::Hi]. *)
Record CollOps (Hi Lo V : Type) (Tr : VebOps Lo V) : Type := mkColl {
  ct : Type;
  c_create : Hi -> vt Tr -> res ct;                                          (* mod.rs 69 *)
  c_get : ct -> Hi -> res (option (vt Tr));                                  (* mod.rs 72 *)
  c_get_mut : ct -> Hi -> res (option (vt Tr * (vt Tr -> ct)));              (* mod.rs 75 *)
  c_insert_key : ct -> Hi -> Lo * V -> res (ct * result Hi (Hi * option (Lo * V)));  (* mod.rs 84 *)
  c_remove_key : ct -> Hi -> (vt Tr -> res (option (vt Tr) * (Lo * V))) ->
                 res (option (ct * bool) * (Lo * V));                        (* mod.rs 92-95 *)
  c_maybe_remove_key : ct -> Hi -> (vt Tr -> res (result (option (vt Tr) * (Lo * V)) (vt Tr))) ->
                 res (result (option (ct * bool) * (Lo * V)) ct)             (* mod.rs 102-105 *)
}.
Arguments ct {Hi Lo V Tr}.
Arguments c_create {Hi Lo V Tr}.
Arguments c_get {Hi Lo V Tr}.
Arguments c_get_mut {Hi Lo V Tr}.
Arguments c_insert_key {Hi Lo V Tr}.
Arguments c_remove_key {Hi Lo V Tr}.
Arguments c_maybe_remove_key {Hi Lo V Tr}.

(** [trait VebKey: Ord] with [VebKeyRef] (src/key.rs 94-106), together with the [Ord] of the key and
    of its two components.  [split_ref] hands its two components to a closure: it is represented by
    the pair of components. *)
Record KeyOps (K Hi Lo : Type) : Type := mkKey {
  k_cmp : K -> K -> comparison;
  hi_cmp : Hi -> Hi -> comparison;
  lo_cmp : Lo -> Lo -> comparison;
  k_split_val : K -> Hi * Lo;                                                (* key.rs 98 *)
  k_join : Hi -> Lo -> K;                                                    (* key.rs 99 *)
  k_split_ref : K -> Hi * Lo                                                 (* key.rs 103-105 *)
}.
Arguments k_cmp {K Hi Lo}.
Arguments hi_cmp {K Hi Lo}.
Arguments lo_cmp {K Hi Lo}.
Arguments k_split_val {K Hi Lo}.
Arguments k_join {K Hi Lo}.
Arguments k_split_ref {K Hi Lo}.

(** [trait SizedVebKey] (src/key.rs 121-125): [i_card] is [Cardinality], the type-level
    number of slots the array collection allocates, [i_CARDINALITY] the associated constant. *)
Record IdxOps (H : Type) : Type := mkIdx {
  i_card : N;
  i_CARDINALITY : N;
  i_index : H -> N
}.
Arguments i_card {H}.
Arguments i_CARDINALITY {H}.
Arguments i_index {H}.
