(** The running time of the operations.  The documentation of the trait promises "Complexity is expected to be
    O(lg lg K)" for the queries and updates and O(1) for the extremes (src/lib.rs 32-161).  The functions of the model
    are written a second time, in a monad that counts; forgetting the counts gives back the functions of the model
    (CostCor.v, C44_faithful), so what is counted is what runs.

    Counted as one call: a call of a method of [Tree], of a tree at the bottom ([ByteSet], [ByteMap], [BTreeMap]) and
    of a collection (with the calls its closure makes on top).  [Box] and [SizedVebTree] only pass a call on: they
    count nothing.  Counted apart, as slots: the [Cardinality] slots an array collection is created with
    (src/collection/array.rs 102-110).  What one call does beyond that is a bounded number of comparisons, splits and
    joins of keys, and the work of one call of an external container. *)
From Verif Require Import Base Ints Ops ByteSet ByteMap Coll Boxed BTree SizedT Tree Types.

(** *** Computations with their costs *)
Record cres (A : Type) : Type := CR { outcome : res A; calls : N; slots : N }.
Arguments CR {A}.
Arguments outcome {A}.
Arguments calls {A}.
Arguments slots {A}.

Definition pay {A} (c s : N) (m : res A) : cres A := CR m c s.
Definition free {A} (m : res A) : cres A := pay 0 0 m.
Definition cret {A} (a : A) : cres A := free (Ret a).
Definition cpanic {A} : cres A := free Panic.
Definition cbind {A B} (m : cres A) (f : A -> cres B) : cres B :=
  match outcome m with
  | Ret a => let r := f a in CR (outcome r) (calls m + calls r) (slots m + slots r)
  | Panic => CR Panic (calls m) (slots m)
  end.
(** one call more *)
Definition tick {A} (m : cres A) : cres A := CR (outcome m) (1 + calls m) (slots m).
Notation "x <~ m ;; k" := (cbind m (fun x => k))
  (at level 61, m at next level, right associativity) : res_scope.
Notation "' p <~ m ;; k" := (cbind m (fun x => match x with p => k end))
  (at level 61, p pattern, m at next level, right associativity) : res_scope.
Definition cmap {A B} (f : A -> B) (m : cres A) : cres B := a <~ m ;; cret (f a).

(** *** The traits with counted methods: for the trees and collections of a given dictionary *)
Record CVeb {K V : Type} (O : VebOps K V) : Type := mkCVeb {
  cv_from_monad : K -> V -> cres (vt O);
  cv_is_monad : vt O -> cres bool;
  cv_into_monad : vt O -> cres (result (K * V) (vt O));
  cv_min_val : vt O -> cres (K * V);
  cv_min_val_mut : vt O -> cres (K * V * (V -> vt O));
  cv_max_val : vt O -> cres (K * V);
  cv_max_val_mut : vt O -> cres (K * V * (V -> vt O));
  cv_find : vt O -> K -> cres (option (K * V));
  cv_find_mut : vt O -> K -> cres (option (K * V * (V -> vt O)));
  cv_predecessor : vt O -> K -> cres (option (K * V));
  cv_predecessor_mut : vt O -> K -> cres (option (K * V * (V -> vt O)));
  cv_successor : vt O -> K -> cres (option (K * V));
  cv_successor_mut : vt O -> K -> cres (option (K * V * (V -> vt O)));
  cv_insert : vt O -> K -> V -> cres (vt O * option (K * V));
  cv_remove : vt O -> K -> cres (result (option (vt O) * (K * V)) (vt O));
  cv_remove_min : vt O -> cres (option (vt O) * (K * V));
  cv_remove_max : vt O -> cres (option (vt O) * (K * V))
}.
Arguments cv_from_monad {K V O}.
Arguments cv_is_monad {K V O}.
Arguments cv_into_monad {K V O}.
Arguments cv_min_val {K V O}.
Arguments cv_min_val_mut {K V O}.
Arguments cv_max_val {K V O}.
Arguments cv_max_val_mut {K V O}.
Arguments cv_find {K V O}.
Arguments cv_find_mut {K V O}.
Arguments cv_predecessor {K V O}.
Arguments cv_predecessor_mut {K V O}.
Arguments cv_successor {K V O}.
Arguments cv_successor_mut {K V O}.
Arguments cv_insert {K V O}.
Arguments cv_remove {K V O}.
Arguments cv_remove_min {K V O}.
Arguments cv_remove_max {K V O}.

Record CColl {Hi Lo V : Type} {Tr : VebOps Lo V} (C : CollOps Hi Lo V Tr) : Type := mkCColl {
  cc_create : Hi -> vt Tr -> cres (ct C);
  cc_get : ct C -> Hi -> cres (option (vt Tr));
  cc_get_mut : ct C -> Hi -> cres (option (vt Tr * (vt Tr -> ct C)));
  cc_insert_key : ct C -> Hi -> Lo * V -> cres (ct C * result Hi (Hi * option (Lo * V)));
  cc_remove_key : ct C -> Hi -> (vt Tr -> cres (option (vt Tr) * (Lo * V))) ->
                  cres (option (ct C * bool) * (Lo * V));
  cc_maybe_remove_key : ct C -> Hi -> (vt Tr -> cres (result (option (vt Tr) * (Lo * V)) (vt Tr))) ->
                  cres (result (option (ct C * bool) * (Lo * V)) (ct C))
}.
Arguments cc_create {Hi Lo V Tr C}.
Arguments cc_get {Hi Lo V Tr C}.
Arguments cc_get_mut {Hi Lo V Tr C}.
Arguments cc_insert_key {Hi Lo V Tr C}.
Arguments cc_remove_key {Hi Lo V Tr C}.
Arguments cc_maybe_remove_key {Hi Lo V Tr C}.

(** *** Trees at the bottom: one call each (src/bitset/set.rs 110-245, src/bitset/map/mod.rs 131-300,
    src/lib.rs 433-580) *)
Definition leaf_cost {K V} (O : VebOps K V) : CVeb O :=
  {| cv_from_monad := fun k v => pay 1 0 (Ret (v_from_monad O k v));
     cv_is_monad := fun t => pay 1 0 (v_is_monad O t);
     cv_into_monad := fun t => pay 1 0 (v_into_monad O t);
     cv_min_val := fun t => pay 1 0 (v_min_val O t);
     cv_min_val_mut := fun t => pay 1 0 (v_min_val_mut O t);
     cv_max_val := fun t => pay 1 0 (v_max_val O t);
     cv_max_val_mut := fun t => pay 1 0 (v_max_val_mut O t);
     cv_find := fun t k => pay 1 0 (v_find O t k);
     cv_find_mut := fun t k => pay 1 0 (v_find_mut O t k);
     cv_predecessor := fun t k => pay 1 0 (v_predecessor O t k);
     cv_predecessor_mut := fun t k => pay 1 0 (v_predecessor_mut O t k);
     cv_successor := fun t k => pay 1 0 (v_successor O t k);
     cv_successor_mut := fun t k => pay 1 0 (v_successor_mut O t k);
     cv_insert := fun t k v => pay 1 0 (v_insert O t k v);
     cv_remove := fun t k => pay 1 0 (v_remove O t k);
     cv_remove_min := fun t => pay 1 0 (v_remove_min O t);
     cv_remove_max := fun t => pay 1 0 (v_remove_max O t) |}.

(** *** Box (src/lib.rs 327-431) and SizedVebTree (src/lib.rs 183-325) *)
Definition box_cost {K V} {O : VebOps K V} (CO : CVeb O) : CVeb (Box_ops O) :=
  {| cv_from_monad := fun k v => cmap mkbox (cv_from_monad CO k v) : cres (vt (Box_ops O));
     cv_is_monad := fun t => cv_is_monad CO (unbox t);
     cv_into_monad := fun t =>
       r <~ cv_into_monad CO (unbox t) ;;
       match r with
       | Ok p => cret (Ok p)
       | Err t' => cret (Err (mkbox t'))
       end;
     cv_min_val := fun t => cv_min_val CO (unbox t);
     cv_min_val_mut := fun t => cmap (box_lens O) (cv_min_val_mut CO (unbox t));
     cv_max_val := fun t => cv_max_val CO (unbox t);
     cv_max_val_mut := fun t => cmap (box_lens O) (cv_max_val_mut CO (unbox t));
     cv_find := fun t k => cv_find CO (unbox t) k;
     cv_find_mut := fun t k => cmap (omap (box_lens O)) (cv_find_mut CO (unbox t) k);
     cv_predecessor := fun t k => cv_predecessor CO (unbox t) k;
     cv_predecessor_mut := fun t k => cmap (omap (box_lens O)) (cv_predecessor_mut CO (unbox t) k);
     cv_successor := fun t k => cv_successor CO (unbox t) k;
     cv_successor_mut := fun t k => cmap (omap (box_lens O)) (cv_successor_mut CO (unbox t) k);
     cv_insert := fun t k v => ' (t', r) <~ cv_insert CO (unbox t) k v ;; cret (mkbox t', r);
     cv_remove := fun t k =>
       r <~ cv_remove CO (unbox t) k ;;
       match r with
       | Ok p => cret (Ok (box_rm O p))
       | Err t' => cret (Err (mkbox t'))
       end;
     cv_remove_min := fun t => cmap (box_rm O) (cv_remove_min CO (unbox t));
     cv_remove_max := fun t => cmap (box_rm O) (cv_remove_max CO (unbox t)) |}.

Section SizedCost.
  Context {B : Build} {K V : Type} {O : VebOps K V} (CO : CVeb O).
  Let T := vt O.
  Definition csz_insert (t : sized T) (k : K) (v : V) : cres (sized T * option (K * V)) :=  (* lib.rs 275-281 *)
    ' (t', r) <~ cv_insert CO (sz_tree t) k v ;;
    match r with
    | None => n <~ free (expect (checked_add (sz_size t) 1)) ;; cret (SZ t' n, r)
    | Some _ => cret (SZ t' (sz_size t), r)
    end.
  Definition csz_remove (t : sized T) (k : K) :
    cres (result (option (sized T) * (K * V)) (sized T)) :=                    (* lib.rs 283-300 *)
    r <~ cv_remove CO (sz_tree t) k ;;
    match r with
    | Ok (Some t', p) =>
        n <~ free (checked_sub (sz_size t) 1) ;;
        n' <~ free (expect (nonzero n)) ;;
        cret (Ok (Some (SZ t' n'), p))
    | Ok (None, p) => cret (Ok (None, p))
    | Err t' => cret (Err (SZ t' (sz_size t)))
    end.
  (** lib.rs 302-312, 314-324 *)
  Definition csz_remove_end (rm : T -> cres (option T * (K * V))) (t : sized T) :
    cres (option (sized T) * (K * V)) :=
    n <~ free (checked_sub (sz_size t) 1) ;;
    let new_size := nonzero n in
    ' (ot, v) <~ rm (sz_tree t) ;;
    match ot with
    | Some t' => n' <~ free (expect new_size) ;; cret (Some (SZ t' n'), v)
    | None => cret (None, v)
    end.
  Definition sized_cost : CVeb (Sized_ops O) :=
    {| cv_from_monad := fun k v => cmap (fun t => SZ t 1) (cv_from_monad CO k v) : cres (vt (Sized_ops O));
       cv_is_monad := fun t =>
         b <~ cv_is_monad CO (sz_tree t) ;;
         if b then _ <~ free (debug_assert (sz_size t =? 1)%N) ;; cret true else cret false;
       cv_into_monad := fun t =>
         r <~ cv_into_monad CO (sz_tree t) ;;
         match r with
         | Ok p => cret (Ok p)
         | Err t' => cret (Err (SZ t' (sz_size t)))
         end;
       cv_min_val := fun t => cv_min_val CO (sz_tree t);
       cv_min_val_mut := fun t => cmap (sz_lens O t) (cv_min_val_mut CO (sz_tree t));
       cv_max_val := fun t => cv_max_val CO (sz_tree t);
       cv_max_val_mut := fun t => cmap (sz_lens O t) (cv_max_val_mut CO (sz_tree t));
       cv_find := fun t k => cv_find CO (sz_tree t) k;
       cv_find_mut := fun t k => cmap (omap (sz_lens O t)) (cv_find_mut CO (sz_tree t) k);
       cv_predecessor := fun t k => cv_predecessor CO (sz_tree t) k;
       cv_predecessor_mut := fun t k => cmap (omap (sz_lens O t)) (cv_predecessor_mut CO (sz_tree t) k);
       cv_successor := fun t k => cv_successor CO (sz_tree t) k;
       cv_successor_mut := fun t k => cmap (omap (sz_lens O t)) (cv_successor_mut CO (sz_tree t) k);
       cv_insert := csz_insert;
       cv_remove := csz_remove;
       cv_remove_min := csz_remove_end (cv_remove_min CO);
       cv_remove_max := csz_remove_end (cv_remove_max CO) |}.
End SizedCost.

(** *** Array collection (src/collection/array.rs 93-198): [create] makes [Cardinality] slots *)
Section ArrayCost.
  Context {B : Build} {Hi Lo V : Type} (ix : IdxOps Hi) {Tr : VebOps Lo V} (CT : CVeb Tr).
  Let T := vt Tr.
  Let A := ArrayColl T.
  Definition cac_insert_key (c : A) (h : Hi) (lv : Lo * V) :
    cres (A * result Hi (Hi * option (Lo * V))) :=                    (* array.rs 120-132 *)
    tick (
    o <~ free (oa_get (ac_array c) (i_index ix h)) ;;
    match o with
    | None =>
        t0 <~ cv_from_monad CT (fst lv) (snd lv) ;;
        a <~ free (oa_set (ac_array c) (i_index ix h) (Some t0)) ;;
        n <~ free (usize_add (ac_count c) 1) ;;
        cret (AC a n, Ok h)
    | Some t =>
        ' (t', v) <~ cv_insert CT t (fst lv) (snd lv) ;;
        a <~ free (oa_set (ac_array c) (i_index ix h) (Some t')) ;;
        cret (AC a (ac_count c), Err (h, v))
    end).
  Definition cac_remove_key (c : A) (h : Hi) (f : T -> cres (option T * (Lo * V))) :
    cres (option (A * bool) * (Lo * V)) :=                            (* array.rs 139-162 *)
    tick (
    o <~ free (oa_get (ac_array c) (i_index ix h)) ;;
    a <~ free (oa_set (ac_array c) (i_index ix h) None) ;;
    t <~ free (expect o) ;;
    ' (ot, val) <~ f t ;;
    r <~ free (ac_store ix Tr a (ac_count c) h ot) ;;
    cret (r, val)).
  Definition cac_maybe_remove_key (c : A) (h : Hi)
    (f : T -> cres (result (option T * (Lo * V)) T)) :
    cres (result (option (A * bool) * (Lo * V)) A) :=                 (* array.rs 169-197 *)
    tick (
    o <~ free (oa_get (ac_array c) (i_index ix h)) ;;
    a <~ free (oa_set (ac_array c) (i_index ix h) None) ;;
    match o with
    | None => cret (Err (AC a (ac_count c)))
    | Some t =>
        r <~ f t ;;
        match r with
        | Err t' =>
            a' <~ free (oa_set a (i_index ix h) (Some t')) ;;
            cret (Err (AC a' (ac_count c)))
        | Ok (ot, val) =>
            r' <~ free (ac_store ix Tr a (ac_count c) h ot) ;;
            cret (Ok (r', val))
        end
    end).
  Definition array_cost : CColl (Array_coll ix Tr) :=
    {| cc_create := fun h t => pay 1 (card_usize (i_card ix)) (ac_create ix Tr h t) : cres (ct (Array_coll ix Tr));  (* array.rs 102-110 *)
       cc_get := fun c h => pay 1 0 (ac_get ix Tr c h);
       cc_get_mut := fun c h => pay 1 0 (ac_get_mut ix Tr c h);
       cc_insert_key := cac_insert_key;
       cc_remove_key := cac_remove_key;
       cc_maybe_remove_key := cac_maybe_remove_key |}.
End ArrayCost.

(** *** Hash map (src/collection/hash.rs 33-124) *)
Section HashCost.
  Context {B : Build} {Hi Lo V : Type} (eq : Hi -> Hi -> bool) {Tr : VebOps Lo V} (CT : CVeb Tr).
  Let T := vt Tr.
  Let M := list (Hi * T).
  Definition chc_insert_key (m : M) (h : Hi) (lv : Lo * V) :
    cres (M * result Hi (Hi * option (Lo * V))) :=                    (* hash.rs 57-67 *)
    tick (
    match hm_get eq m h with
    | None => t0 <~ cv_from_monad CT (fst lv) (snd lv) ;; cret ((h, t0) :: m, Ok h)
    | Some t =>
        ' (t', v) <~ cv_insert CT t (fst lv) (snd lv) ;;
        cret (hm_set eq m h t', Err (h, v))
    end).
  Definition chc_remove_key (m : M) (h : Hi) (f : T -> cres (option T * (Lo * V))) :
    cres (option (M * bool) * (Lo * V)) :=                            (* hash.rs 69-95 *)
    tick (
    match hm_get eq m h with
    | None => cpanic
    | Some t =>
        ' (ot, val) <~ f t ;;
        let m' := hm_replace eq m h ot in
        let removed := is_none ot in
        cret (if is_nil m' then (None, val) else (Some (m', removed), val))
    end).
  Definition chc_maybe_remove_key (m : M) (h : Hi)
    (f : T -> cres (result (option T * (Lo * V)) T)) :
    cres (result (option (M * bool) * (Lo * V)) M) :=                 (* hash.rs 97-123 *)
    tick (
    match hm_get eq m h with
    | None => cret (Err m)
    | Some t =>
        r <~ f t ;;
        let '(ot, oval) :=
          match r with
          | Err t' => (Some t', None)
          | Ok (ot, val) => (ot, Some val)
          end in
        let m' := hm_replace eq m h ot in
        let removed := is_none ot in
        match oval, is_nil m' with
        | Some val, true => cret (Ok (None, val))
        | Some val, false => cret (Ok (Some (m', removed), val))
        | None, false => cret (Err m')
        | None, true => cpanic
        end
    end).
  Definition hash_cost : CColl (Hash_coll eq Tr) :=
    {| cc_create := fun h t => pay 1 0 (hc_create eq Tr h t) : cres (ct (Hash_coll eq Tr));
       cc_get := fun c h => pay 1 0 (hc_get eq Tr c h);
       cc_get_mut := fun c h => pay 1 0 (hc_get_mut eq Tr c h);
       cc_insert_key := chc_insert_key;
       cc_remove_key := chc_remove_key;
       cc_maybe_remove_key := chc_maybe_remove_key |}.
End HashCost.

(** *** ByteMap as a collection (src/bitset/map/mod.rs 36-119, src/bitset/map/list.rs 36-107) *)
Section ByteMapCost.
  Context {B : Build} {Lo V : Type} {Tr : VebOps Lo V} (CT : CVeb Tr).
  Let T := vt Tr.
  Let M := ByteMap (list T).
  (** list.rs 55-78 *)
  Definition ctl_remove_key {P} (l : list T) (n : N) (f : T -> cres (option T * P)) :
    cres (option (list T * bool) * P) :=
    t <~ free (vd_get l n) ;;
    ' (ot, val) <~ f t ;;
    let removed := is_none ot in
    let l' := replace_at l (N.to_nat n) ot in
    if is_nil l' then
      _ <~ free (debug_assert removed) ;; cret (None, val)
    else cret (Some (l', removed), val).
  (** list.rs 79-106 *)
  Definition ctl_maybe_remove_key {P} (l : list T) (n : N) (f : T -> cres (result (option T * P) T)) :
    cres (result (option (list T * bool) * P) (list T)) :=
    t <~ free (vd_get l n) ;;
    r <~ f t ;;
    match r with
    | Err t' => cret (Err (list_set l (N.to_nat n) t'))
    | Ok (ot, val) =>
        let removed := is_none ot in
        let l' := replace_at l (N.to_nat n) ot in
        if is_nil l' then
          _ <~ free (debug_assert removed) ;; cret (Ok (None, val))
        else cret (Ok (Some (l', removed), val))
    end.
  Definition cbc_insert_key (m : M) (h : u 8) (lv : Lo * V) :
    cres (M * result (u 8) (u 8 * option (Lo * V))) :=                (* mod.rs 60-69 *)
    tick (
    let i := count_below (bm_set m) h in
    ' (set, r) <~ free (bs_insert (bm_set m) h tt) ;;
    match r with
    | Some _ =>
        ' (t, put) <~ free (vd_get_mut (bm_list m) i) ;;
        ' (t', o) <~ cv_insert CT t (fst lv) (snd lv) ;;
        cret (BM set (put t'), Err (h, o))
    | None =>
        t0 <~ cv_from_monad CT (fst lv) (snd lv) ;;
        l <~ free (vd_insert (bm_list m) i t0) ;;
        cret (BM set l, Ok h)
    end).
  Definition cbc_remove_key (m : M) (k : u 8) (f : T -> cres (option T * (Lo * V))) :
    cres (option (M * bool) * (Lo * V)) :=                            (* mod.rs 70-90 *)
    tick (
    o <~ free (bs_find (bm_set m) k) ;;
    _ <~ free (debug_assert (negb (is_none o))) ;;
    let i := count_below (bm_set m) k in
    ' (r, v) <~ ctl_remove_key (bm_list m) i f ;;
    match r with
    | None => cret (None, v)
    | Some (l, removed) =>
        mb <~ free (bc_after Tr m k l removed) ;;
        cret (Some mb, v)
    end).
  Definition cbc_maybe_remove_key (m : M) (k : u 8)
    (f : T -> cres (result (option T * (Lo * V)) T)) :
    cres (result (option (M * bool) * (Lo * V)) M) :=                 (* mod.rs 92-118 *)
    tick (
    o <~ free (bs_find (bm_set m) k) ;;
    if is_none o then cret (Err m)
    else
      let i := count_below (bm_set m) k in
      r <~ ctl_maybe_remove_key (bm_list m) i f ;;
      match r with
      | Err l => cret (Err (BM (bm_set m) l))
      | Ok (None, v) => cret (Ok (None, v))
      | Ok (Some (l, removed), v) =>
          mb <~ free (bc_after Tr m k l removed) ;;
          cret (Ok (Some mb, v))
      end).
  Definition bytemap_cost : CColl (ByteMap_coll Tr) :=
    {| cc_create := fun h t => pay 1 0 (bc_create Tr h t) : cres (ct (ByteMap_coll Tr));
       cc_get := fun c h => pay 1 0 (bc_get Tr c h);
       cc_get_mut := fun c h => pay 1 0 (bc_get_mut Tr c h);
       cc_insert_key := cbc_insert_key;
       cc_remove_key := cbc_remove_key;
       cc_maybe_remove_key := cbc_maybe_remove_key |}.
End ByteMapCost.

(** *** A boxed collection (src/collection/mod.rs 108-155) *)
Definition boxcoll_cost {Hi Lo V} {Tr : VebOps Lo V} {C : CollOps Hi Lo V Tr} (CC : CColl C) : CColl (Box_coll C) :=
  {| cc_create := fun h t => cmap mkbox (cc_create CC h t) : cres (ct (Box_coll C));
     cc_get := fun c h => cc_get CC (unbox c) h;
     cc_get_mut := fun c h =>
       cmap (omap (fun p => (fst p, fun t => mkbox (snd p t)))) (cc_get_mut CC (unbox c) h);
     cc_insert_key := fun c h lv => ' (c', r) <~ cc_insert_key CC (unbox c) h lv ;; cret (mkbox c', r);
     cc_remove_key := fun c h f => cmap (box_cb C) (cc_remove_key CC (unbox c) h f);
     cc_maybe_remove_key := fun c h f =>
       r <~ cc_maybe_remove_key CC (unbox c) h f ;;
       match r with
       | Ok p => cret (Ok (box_cb C p))
       | Err c' => cret (Err (mkbox c'))
       end |}.

(** *** Tree (src/tree.rs 80-737) *)
Section TreeCost.
  Context {B : Build} (fixed : bool).
  Context {K Hi Lo V : Type} (ko : KeyOps K Hi Lo)
          {S : VebOps Hi unit} {Tr : VebOps Lo V} {C : CollOps Hi Lo V Tr}
          (CS : CVeb S) (CT : CVeb Tr) (CC : CColl C).
  Let T : Type := @Tree K Hi Lo V S Tr C.
  Let TreeData : Type := @TreeData K Hi Lo V S Tr C.

  Definition ctr_find (t : T) (k : K) : cres (option (K * V)) :=          (* tree.rs 142-169 *)
    tick (
    match (k_cmp ko) k (fst (t_min t)) with
    | Lt => cret None
    | Eq => cret (Some (t_min t))
    | Gt =>
        match t_data t with
        | None => cret None
        | Some d =>
            if eqb (k_cmp ko) k (fst (d_max d)) then cret (Some (d_max d))
            else
              match d_children d with
              | None => cret None
              | Some (_, children) =>
                  let (hi, lo) := k_split_ref ko k in
                  oc <~ cc_get CC children hi ;;
                  match oc with
                  | None => cret None
                  | Some child =>
                      o <~ cv_find CT child lo ;;
                      match o with
                      | None => cret None
                      | Some (lo', val) => cret (Some (k_join ko hi lo', val))
                      end
                  end
              end
        end
    end).

  Definition ctr_find_mut (t : T) (k : K) : cres (option (K * V * (V -> T))) :=  (* tree.rs 172-199 *)
    tick (
    match (k_cmp ko) k (fst (t_min t)) with
    | Lt => cret None
    | Eq => cret (Some (min_mut S Tr C t))
    | Gt =>
        match t_data t with
        | None => cret None
        | Some d =>
            if eqb (k_cmp ko) k (fst (d_max d)) then cret (Some (max_mut S Tr C t d))
            else
              match d_children d with
              | None => cret None
              | Some (s, children) =>
                  let (hi, lo) := k_split_ref ko k in
                  oc <~ cc_get_mut CC children hi ;;
                  match oc with
                  | None => cret None
                  | Some (child, put) =>
                      o <~ cv_find_mut CT child lo ;;
                      match o with
                      | None => cret None
                      | Some (lo', val, putv) =>
                          cret (Some (k_join ko hi lo', val, put_child S Tr C t d s put putv))
                      end
                  end
              end
        end
    end).

  (** tree.rs 223-229, 245-249, 370-376, 390-394 *)
  Definition cchild_end (children : ct C) (hi : Hi) (ext : vt Tr -> cres (Lo * V)) :
    cres (option (K * V)) :=
    oc <~ cc_get CC children hi ;;
    child <~ free (expect oc) ;;
    ' (lo, val) <~ ext child ;;
    cret (Some (k_join ko hi lo, val)).

  (** tree.rs 282-288, 341-343, 420-426, 490-494 *)
  Definition cchild_end_mut (t : T) (d : TreeData) (s : vt S) (children : ct C) (hi : Hi)
    (ext : vt Tr -> cres (Lo * V * (V -> vt Tr))) : cres (option (K * V * (V -> T))) :=
    oc <~ cc_get_mut CC children hi ;;
    ' (child, put) <~ free (expect oc) ;;
    ' (lo, val, putv) <~ ext child ;;
    cret (Some (k_join ko hi lo, val, put_child S Tr C t d s put putv)).

  Definition ctr_predecessor (t : T) (k : K) : cres (option (K * V)) :=   (* tree.rs 202-255 *)
    tick (
    if leb (k_cmp ko) k (fst (t_min t)) then cret None
    else
      match t_data t with
      | None => cret (Some (t_min t))
      | Some d =>
          match (k_cmp ko) k (fst (d_max d)), d_children d with
          | Gt, _ => cret (Some (d_max d))
          | _, None => cret (Some (t_min t))
          | Eq, Some (summary, children) =>
              ' (hi, _) <~ cv_max_val CS summary ;;
              cchild_end children hi (cv_max_val CT)
          | Lt, Some (summary, children) =>
              let (hi, lo) := k_split_ref ko k in
              oc <~ cc_get CC children hi ;;
              o <~ (match oc with Some child => cv_predecessor CT child lo | None => cret None end) ;;
              match o with
              | Some (lo', val) => cret (Some (k_join ko hi lo', val))
              | None =>
                  oh <~ cv_predecessor CS summary hi ;;
                  match oh with
                  | Some (hi', _) => cchild_end children hi' (cv_max_val CT)
                  | None => cret (Some (t_min t))
                  end
              end
          end
      end).

  Definition ctr_predecessor_mut (t : T) (k : K) : cres (option (K * V * (V -> T))) :=  (* tree.rs 258-349 *)
    tick (
    if leb (k_cmp ko) k (fst (t_min t)) then cret None
    else
      match t_data t with
      | None => cret (Some (min_mut S Tr C t))
      | Some d =>
          match (k_cmp ko) k (fst (d_max d)), d_children d with
          | Gt, _ => cret (Some (max_mut S Tr C t d))
          | _, None => cret (Some (min_mut S Tr C t))
          | Eq, Some (summary, children) =>
              _ <~ free (debug_assert (ltb (k_cmp ko) (fst (t_min t)) k)) ;;
              ' (hi, _) <~ cv_max_val CS summary ;;
              cchild_end_mut t d summary children hi (cv_max_val_mut CT)
          | Lt, Some (summary, children) =>
              let (hi, lo) := k_split_ref ko k in
              oc <~ cc_get_mut CC children hi ;;
              o <~ (match oc with
                    | Some (child, put) =>
                        o' <~ cv_predecessor_mut CT child lo ;;
                        cret (match o' with Some x => Some (x, put) | None => None end)
                    | None => cret None
                    end) ;;
              match o with
              | Some (lo', val, putv, put) =>
                  cret (Some (k_join ko hi lo', val, put_child S Tr C t d summary put putv))
              | None =>
                  oh <~ cv_predecessor CS summary hi ;;
                  match oh with
                  | Some (hi', _) => cchild_end_mut t d summary children hi' (cv_max_val_mut CT)
                  | None => cret (Some (min_mut S Tr C t))
                  end
              end
          end
      end).

  Definition ctr_successor (t : T) (k : K) : cres (option (K * V)) :=     (* tree.rs 352-400 *)
    tick (
    if ltb (k_cmp ko) k (fst (t_min t)) then cret (Some (t_min t))
    else
      match t_data t with
      | None => cret None
      | Some d =>
          if leb (k_cmp ko) (fst (d_max d)) k then cret None
          else
            match d_children d with
            | None => cret (Some (d_max d))
            | Some (summary, children) =>
                if eqb (k_cmp ko) k (fst (t_min t)) then
                  ' (hi, _) <~ cv_min_val CS summary ;;
                  cchild_end children hi (cv_min_val CT)
                else
                  let (hi, lo) := k_split_ref ko k in
                  oc <~ cc_get CC children hi ;;
                  o <~ (match oc with Some child => cv_successor CT child lo | None => cret None end) ;;
                  match o with
                  | Some (lo', val) => cret (Some (k_join ko hi lo', val))
                  | None =>
                      oh <~ cv_successor CS summary hi ;;
                      match oh with
                      | Some (hi', _) => cchild_end children hi' (cv_min_val CT)
                      | None => cret (Some (d_max d))
                      end
                  end
            end
      end).

  Definition ctr_successor_mut (t : T) (k : K) : cres (option (K * V * (V -> T))) :=  (* tree.rs 403-500 *)
    tick (
    if ltb (k_cmp ko) k (fst (t_min t)) then cret (Some (min_mut S Tr C t))
    else
      match t_data t with
      | None => cret None
      | Some d =>
          if leb (k_cmp ko) (fst (d_max d)) k then cret None
          else
            match d_children d with
            | None => cret (Some (max_mut S Tr C t d))
            | Some (summary, children) =>
                if eqb (k_cmp ko) k (fst (t_min t)) then
                  ' (hi, _) <~ cv_min_val CS summary ;;
                  cchild_end_mut t d summary children hi (cv_min_val_mut CT)
                else
                  let (hi, lo) := k_split_ref ko k in
                  oc <~ cc_get_mut CC children hi ;;
                  o <~ (match oc with
                        | Some (child, put) =>
                            o' <~ cv_successor_mut CT child lo ;;
                            cret (match o' with Some x => Some (x, put) | None => None end)
                        | None => cret None
                        end) ;;
                  match o with
                  | Some (lo', val, putv, put) =>
                      cret (Some (k_join ko hi lo', val, put_child S Tr C t d summary put putv))
                  | None =>
                      oh <~ cv_successor CS summary hi ;;
                      match oh with
                      | Some (hi', _) => cchild_end_mut t d summary children hi' (cv_min_val_mut CT)
                      | None => cret (Some (max_mut S Tr C t d))
                      end
                  end
            end
      end).

  (** tree.rs 544-561 *)
  Definition ctr_push (mn mx : K * V) (och : option (vt S * ct C)) (k : K) (v : V) :
    cres (T * option (K * V)) :=
    let (hi, lo) := k_split_val ko k in
    match och with
    | Some (summary, children) =>
        ' (children', r) <~ cc_insert_key CC children hi (lo, v) ;;
        match r with
        | Ok hi' =>
            ' (summary', _) <~ cv_insert CS summary hi' tt ;;
            cret (TR mn (Some (TD mx (Some (summary', children')))), None)
        | Err (_, None) =>
            cret (TR mn (Some (TD mx (Some (summary, children')))), None)
        | Err (hi', Some (lo', v')) =>
            cret (TR mn (Some (TD mx (Some (summary, children')))), Some (k_join ko hi' lo', v'))
        end
    | None =>
        t0 <~ cv_from_monad CT lo v ;;
        children <~ cc_create CC hi t0 ;;
        summary <~ cv_from_monad CS hi tt ;;
        cret (TR mn (Some (TD mx (Some (summary, children)))), None)
    end.

  Definition ctr_insert (t : T) (k : K) (v : V) : cres (T * option (K * V)) :=  (* tree.rs 503-562 *)
    tick (
    match (k_cmp ko) k (fst (t_min t)), t_data t with
    | Eq, od => cret (TR (k, v) od, Some (t_min t))
    | Lt, None => cret (TR (k, v) (Some (TD (t_min t) None)), None)
    | Gt, None => cret (TR (t_min t) (Some (TD (k, v) None)), None)
    | Lt, Some d =>
        let '(k1, v1) := t_min t in
        match (k_cmp ko) (fst (d_max d)) k1 with
        | Eq => cret (TR (k, v) (Some (TD (k1, v1) (d_children d))), Some (d_max d))
        | Gt =>
            if fixed
            then ctr_push (k, v) (d_max d) (d_children d) k1 v1
            else ctr_push (k, v) (k1, v1) (d_children d) (fst (d_max d)) (snd (d_max d))
        | Lt => ctr_push (k, v) (d_max d) (d_children d) k1 v1
        end
    | Gt, Some d =>
        match (k_cmp ko) k (fst (d_max d)) with
        | Eq => cret (TR (t_min t) (Some (TD (k, v) (d_children d))), Some (d_max d))
        | Gt => ctr_push (t_min t) (k, v) (d_children d) (fst (d_max d)) (snd (d_max d))
        | Lt => ctr_push (t_min t) (d_max d) (d_children d) k v
        end
    end).

  (** tree.rs 601-614, 676-689, 717-730 *)
  Definition cafter_end (summary : vt S) (r : option (ct C * bool))
    (rm : vt S -> cres (option (vt S) * (Hi * unit))) : cres (option (vt S * ct C)) :=
    match r with
    | None => cret None
    | Some (children, false) => cret (Some (summary, children))
    | Some (children, true) =>
        ' (os, _) <~ rm summary ;;
        s <~ free (expect os) ;;
        cret (Some (s, children))
    end.

  Definition ctr_remove_min (t : T) : cres (option T * (K * V)) :=     (* tree.rs 652-693 *)
    tick (
    match t_data t with
    | None => cret (None, t_min t)
    | Some d =>
        match d_children d with
        | None => cret (Some (TR (d_max d) None), t_min t)
        | Some (summary, children) =>
            ' (hi, _) <~ cv_min_val CS summary ;;
            ' (r, (lo, val)) <~ cc_remove_key CC children hi (cv_remove_min CT) ;;
            ch <~ cafter_end summary r (cv_remove_min CS) ;;
            cret (Some (TR (k_join ko hi lo, val) (Some (TD (d_max d) ch))), t_min t)
        end
    end).

  Definition ctr_remove_max (t : T) : cres (option T * (K * V)) :=     (* tree.rs 696-736 *)
    tick (
    match t_data t with
    | None => cret (None, t_min t)
    | Some d =>
        match d_children d with
        | None => cret (Some (TR (t_min t) None), d_max d)
        | Some (summary, children) =>
            ' (hi, _) <~ cv_max_val CS summary ;;
            ' (r, (lo, val)) <~ cc_remove_key CC children hi (cv_remove_max CT) ;;
            ch <~ cafter_end summary r (cv_remove_max CS) ;;
            cret (Some (TR (t_min t) (Some (TD (k_join ko hi lo, val) ch))), d_max d)
        end
    end).

  Definition ctr_remove (t : T) (k : K) :
    cres (result (option T * (K * V)) T) :=                           (* tree.rs 565-649 *)
    tick (
    if eqb (k_cmp ko) k (fst (t_min t)) then
      r <~ ctr_remove_min t ;; cret (Ok r)
    else
      match t_data t with
      | None => cret (Err t)
      | Some d =>
          match d_children d with
          | None =>
              if eqb (k_cmp ko) (fst (d_max d)) k then cret (Ok (Some (TR (t_min t) None), d_max d))
              else cret (Err (TR (t_min t) (Some d)))
          | Some (summary, children) =>
              if eqb (k_cmp ko) k (fst (d_max d)) then
                ' (hi, _) <~ cv_max_val CS summary ;;
                ' (r, (lo, val)) <~ cc_remove_key CC children hi (cv_remove_max CT) ;;
                ch <~ cafter_end summary r (cv_remove_max CS) ;;
                cret (Ok (Some (TR (t_min t) (Some (TD (k_join ko hi lo, val) ch))), d_max d))
              else
                let (hi, lo) := k_split_ref ko k in
                r <~ cc_maybe_remove_key CC children hi (fun c => cv_remove CT c lo) ;;
                match r with
                | Err children' =>
                    cret (Err (TR (t_min t) (Some (TD (d_max d) (Some (summary, children'))))))
                | Ok (None, (lo', val)) =>
                    cret (Ok (Some (TR (t_min t) (Some (TD (d_max d) None))), (k_join ko hi lo', val)))
                | Ok (Some (children', false), (lo', val)) =>
                    cret (Ok (Some (TR (t_min t) (Some (TD (d_max d) (Some (summary, children'))))),
                             (k_join ko hi lo', val)))
                | Ok (Some (children', true), (lo', val)) =>
                    rs <~ cv_remove CS summary hi ;;
                    ' (os, _) <~ (match rs with Ok x => cret x | Err _ => cpanic end) ;;
                    s <~ free (expect os) ;;
                    cret (Ok (Some (TR (t_min t) (Some (TD (d_max d) (Some (s, children'))))),
                             (k_join ko hi lo', val)))
                end
          end
      end).

  Definition tree_cost : CVeb (Tree_ops fixed ko S Tr C) :=
    {| cv_from_monad := fun k v => pay 1 0 (Ret (tr_from_monad S Tr C k v)) : cres (vt (Tree_ops fixed ko S Tr C));
       cv_is_monad := fun t => pay 1 0 (tr_is_monad S Tr C t);
       cv_into_monad := fun t => pay 1 0 (tr_into_monad S Tr C t);
       cv_min_val := fun t => pay 1 0 (tr_min_val S Tr C t);
       cv_min_val_mut := fun t => pay 1 0 (tr_min_val_mut S Tr C t);
       cv_max_val := fun t => pay 1 0 (tr_max_val S Tr C t);
       cv_max_val_mut := fun t => pay 1 0 (tr_max_val_mut S Tr C t);
       cv_find := ctr_find;
       cv_find_mut := ctr_find_mut;
       cv_predecessor := ctr_predecessor;
       cv_predecessor_mut := ctr_predecessor_mut;
       cv_successor := ctr_successor;
       cv_successor_mut := ctr_successor_mut;
       cv_insert := ctr_insert;
       cv_remove := ctr_remove;
       cv_remove_min := ctr_remove_min;
       cv_remove_max := ctr_remove_max |}.
End TreeCost.

(** *** The counted version of every tree type *)
Fixpoint coll_cost {B : Build} {Lo V} {Tr : VebOps Lo V} (CT : CVeb Tr) {Hi C} (X : CollType Tr Hi C) : CColl C :=
  match X with
  | CT_Array _ _ ix _ => array_cost ix CT
  | CT_Hash _ _ eq _ => hash_cost eq CT
  | CT_ByteMap _ => bytemap_cost CT
  | CT_Box _ _ _ X' => boxcoll_cost (coll_cost CT X')
  end.
Fixpoint type_cost {B : Build} {fixed K V cmp O} (T : VebType fixed K V cmp O) : CVeb O :=
  match T with
  | VT_ByteSet _ => leaf_cost _
  | VT_ByteMap _ _ => leaf_cost _
  | VT_BTree _ _ _ _ _ => leaf_cost _
  | VT_Tree _ _ _ _ _ ko _ _ _ _ TS TT X => tree_cost fixed ko (type_cost TS) (type_cost TT) (coll_cost (type_cost TT) X)
  | VT_Box _ _ _ _ _ T' => box_cost (type_cost T')
  | VT_Sized _ _ _ _ _ T' => sized_cost (type_cost T')
  end.

(** Specification: the number of [Tree]s on the way to the bottom, and the largest array collection inside *)
Fixpoint depth {B : Build} {fixed K V cmp O} (T : VebType fixed K V cmp O) : N :=
  match T with
  | VT_ByteSet _ | VT_ByteMap _ _ | VT_BTree _ _ _ _ _ => 0
  | VT_Tree _ _ _ _ _ _ _ _ _ _ TS TT _ => 1 + N.max (depth TS) (depth TT)
  | VT_Box _ _ _ _ _ T' | VT_Sized _ _ _ _ _ T' => depth T'
  end%N.
Fixpoint coll_array {B : Build} {Lo V} {Tr : VebOps Lo V} {Hi C} (X : CollType Tr Hi C) : N :=
  match X with
  | CT_Array _ _ ix _ => i_card ix
  | CT_Hash _ _ _ _ | CT_ByteMap _ => 0
  | CT_Box _ _ _ X' => coll_array X'
  end.
Fixpoint largest_array {B : Build} {fixed K V cmp O} (T : VebType fixed K V cmp O) : N :=
  match T with
  | VT_ByteSet _ | VT_ByteMap _ _ | VT_BTree _ _ _ _ _ => 0
  | VT_Tree _ _ _ _ _ _ _ _ _ _ TS TT X => N.max (coll_array X) (N.max (largest_array TS) (largest_array TT))
  | VT_Box _ _ _ _ _ T' | VT_Sized _ _ _ _ _ T' => largest_array T'
  end.
(** ... and the array collection of the outermost [Tree] *)
Fixpoint first_array {B : Build} {fixed K V cmp O} (T : VebType fixed K V cmp O) : N :=
  match T with
  | VT_ByteSet _ | VT_ByteMap _ _ | VT_BTree _ _ _ _ _ => 0
  | VT_Tree _ _ _ _ _ _ _ _ _ _ _ _ X => coll_array X
  | VT_Box _ _ _ _ _ T' | VT_Sized _ _ _ _ _ T' => first_array T'
  end.
