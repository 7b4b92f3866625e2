(** What rebuilding costs in whole trees: the tree types of C75, whose hash collections are the probed tables of Probe.v, with every pair counted that a
    table moves when it is rebuilt.  The counts are those of Cost.v: [calls] counts trait methods, [slots] here counts the moved pairs (and the slots
    of array collections, as there). *)
From Verif Require Import Base Ints Ops Spec ByteSet ByteMap Coll Boxed BTree SizedT Tree Laws Hist Types Cost CostIter HashGen Probe Amort.

(** *** [impl TreeCollection for HashMap<Hi, V, S>] (src/collection/hash.rs 33-124) over a probed table *)
Section ProbeCost.
  Context {B : Build} {Seed Hi Lo V : Type} {Tr : VebOps Lo V} (w : nat) (eq : Hi -> Hi -> bool) (hash : Seed -> Hi -> N) (tag : N -> N)
    (draw : Hi -> vt Tr -> Seed) (bits0 : nat) (CT : CVeb Tr).
  Notation T := (vt Tr).
  Notation H := (Swiss_hash w eq hash tag draw bits0 std_policy).
  Notation M := (Swiss Seed Hi T).
  (** hash.rs 57-67: only the insertion of an absent key may rebuild the table *)
  Definition cpr_insert_key (m : M) (h : Hi) (lv : Lo * V) : cres (M * result Hi (Hi * option (Lo * V))) :=
    tick (
    match sw_lookup w eq hash tag m h with
    | None =>
        t0 <~ cv_from_monad CT (fst lv) (snd lv) ;;
        m' <~ pay 0 (N.of_nat (sw_moves w hash m h)) (Ret (sw_insert w hash tag std_policy m h t0)) ;;
        cret (m', Ok h)
    | Some (i, t) =>
        ' (t', v) <~ cv_insert CT t (fst lv) (snd lv) ;;
        cret (sw_put m i t', Err (h, v))
    end).
  (** hash.rs 69-95 *)
  Definition cpr_remove_key (m : M) (h : Hi) (f : T -> cres (option T * (Lo * V))) : cres (option (M * bool) * (Lo * V)) :=
    tick (
    match sw_lookup w eq hash tag m h with
    | None => cpanic
    | Some (i, t) =>
        ' (ot, val) <~ f t ;;
        let (m', removed) := sw_replace w m i ot in
        cret (if sw_items m' =? 0 then (None, val) else (Some (m', removed), val))
    end).
  (** hash.rs 97-123 *)
  Definition cpr_maybe_remove_key (m : M) (h : Hi) (f : T -> cres (result (option T * (Lo * V)) T)) : cres (result (option (M * bool) * (Lo * V)) M) :=
    tick (
    match sw_lookup w eq hash tag m h with
    | None => cret (Err m)
    | Some (i, t) =>
        r <~ f t ;;
        let '(ot, oval) :=
          match r with
          | Err t' => (Some t', None)
          | Ok (ot, val) => (ot, Some val)
          end in
        let (m', removed) := sw_replace w m i ot in
        match oval, sw_items m' =? 0 with
        | Some val, true => cret (Ok (None, val))
        | Some val, false => cret (Ok (Some (m', removed), val))
        | None, false => cret (Err m')
        | None, true => cpanic
        end
    end).
  Definition probe_cost : CColl (HashOf (Tr := Tr) H) :=
    {| cc_create := fun h t => pay 1 0 (ho_create H h t) : cres (ct (HashOf (Tr := Tr) H));
       cc_get := fun m h => pay 1 0 (Ret (h_get H m h));
       cc_get_mut := fun m h => pay 1 0 (Ret (h_get_mut H m h));
       cc_insert_key := cpr_insert_key;
       cc_remove_key := cpr_remove_key;
       cc_maybe_remove_key := cpr_maybe_remove_key |}.
End ProbeCost.

(** *** The counted version of every tree type of C75 *)
Section Types.
  Context (B' : Build) (w : nat) {Seed : Type -> Type -> Type} (hash : forall Hi T, (Hi -> Hi -> bool) -> Seed Hi T -> Hi -> N) (tag : N -> N)
    (draw : forall Hi T, Hi -> T -> Seed Hi T) (bits0 : nat).
  Definition probed : HashFamily := fun Hi T eq => Swiss_hash w eq (hash Hi T eq) tag (draw Hi T) bits0 std_policy.
  Fixpoint moves_coll {B : Build} {Lo V Tr Hi C} (X : @CollType B Lo V Tr Hi C) {Tr' : VebOps Lo V} (CT : CVeb Tr') : CColl (rehashed_coll B' probed X Tr') :=
    match X as X0 in CollType _ Hi0 _ return CColl (rehashed_coll B' probed X0 Tr') with
    | CT_Array _ _ ix _ => array_cost (B := B') ix CT
    | CT_Hash _ Hi eq _ => probe_cost (B := B') w eq (hash Hi (vt Tr') eq) tag (draw Hi (vt Tr')) bits0 CT
    | CT_ByteMap _ => bytemap_cost (B := B') CT
    | CT_Box _ _ _ X' => boxcoll_cost (moves_coll X' CT)
    end.
  Fixpoint moves_type {B : Build} {fixed K V cmp O} (T : @VebType B fixed K V cmp O) : CVeb (rehashed B' probed T) :=
    match T as T0 in VebType _ K0 V0 _ _ return CVeb (rehashed B' probed T0) with
    | VT_ByteSet _ => leaf_cost _
    | VT_ByteMap _ _ => leaf_cost _
    | VT_BTree _ _ _ _ _ => leaf_cost _
    | VT_Tree _ _ _ _ _ ko _ _ _ _ TS TT X => tree_cost (B := B') fixed ko (moves_type TS) (moves_type TT) (moves_coll X (moves_type TT))
    | VT_Box _ _ _ _ _ T' => box_cost (moves_type T')
    | VT_Sized _ _ _ _ _ T' => sized_cost (B := B') (moves_type T')
    end.
End Types.

(** Specification: what one insertion pays for.  A new member costs an array collection its slots and a table two moves; at each [Tree] either the
    child takes the pair, or the collection gets a new member and the summary a new key *)
Fixpoint coll_each {B : Build} {Lo V} {Tr : VebOps Lo V} {Hi C} (X : CollType Tr Hi C) : N :=
  match X with
  | CT_Array _ _ ix _ => i_card ix
  | CT_Hash _ _ _ _ => 2
  | CT_ByteMap _ => 0
  | CT_Box _ _ _ X' => coll_each X'
  end%N.
Fixpoint moves_each {B : Build} {fixed K V cmp O} (T : VebType fixed K V cmp O) : N :=
  match T with
  | VT_ByteSet _ | VT_ByteMap _ _ | VT_BTree _ _ _ _ _ => 0
  | VT_Tree _ _ _ _ _ _ _ _ _ _ TS TT X => N.max (moves_each TT) (coll_each X + moves_each TS)
  | VT_Box _ _ _ _ _ T' | VT_Sized _ _ _ _ _ T' => moves_each T'
  end%N.
(** every collection inside is a hash collection *)
Fixpoint table_coll {B : Build} {Lo V} {Tr : VebOps Lo V} {Hi C} (X : CollType Tr Hi C) : bool :=
  match X with
  | CT_Hash _ _ _ _ => true
  | CT_Array _ _ _ _ | CT_ByteMap _ => false
  | CT_Box _ _ _ X' => table_coll X'
  end.
Fixpoint tables_only {B : Build} {fixed K V cmp O} (T : VebType fixed K V cmp O) : bool :=
  match T with
  | VT_ByteSet _ | VT_ByteMap _ _ | VT_BTree _ _ _ _ _ => true
  | VT_Tree _ _ _ _ _ _ _ _ _ _ TS TT X => table_coll X && tables_only TS && tables_only TT
  | VT_Box _ _ _ _ _ T' | VT_Sized _ _ _ _ _ T' => tables_only T'
  end.
