(** Keys that carry more than their order sees.  [OrdLaws] asks that keys comparing equal be the same key; a Rust key need not
    be like that ([Ord] may ignore fields).  Here a tree type [O'] over such keys [K'] is paired with the lawful tree type [O]
    over [K] it is built like, along a map [p : K' -> K] that keeps what the order sees. *)
From Verif Require Import Base Ints Ops Spec Key ByteSet ByteMap Coll Boxed BTree SizedT Tree Laws CollProofs Hist Types Iter.

(** two impls of [Key] (src/key.rs 89-108) that agree along maps of the keys and of their halves *)
Record KeyMap {K' Hi' Lo' K Hi Lo} (p : K' -> K) (ph : Hi' -> Hi) (pl : Lo' -> Lo) (ko' : KeyOps K' Hi' Lo') (ko : KeyOps K Hi Lo) : Prop := {
  km_cmp : forall a b, k_cmp ko' a b = k_cmp ko (p a) (p b);
  km_val : forall k, k_split_val ko (p k) = (ph (fst (k_split_val ko' k)), pl (snd (k_split_val ko' k)));
  km_ref : forall k, k_split_ref ko (p k) = (ph (fst (k_split_ref ko' k)), pl (snd (k_split_ref ko' k)));
  km_join : forall h l, p (k_join ko' h l) = k_join ko (ph h) (pl l)
}.
Arguments km_cmp {K' Hi' Lo' K Hi Lo p ph pl ko' ko}.
Arguments km_val {K' Hi' Lo' K Hi Lo p ph pl ko' ko}.
Arguments km_ref {K' Hi' Lo' K Hi Lo p ph pl ko' ko}.
Arguments km_join {K' Hi' Lo' K Hi Lo p ph pl ko' ko}.

(** the collections (the impls cited at [CollType], Types.v): the array index and the equality of the hash map see no more than the order *)
Inductive TagColl {B : Build} {Lo' Lo V : Type} (Tr' : VebOps Lo' V) (Tr : VebOps Lo V) :
  forall Hi' Hi : Type, (Hi' -> Hi) -> CollOps Hi' Lo' V Tr' -> CollOps Hi Lo V Tr -> Type :=
| TC_Array (Hi' Hi : Type) (ph : Hi' -> Hi) (ix' : IdxOps Hi') (ix : IdxOps Hi) (IL : IdxLaws ix)
    (Hcard : i_card ix' = i_card ix) (Hidx : forall h, i_index ix' h = i_index ix (ph h)) :
    TagColl Tr' Tr Hi' Hi ph (Array_coll ix' Tr') (Array_coll ix Tr)
| TC_Hash (Hi' Hi : Type) (ph : Hi' -> Hi) (eq' : Hi' -> Hi' -> bool) (eq : Hi -> Hi -> bool) (Heq : forall a b, eq a b = true <-> a = b)
    (He : forall a b, eq' a b = eq (ph a) (ph b)) :
    TagColl Tr' Tr Hi' Hi ph (Hash_coll eq' Tr') (Hash_coll eq Tr)
| TC_ByteMap : TagColl Tr' Tr (u 8) (u 8) (fun h => h) (ByteMap_coll Tr') (ByteMap_coll Tr)
| TC_Box (Hi' Hi : Type) (ph : Hi' -> Hi) C' C (CT : TagColl Tr' Tr Hi' Hi ph C' C) :
    TagColl Tr' Tr Hi' Hi ph (Box_coll C') (Box_coll C).

(** the tree types (the impls cited at [VebType], Types.v) *)
Inductive Tagged {B : Build} (fixed : bool) : forall K' V K : Type, (K' -> K) -> (K -> K -> comparison) -> VebOps K' V -> VebOps K V -> Type :=
| TG_same (K V : Type) cmp (O : VebOps K V) (T : VebType fixed K V cmp O) : Tagged fixed K V K (fun k => k) cmp O O
| TG_BTree (K' V K : Type) (p : K' -> K) (cmp' : K' -> K' -> comparison) cmp (OL : OrdLaws cmp)
    (Hc : forall a b, cmp' a b = cmp (p a) (p b)) :
    Tagged fixed K' V K p cmp (BTree_ops V cmp') (BTree_ops V cmp)
| TG_Tree (K' Hi' Lo' V K Hi Lo : Type) (p : K' -> K) (ph : Hi' -> Hi) (pl : Lo' -> Lo) (ko' : KeyOps K' Hi' Lo') (ko : KeyOps K Hi Lo)
    (KL : KeyLaws ko) (KM : KeyMap p ph pl ko' ko) (S' : VebOps Hi' unit) (S : VebOps Hi unit) (Tr' : VebOps Lo' V) (Tr : VebOps Lo V)
    (C' : CollOps Hi' Lo' V Tr') (C : CollOps Hi Lo V Tr)
    (TS : Tagged fixed Hi' unit Hi ph (hi_cmp ko) S' S) (TT : Tagged fixed Lo' V Lo pl (lo_cmp ko) Tr' Tr)
    (CT : TagColl Tr' Tr Hi' Hi ph C' C) :
    Tagged fixed K' V K p (k_cmp ko) (Tree_ops fixed ko' S' Tr' C') (Tree_ops fixed ko S Tr C)
| TG_Box (K' V K : Type) (p : K' -> K) cmp O' O (T : Tagged fixed K' V K p cmp O' O) :
    Tagged fixed K' V K p cmp (Box_ops O') (Box_ops O)
| TG_Sized (K' V K : Type) (p : K' -> K) cmp O' O (T : Tagged fixed K' V K p cmp O' O) :
    Tagged fixed K' V K p cmp (Sized_ops O') (Sized_ops O).

(** the lawful type *)
Fixpoint lawful_coll {B : Build} {Lo' Lo V} {Tr' : VebOps Lo' V} {Tr : VebOps Lo V} {Hi' Hi ph C' C} (CT : TagColl Tr' Tr Hi' Hi ph C' C) : CollType Tr Hi C :=
  match CT with
  | TC_Array _ _ _ _ _ _ ix IL _ _ => CT_Array Tr _ ix IL
  | TC_Hash _ _ _ _ _ _ eq Heq _ => CT_Hash Tr _ eq Heq
  | TC_ByteMap _ _ => CT_ByteMap Tr
  | TC_Box _ _ _ _ _ _ _ CT1 => CT_Box Tr _ _ (lawful_coll CT1)
  end.
Fixpoint lawful {B : Build} {fixed K' V K p cmp O' O} (T : Tagged fixed K' V K p cmp O' O) : VebType fixed K V cmp O :=
  match T with
  | TG_same _ _ _ _ _ T1 => T1
  | TG_BTree _ _ _ _ _ _ _ OL _ => VT_BTree _ _ _ _ OL
  | TG_Tree _ _ _ _ _ _ _ _ _ _ _ _ _ KL _ _ _ _ _ _ _ TS TT CT => VT_Tree _ _ _ _ _ _ KL _ _ _ (lawful TS) (lawful TT) (lawful_coll CT)
  | TG_Box _ _ _ _ _ _ _ _ T1 => VT_Box _ _ _ _ _ (lawful T1)
  | TG_Sized _ _ _ _ _ _ _ _ T1 => VT_Sized _ _ _ _ _ (lawful T1)
  end.

(** a command and an answer with the keys mapped *)
Definition op_key {K' K V} (p : K' -> K) (c : op K' V) : op K V :=
  match c with
  | Insert k v => Insert (p k) v
  | Remove k => Remove (p k)
  | RemoveMin => RemoveMin
  | RemoveMax => RemoveMax
  | IntoMonad => IntoMonad
  | IsMonad => IsMonad
  | Min => Min
  | Max => Max
  | Find k => Find (p k)
  | Pred k => Pred (p k)
  | Succ k => Succ (p k)
  | MinMut w => MinMut w
  | MaxMut w => MaxMut w
  | FindMut k w => FindMut (p k) w
  | PredMut k w => PredMut (p k) w
  | SuccMut k w => SuccMut (p k) w
  end.
Definition out_key {K' K V} (p : K' -> K) (o : out K' V) : out K V :=
  match o with
  | OP o' => OP (omap (fun kv => (p (fst kv), snd kv)) o')
  | OB b => OB b
  end.
(** what a caller of a history of commands sees: whether there is a tree left, and the answers; or a panic *)
Definition seen {K V} {O : VebOps K V} (r : res (option (vt O) * list (out K V))) : res (bool * list (out K V)) :=
  rmap (fun r => (is_none (fst r), snd r)) r.

(** the state of an iterator (src/iter.rs 6-26) with the keys mapped *)
Definition itd_key {K' K} (p : K' -> K) (d : IterData K') : IterData K :=
  match d with Start => Start | Front k => Front (p k) | Back k => Back (p k) | Both f b => Both (p f) (p b) end.
Definition it_key {K' K} (p : K' -> K) (it : Iter K') : Iter K := IT (omap (itd_key p) (it_data it)) (it_emitted it).

(** the elements of an array *)
Definition m2 {T' T} (f : T' -> T) (x : arr2 T') := let '(A2 a b) := x in A2 (f a) (f b).
Definition m3 {T' T} (f : T' -> T) (x : arr3 T') := let '(A3 a b c) := x in A3 (f a) (f b) (f c).
Definition m4 {T' T} (f : T' -> T) (x : arr4 T') := let '(A4 a b c d) := x in A4 (f a) (f b) (f c) (f d).
Definition m5 {T' T} (f : T' -> T) (x : arr5 T') := let '(A5 a b c d e) := x in A5 (f a) (f b) (f c) (f d) (f e).
Definition m6 {T' T} (f : T' -> T) (x : arr6 T') := let '(A6 a b c d e g) := x in A6 (f a) (f b) (f c) (f d) (f e) (f g).
Definition m7 {T' T} (f : T' -> T) (x : arr7 T') := let '(A7 a b c d e g h) := x in A7 (f a) (f b) (f c) (f d) (f e) (f g) (f h).
Definition m8 {T' T} (f : T' -> T) (x : arr8 T') := let '(A8 a b c d e g h i) := x in A8 (f a) (f b) (f c) (f d) (f e) (f g) (f h) (f i).
Definition m16 {T' T} (f : T' -> T) (x : arr16 T') :=
  let '(A16 a b c d e g h i j k l m n o p q) := x in
  A16 (f a) (f b) (f c) (f d) (f e) (f g) (f h) (f i) (f j) (f k) (f l) (f m) (f n) (f o) (f p) (f q).
