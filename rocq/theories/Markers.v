(** Model of src/markers.rs: the tree types named there. *)
From Verif Require Import Base Ints Ops Key ByteSet ByteMap Coll Boxed Tree.

Section Markers.
  Context {B : Build} (fixed : bool).
  Let tree {K Hi Lo V : Type} (ko : KeyOps K Hi Lo) S Tr C := @Tree_ops B fixed K Hi Lo V ko S Tr C.

  (** Marker8Empty, Marker8 (markers.rs 19-20) *)
  Definition M8E : VebOps (u 8) unit := ByteSet_ops.
  Definition M8 (V : Type) : VebOps (u 8) V := ByteMap_ops V.
  (** Marker16Empty, Marker16 (markers.rs 22-39) *)
  Definition M16E : VebOps (u 16) unit := tree u16_key M8E M8E (Array_coll u8_idx M8E).
  Definition M16 (V : Type) : VebOps (u 16) V := tree u16_key M8E (M8 V) (Array_coll u8_idx (M8 V)).
  (** Marker32Empty, Marker32 (markers.rs 41-58) *)
  Definition M32E : VebOps (u 32) unit := tree u32_key M16E M16E (Array_coll u16_idx M16E).
  Definition M32 (V : Type) : VebOps (u 32) V :=
    tree u32_key M16E (M16 V) (Array_coll u16_idx (M16 V)).
  (** Marker64Empty, Marker64 (markers.rs 60-77) *)
  Definition M64E : VebOps (u 64) unit := tree u64_key M32E M32E (Array_coll u32_idx M32E).
  Definition M64 (V : Type) : VebOps (u 64) V :=
    tree u64_key M32E (M32 V) (Array_coll u32_idx (M32 V)).
End Markers.
