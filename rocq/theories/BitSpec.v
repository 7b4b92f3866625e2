(** A ByteSet as the 256-bit number its two words make up. *)
From Verif Require Import Base Ints ByteSet.

Definition number (a : N * N) : N := fst a + 2 ^ 128 * snd a.
(** byte [n] is in the set *)
Definition has (s : ByteSet) (n : N) : bool := N.testbit (number (words s)) n.
(** how many bytes satisfy [p] *)
Definition how_many (p : N -> bool) : N := N.of_nat (length (filter p (map N.of_nat (seq 0 256)))).
