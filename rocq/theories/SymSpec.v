(** Vocabulary for the symmetries of the total energy. *)
From Coq Require Import List.

(** A position of the grid whose opposite frequency is not on the grid: along some axis of even
    size n the index is n/2, with frequency -n/2. *)
Definition unpaired (ns g : list nat) : Prop := exists a, a < length ns /\ 2 * nth a g 0 = nth a ns 0.
