(** Vocabulary of the multi-device properties. *)
From Coq Require Import Ascii String List Arith ZArith Reals.
From Coquelicot Require Import Complex.
From Verif Require Import Base Sums Tensor SpmdModel.
Import ListNotations.

(** The bilinear pairing of two arrays of one shape (no conjugation): the pairing of jax's linear transposition. *)
Definition pairing (a b : tensor C) : C := sumC (indices (tshape a)) (fun i => (tget a i * tget b i)%C).
(** x + t v *)
Definition along (x v : tensor C) (t : C) : tensor C := mkT (tshape x) (fun i => (tget x i + t * tget v i)%C).
(** x[:, ..., i, ..., :] with i on axis d. *)
Definition slice {A} (x : tensor A) (d i : nat) : tensor A := mkT (remove_at d (tshape x)) (fun j => tget x (insert_at d i j)).
(** jax.vmap(f, in_axes=d) returns y: f of each slice, stacked on axis 0. *)
Definition maps_slices (f : tensor C -> res (tensor C)) (x : tensor C) (d : nat) (y : tensor C) : Prop :=
  tshape y = nth d (tshape x) 0%nat :: remove_at d (tshape x) /\
  forall i, (i < nth d (tshape x) 0)%nat -> exists u, f (slice x d i) = Ok u /\ teq (slice y 0 i) u.
(** Mesh sizes divide the array sizes. *)
Definition divides_all (ps shape : list nat) : Prop := Forall2 (fun n p => (n mod p = 0)%nat) shape ps.
(** Number of parts in which a sharding splits axis j. *)
Definition axis_parts (m : mesh) (spec : list pentry) (j : nat) : nat := parts m (nth j spec []).
(** Distributed f gives the result of f for every array of this shape. *)
Definition distributed_ok (f : tensor C -> res (tensor C)) (g : tensor C -> res (tensor C)) (shape : list nat) : Prop :=
  forall x, tshape x = shape -> exists y u, g x = Ok y /\ f x = Ok u /\ teq y u.
(** Array axis j is split over mesh axis j. *)
Definition axis_by_axis (m : mesh) : list pentry := map (fun p => [fst p]) m.
(** Index, in the whole array, of entry l of the block at block coordinates c (trailing coordinates 0). *)
Definition global_index (ls c l : list nat) : list nat := zipw Nat.add (zipw Nat.mul (c ++ repeat 0%nat (length ls - length c)) ls) l.
(** Key of device d: split off after d splits. *)
Definition device_key {key} (split : key -> key * key) (k : key) (d : nat) : key := snd (split (Nat.iter d (fun k => fst (split k)) k)).
(** Number of parts of every array axis when array axis j is split over mesh axis j. *)
Definition split_sizes (m : mesh) (rank : nat) : list nat := map snd m ++ repeat 1%nat (rank - length m).
