(** Independent vocabulary for the statements about grid sizes and masks. *)
From Coq Require Import List ZArith.
From Verif Require Import GridModel.
Import ListNotations.
Local Open Scope Z_scope.

(** m = 2^a 3^b 5^c 7^d. *)
Definition smooth7 (m : Z) : Prop :=
  exists a b c d : nat,
    m = 2 ^ Z.of_nat a * 3 ^ Z.of_nat b * 5 ^ Z.of_nat c * 7 ^ Z.of_nat d.

(** The set documented in utils.fft_factor: 2^a 3^b 5^c 7^d 11^e 13^f, e,f in {0,1}. *)
Definition doc_fft_size (m : Z) : Prop :=
  exists (a b c d e f : nat), (e <= 1)%nat /\ (f <= 1)%nat /\
    m = 2 ^ Z.of_nat a * 3 ^ Z.of_nat b * 5 ^ Z.of_nat c * 7 ^ Z.of_nat d
        * 11 ^ Z.of_nat e * 13 ^ Z.of_nat f.

(** [m] is the least element of [S] that is >= n. *)
Definition least_at_least (S : Z -> Prop) (n m : Z) : Prop :=
  S m /\ n <= m /\ forall m', S m' -> n <= m' -> m <= m'.

(** The integer frequencies an FFT axis of size n can represent (numpy convention):
    -floor(n/2) .. floor((n-1)/2). *)
Definition fft_frequency (n f : Z) : Prop := - (n / 2) <= f <= (n - 1) / 2.

(** Positions 0..n-1 of an axis, as integers. *)
Definition positions (n : Z) : list Z := map Z.of_nat (seq 0 (Z.to_nat n)).

(** Product of a list. *)
Definition zprod (l : list Z) : Z := fold_right Z.mul 1 l.

(** All positions of a grid, row-major. *)
Fixpoint grid_positions (sizes : list Z) : list (list Z) :=
  match sizes with
  | [] => [[]]
  | n :: ns => flat_map (fun i => map (cons i) (grid_positions ns)) (positions n)
  end.

(** Number of positions of a grid at which a mask is True. *)
Definition count_true (sizes : list Z) (mask : list Z -> bool) : Z :=
  Z.of_nat (length (filter mask (grid_positions sizes))).

(** The frequencies the cubic mask is meant to keep: with Gmax = floor((n-1)/2),
    floor(-Gmax/2) .. floor(Gmax/2). *)
Definition selected (n f : Z) : Prop :=
  (- ((n - 1) / 2)) / 2 <= f <= ((n - 1) / 2) / 2.

(** The axis sizes a user asks [proper_grid_size] for. *)
Definition requested (a : grid_arg) : option (list Z) :=
  match a with GSeq l => Some l | GScalar n => Some [n; n; n] | GOther => None end.
