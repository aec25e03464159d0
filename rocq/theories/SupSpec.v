(** Supercells: a crystal described with a cell [ms] times as large (C140). *)
From Coq Require Import Reals.
From Coquelicot Require Import Coquelicot.
From Coq Require Import List Arith ZArith.
From Verif Require Import Base Sums Tensor Lin3 GridModel VecModel.
Import ListNotations.
Local Open Scope R_scope.

(** Sizes multiplied axis by axis. *)
Fixpoint times (ms ns : list nat) : list nat :=
  match ms, ns with m :: ms', n :: ns' => (m * n)%nat :: times ms' ns' | _, _ => [] end.
(** The index m g + t on every axis: [g] counts blocks of [m], [t] is the place in the block. *)
Fixpoint place (ms g t : list nat) : list nat :=
  match ms, g, t with m :: ms', a :: g', b :: t' => (m * a + b)%nat :: place ms' g' t' | _, _, _ => [] end.

(** The cell with edges m1, m2, m3 times as long. *)
Definition supercell (ms : list nat) (A : m3) : m3 :=
  M3 (vscale (INR (nth 0 ms 0%nat)) (m0 A)) (vscale (INR (nth 1 ms 0%nat)) (m1 A)) (vscale (INR (nth 2 ms 0%nat)) (m2 A)).
(** The combination of the rows of [B] with the integers [t]. *)
Definition combination (B : m3) (t : list nat) : v3 := vmul (V3 (INR (nth 0 t 0%nat)) (INR (nth 1 t 0%nat)) (INR (nth 2 t 0%nat))) B.

(** The atoms of the large cell: one copy for every small cell in it. *)
Definition copies (ms : list nat) (A : m3) (pos : list v3) : list v3 := flat_map (fun j => map (vadd (combination A j)) pos) (indices ms).
Definition charges (ms : list nat) (charge : list R) : list R := flat_map (fun _ => charge) (indices ms).

(** The wave of frequency [g] of the small cell at the k-point shifted by [t] is on the grid of the
    large cell: its frequency is m f + t on every axis. *)
Definition carried (ms ns g t : list nat) : Prop := forall a, (a < 3)%nat ->
  let m := nth a ms 0%nat in let n := nth a ns 0%nat in
  fftfreq (Z.of_nat (m * n)) (Z.of_nat (m * nth a g 0%nat + nth a t 0%nat)) = (Z.of_nat m * fftfreq (Z.of_nat n) (Z.of_nat (nth a g 0%nat)) + Z.of_nat (nth a t 0%nat))%Z.

(** [kpts] are the k-points of the small cell that coincide with those in [Q] of the large one: each of
    [Q] plus the combinations of the large cell's reciprocal vectors, in order. *)
Definition unfolded (ms : list nat) (A : m3) (Q kpts : list v3) : Prop := let M := nprod ms in
  length kpts = (length Q * M)%nat /\ forall l i, (l < length Q)%nat -> (i < M)%nat ->
    nth (l * M + i) kpts vzero = vadd (nth l Q vzero) (combination (reciprocal_vectors (supercell ms A)) (nth i (indices ms) [])).

(** [c'] and [occ'] describe on the large cell the same orbitals and occupations as [c] and [occ]: band
    i B + b at point l is band b at the i-th point belonging to l, and every orbital holds as
    many electrons per small cell, so M times as many per large cell. *)
Definition same_orbitals (ms ns : list nat) (sp L B : nat) (c c' : tensor C) (occ occ' : tensor R) : Prop := let M := nprod ms in
  tshape c = [sp; (L * M)%nat; B] ++ ns /\ tshape occ = [sp; (L * M)%nat; B] /\
  tshape c' = [sp; L; (M * B)%nat] ++ times ms ns /\ tshape occ' = [sp; L; (M * B)%nat] /\
  (forall s l i b, (s < sp)%nat -> (l < L)%nat -> (i < M)%nat -> (b < B)%nat -> tget occ' [s; l; (i * B + b)%nat] = INR M * tget occ [s; (l * M + i)%nat; b]) /\
  forall s l i b g t, (s < sp)%nat -> (l < L)%nat -> (i < M)%nat -> (b < B)%nat -> inb g ns -> inb t ms ->
    tget c' ([s; l; (i * B + b)%nat] ++ place ms g t) = if list_eq_dec Nat.eq_dec t (nth i (indices ms) []) then tget c ([s; (l * M + i)%nat; b] ++ g) else RtoC 0.
