(** Vocabulary for the energy properties. *)
From Coq Require Import String List Arith ZArith Reals.
From Coquelicot Require Import Complex.
From Verif Require Import Base Sums Tensor DFT Lin3 VecModel PwSpec EnergyModel.
Import ListNotations.
Local Open Scope R_scope.

(** The density summed over spin, in reciprocal space. *)
Definition spin_sum (D : tensor C) (x : list nat) : C := sumC (seq 0 (hd 0%nat (tshape D))) (fun s => tget D (s :: x)).

Definition at_origin (i : list nat) : Prop := Forall (fun k => k = 0%nat) i.

(** sum over G <> 0 of |rho(G)|^2 / |G|^2 *)
Definition coulomb_sum (ns : list nat) (G : tensor v3) (D : tensor C) : R :=
  sumR (filter (fun x => existsb (fun k => negb (Nat.eqb k 0)) x) (indices ns))
       (fun x => Cnorm2 (spin_sum D x) / norm2 (tget G x)).

(** sum_a Z_a exp(-i q.R_a) *)
Definition structure_factor (charge : list R) (position : list v3) (q : v3) : C :=
  sumC (combine charge position) (fun p => (RtoC (fst p) * cis (- dot q (snd p)))%C).

(** An integer combination of the cell vectors. *)
Definition in_lattice (A : m3) (v : v3) : Prop :=
  exists a b c : Z, v = vadd (vadd (vscale (IZR a) (m0 A)) (vscale (IZR b) (m1 A))) (vscale (IZR c) (m2 A)).

(** A complex grid function whose imaginary part vanishes. *)
Definition real_valued (t : tensor C) : Prop := forall i, inb i (tshape t) -> Im (tget t i) = 0.

(** Two results that are the same array, or the same exception. *)
Definition rteq {X} (a b : res (tensor X)) : Prop :=
  match a, b with Ok u, Ok v => teq u v | Err e, Err e' => e = e' | _, _ => False end.

(** A point of the cell given by integer steps of the grid. *)
Definition grid_step (A : m3) (n1 n2 n3 : nat) (t1 t2 t3 : Z) : v3 :=
  vadd (vadd (vscale (IZR t1 / INR n1) (m0 A)) (vscale (IZR t2 / INR n2) (m1 A))) (vscale (IZR t3 / INR n3) (m2 A)).

(** The exchange-correlation density depends on the entries of the density only. *)
Definition xc_local (xcd : xcdens) (ks : bool) (xt : string) : Prop :=
  forall d d' G, teq d d' -> rteq (xcd d G ks xt) (xcd d' G ks xt).

(** The exchange-correlation density moves with the density. *)
Definition xc_translates (xcd : xcdens) (ks : bool) (xt : string) : Prop := forall n1 n2 n3 sp t d d' G, let ns := [n1; n2; n3] in
  length t = 3%nat -> tshape G = ns -> tshape d = sp :: ns -> tshape d' = sp :: ns ->
  (forall s x, (s < sp)%nat -> inb x ns -> tget d' (s :: x) = tget d (s :: shift_index ns x t)) ->
  match xcd d G ks xt, xcd d' G ks xt with
  | Ok e, Ok e' => tshape e = tshape e' /\
      ((tshape e = ns /\ forall x, inb x ns -> tget e' x = tget e (shift_index ns x t)) \/
       (tshape e = sp :: ns /\ forall s x, (s < sp)%nat -> inb x ns -> tget e' (s :: x) = tget e (s :: shift_index ns x t)))
  | Err a, Err b => a = b
  | _, _ => False
  end.
