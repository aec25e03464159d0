(** Vocabulary for the Hessian and Hamiltonian properties. *)
From Coq Require Import Reals List Arith.
From Coquelicot Require Import Complex.
From Verif Require Import Base Sums Tensor DFT Lin3 VecModel PwModel.
Import ListNotations.
Local Open Scope R_scope.

(** x^H H x, x^T S x and the general real quadratic function of a complex vector. *)
Definition sesquilinear (m : nat) (H : nat -> nat -> C) (x : nat -> C) : C :=
  sumC (seq 0 m) (fun i => sumC (seq 0 m) (fun j => Cconj (x i) * H i j * x j)%C).
Definition bilinear (m : nat) (S : nat -> nat -> C) (x : nat -> C) : C :=
  sumC (seq 0 m) (fun i => sumC (seq 0 m) (fun j => x i * S i j * x j)%C).
Definition real_quadratic (m : nat) (c : R) (b : nat -> C) (H S : nat -> nat -> C) (x : nat -> C) : R :=
  c + Re (sumC (seq 0 m) (fun j => b j * x j)%C) + Re (RtoC (/ 2) * sesquilinear m H x)%C + Re (RtoC (/ 2) * bilinear m S x)%C.

(** Hermitian and symmetric parts of a matrix. *)
Definition herm (H : nat -> nat -> C) (i j : nat) : C := (RtoC (/ 2) * (H i j + Cconj (H j i)))%C.
Definition symm (S : nat -> nat -> C) (i j : nat) : C := (RtoC (/ 2) * (S i j + S j i))%C.

(** Matrix element of the Hamiltonian |G+q|^2/2 + V between the orbitals at leading indices
    b and b': [c] holds their plane-wave coefficients, [w] their values on the grid of [ns]
    points, V is a real potential on that grid. *)
Definition kinetic_element (ns : list nat) (c : tensor C) (G : tensor v3) (q : v3) (b b' : list nat) : C :=
  sumC (indices ns) (fun g => Cconj (tget c (b ++ g)) * RtoC (let p := vadd (tget G g) q in dot p p / 2) * tget c (b' ++ g))%C.
Definition potential_element (ns : list nat) (vol : R) (V : list nat -> R) (w : tensor C) (b b' : list nat) : C :=
  (RtoC (vol / INR (nprod ns)) * sumC (indices ns) (fun x => Cconj (tget w (b ++ x)) * RtoC (V x) * tget w (b' ++ x)))%C.
Definition h_element (ns : list nat) (vol : R) (V : list nat -> R) (w c : tensor C) (G : tensor v3) (q : v3) (b b' : list nat) : C :=
  (kinetic_element ns c G q b b' + potential_element ns vol V w b b')%C.

(** Coefficients of shape [spin, kpt, B, x, y, z]: the bands of [c] followed by those of [e]. *)
Definition stack_bands (B : nat) (c e : tensor C) : tensor C :=
  mkT (match tshape c with s :: k :: _ :: ns => s :: k :: (B + B)%nat :: ns | l => l end)
      (fun i => let b := nth 2 i 0%nat in
         if (b <? B)%nat then tget c i else tget e (firstn 2 i ++ (b - B)%nat :: skipn 3 i)).
