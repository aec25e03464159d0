(** Vocabulary of the nonlocal pseudopotential properties. *)
From Coq Require Import List Arith ZArith Reals Sorted.
From Coquelicot Require Import Complex.
From Verif Require Import Base Sums Tensor DFT Lin3 EnergyModel NlocModel.
From Verif Require SphSpec SbtModel.
Import ListNotations.
Local Open Scope R_scope.

(** One atom: position, angular momenta of its projectors, D matrix, projectors on the G+k grid. *)
Record proj_atom := mkProj { p_pos : v3; p_l : list nat; p_D : list (list R); p_beta : tensor R }.
Definition p_moved (a : proj_atom) (t : v3) : proj_atom := mkProj (vadd (p_pos a) t) (p_l a) (p_D a) (p_beta a).
(** The arrays of one atom fit the grid, the k-points and each other. *)
Definition fits (G : tensor v3) (kpts : list v3) (a : proj_atom) : Prop :=
  length (p_D a) = length (p_l a) /\ Forall (fun row => length row = length (p_l a)) (p_D a) /\
  tshape (p_beta a) = length kpts :: length (p_l a) :: tshape G.
(** The call with one entry per atom in every argument and the projectors on the grid given; [rs] and [betas], the radial data,
    are then not used except for the length of [betas]. *)
Definition psi_of jn spline Y eigh (atoms : list proj_atom) (G : tensor v3) (kpts : list v3) rs (betas : list (list (list R))) m : res (tensor C) :=
  nonlocal_psi jn spline Y eigh (map p_pos atoms) G kpts rs betas (map p_l atoms) (map p_D atoms) (Some (map p_beta atoms)) m.
(** The largest angular momentum of all atoms. *)
Definition max_l (atoms : list proj_atom) : nat := list_max (concat (map p_l atoms)).

(** The matrix: projectors built from the atoms, then the operator between the orbitals c. *)
Definition nonlocal_of jn spline Y eigh (atoms : list proj_atom) (G : tensor v3) (kpts : list v3) rs (betas : list (list (list R))) m (c : tensor C) (vol : R) : res (tensor C) :=
  do psi <- psi_of jn spline Y eigh atoms G kpts rs betas m; hamiltonian_nonlocal c psi vol.

(** The real spherical harmonic of the direction of q, m = 0 .. 2l. *)
Definition harmonic Y (l : nat) (q : v3) (m : nat) : C := y_lm Y l q l m.
(** sum over G of c(G) beta_j(G+k) Y_(l_j m)(G+k) exp(sign i (G+k).R).  Up to a constant of modulus one, for sign = 1 this is
    <beta_j Y_m centred at R | psi> for the orbital with coefficients c. *)
Definition projection (sign : R) Y (G : tensor v3) (kpts : list v3) (a : proj_atom) (c : tensor C) (b : list nat) (k j m : nat) : C :=
  sumC (indices (tshape G)) (fun x => let q := vadd (nth k kpts vzero) (tget G x) in
    (tget c (b ++ x) * (RtoC (tget (p_beta a) (k :: j :: x)) * harmonic Y (nth j (p_l a) 0%nat) q m * cis (sign * dot q (p_pos a))))%C).
(** sum over m of conj <beta_i|psi_b1> <beta_j|psi_b2> for two projectors of one atom. *)
Definition overlap sign Y (G : tensor v3) (kpts : list v3) (a : proj_atom) (c : tensor C) (s k b1 b2 i j : nat) : C :=
  sumC (seq 0 (2 * nth j (p_l a) 0%nat + 1)) (fun m => (Cconj (projection sign Y G kpts a c [s; k; b1] k i m) * projection sign Y G kpts a c [s; k; b2] k j m)%C).
(** The textbook matrix: sum over atoms and pairs of projectors of D_ij <psi_b1|beta_i><beta_j|psi_b2>. *)
Definition textbook sign Y (atoms : list proj_atom) (G : tensor v3) (kpts : list v3) (c : tensor C) (vol : R) (s k b1 b2 : nat) : C :=
  (RtoC ((4 * PI) ^ 2 / vol) * sumC atoms (fun a => sumC (seq 0 (length (p_l a))) (fun i => sumC (seq 0 (length (p_l a))) (fun j =>
     RtoC (mat (p_D a) i j) * overlap sign Y G kpts a c s k b1 b2 i j))))%C.

(** The same sum over m by the addition theorem: (2l+1)/(4 pi) P_l of the angle between G+k and G'+k. *)
Definition legendre_overlap sign (G : tensor v3) (kpts : list v3) (a : proj_atom) (c : tensor C) (s k b1 b2 j : nat) : C :=
  let l := nth j (p_l a) 0%nat in let q x := vadd (nth k kpts vzero) (tget G x) in
  let term b x := (tget c ([s; k; b] ++ x) * (RtoC (tget (p_beta a) (k :: j :: x)) * cis (sign * dot (q x) (p_pos a))))%C in
  sumC (indices (tshape G)) (fun x => sumC (indices (tshape G)) (fun x' =>
    (Cconj (term b1 x) * term b2 x' * RtoC ((2 * INR l + 1) / (4 * PI) * SphSpec.legendre l (dot (q x) (q x') / (norm (q x) * norm (q x')))))%C)).

(** The coefficients of psi(r - t). *)
Definition orbitals_moved (G : tensor v3) (kpts : list v3) (c : tensor C) (t : v3) : tensor C :=
  mkT (tshape c) (fun i => (tget c i * cis (- dot (vadd (nth (nth 1 i 0%nat) kpts vzero) (tget G (skipn 3 i))) t))%C).

(** What eigh promises for a symmetric n by n matrix D = V diag(lam) V^T: V orthogonal, lam ascending. *)
Definition orthogonal_columns (n : nat) (V : list (list R)) : Prop :=
  forall j j', (j < n)%nat -> (j' < n)%nat -> sumR (seq 0 n) (fun i => mat V i j * mat V i j') = if (j =? j')%nat then 1 else 0.
Definition orthogonal_rows (n : nat) (V : list (list R)) : Prop :=
  forall i i', (i < n)%nat -> (i' < n)%nat -> sumR (seq 0 n) (fun j => mat V i j * mat V i' j) = if (i =? i')%nat then 1 else 0.
Definition spectral (n : nat) (D : list (list R)) (lam : list R) (V : list (list R)) : Prop :=
  length lam = n /\ Sorted Rle lam /\ orthogonal_columns n V /\ orthogonal_rows n V /\
  forall i i', (i < n)%nat -> (i' < n)%nat -> mat D i i' = sumR (seq 0 n) (fun j => mat V i j * nth j lam 0 * mat V i' j).
(** A diagonal matrix with ascending, nonnegative entries. *)
Definition ascending_diagonal (n : nat) (D : list (list R)) : Prop :=
  (forall i j, (i < n)%nat -> (j < n)%nat -> i <> j -> mat D i j = 0) /\ (forall i, (i < n)%nat -> 0 <= mat D i i) /\ (forall i, (S i < n)%nat -> mat D i i <= mat D (S i) (S i)).

(** Left Riemann sum, over the radial grid, of the integral of f(r) r^2 j_l(g r). *)
Definition radial_transform (jn : Z -> R -> R) (l : Z) (r f : list R) (g : R) : R :=
  sumR (seq 0 (length r - 1)) (fun i => nth i f 0 * nth i r 0 ^ 2 * jn l (g * nth i r 0) * (nth (S i) r 0 - nth i r 0)).
(** Number of radial points used: a leading r = 0 is not. *)
Definition used_points (r : list R) : nat := match r with [] => 0 | r0 :: r' => if Req_EM_T r0 0 then length r' else length r end.
(** kmax is the largest |G+k|. *)
Definition largest (G : tensor v3) (kpts : list v3) (kmax : R) : Prop :=
  (exists k x, (k < length kpts)%nat /\ inb x (tshape G) /\ kmax = norm (vadd (nth k kpts vzero) (tget G x))) /\
  forall k x, (k < length kpts)%nat -> inb x (tshape G) -> norm (vadd (nth k kpts vzero) (tget G x)) <= kmax.

(** Each atom's eigenvector matrix has orthonormal columns. *)
Definition columns (eigh : list (list R) -> list R * list (list R)) (atoms : list proj_atom) : Prop :=
  Forall (fun a => orthogonal_columns (length (p_l a)) (snd (eigh (p_D a)))) atoms.
(** eigh keeps its promise for each atom's D matrix. *)
Definition spectral_atoms (eigh : list (list R) -> list R * list (list R)) (atoms : list proj_atom) : Prop :=
  Forall (fun a => spectral (length (p_l a)) (p_D a) (fst (eigh (p_D a))) (snd (eigh (p_D a)))) atoms.
(** What the code computes instead of [textbook]: projector j of an atom weighted by |lambda_j|, no cross terms. *)
Definition formula Y (eigh : list (list R) -> list R * list (list R)) (atoms : list proj_atom) G kpts c vol s k b1 b2 : C :=
  (RtoC ((4 * PI) ^ 2 / vol) * sumC atoms (fun a => sumC (seq 0 (length (p_l a))) (fun j =>
     RtoC (Rabs (nth j (fst (eigh (p_D a))) 0)) * overlap (-1) Y G kpts a c s k b1 b2 j j)))%C.
(** The atom at minus its position. *)
Definition reflected (a : proj_atom) : proj_atom := mkProj (vneg (p_pos a)) (p_l a) (p_D a) (p_beta a).
(** The k-points used when none are given: the Gamma point. *)
Definition ks_of (k : option (list v3)) : list v3 := match k with Some l => l | None => [vzero] end.
(** The points at which the transforms are computed before interpolation. *)
Definition knots (kmax : R) (r : list R) : list R := SbtModel.linspace (/ 10000) kmax (2 * used_points r).

(** Inputs of the norm-conserving Hamiltonian whose shapes fit; no zero G vector but the first. *)
Definition nl_inputs (c : tensor C) (dens : tensor R) (V psi : tensor C) (G : tensor v3) (kpts : list v3) sp sp' B nb nm n1 n2 n3 : Prop :=
  tshape c = [sp; length kpts; B; n1; n2; n3] /\ tshape dens = [sp'; n1; n2; n3] /\ tshape V = [n1; n2; n3] /\ tshape psi = [length kpts; nb; nm; n1; n2; n3] /\ tshape G = [n1; n2; n3] /\
  (forall x, inb x [n1; n2; n3] -> is_origin x = false -> norm2 (tget G x) <> 0%R).
(** The matrix element of the Hartree potential vh plus channel ch of the exchange-correlation potential. *)
Definition scf_element ns vol (w vh vxc : tensor C) (ch : nat) (b b' : list nat) : C :=
  (RtoC (vol / INR (nprod ns)) * sumC (indices ns) (fun x => Cconj (tget w (b ++ x)) * (tget vh x + tget vxc (ch :: x)) * tget w (b' ++ x)))%C.
