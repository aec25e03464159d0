(** Model of jrystal/pseudopotential/nloc.py and beta.py. *)
From Coq Require Import Ascii String List Arith ZArith Reals Bool.
From Coquelicot Require Import Complex.
From Verif Require Import Base Sums Tensor DFT Lin3 VecModel PwModel BraketModel EnergyModel SbtModel LocModel.
From Verif Require SphModel.
Import ListNotations.
Local Open Scope R_scope.

(** The grid G + k: [expand_dims(kpts, (1,2,3)) + expand_dims(g_vector_grid, 0)]
    (beta.py 66-68, nloc.py 84-86). *)
Definition gk (G : tensor v3) (kpts : list v3) : tensor v3 :=
  mkT (length kpts :: tshape G) (fun i => vadd (nth (hd 0%nat i) kpts vzero) (tget G (tl i))).

Section Beta.
(** scipy's spherical Bessel functions and scipy's CubicSpline(x, y)(t). *)
Variable jn : Z -> R -> R.
Variable spline : list R -> list R -> R -> R.

(** beta.py 26-80, [_beta_sbt_single_atom].  The beta functions are the rows of an array.  scipy's
    CubicSpline needs at least two, strictly increasing knots. *)
Definition beta_sbt_single_atom (r : list R) (beta : list (list R)) (l : list Z) (G : tensor v3) (kpts : option (list v3)) : res (tensor R) :=
  if negb (length l =? length beta)%nat then Err AssertionErr else
  if negb (forallb (fun row => (length row =? length r)%nat) beta) then Err AssertionErr else
  match r with
  | [] => Err IndexErr
  | r0 :: r' =>
      let '(r, beta) := if Req_EM_T r0 0 then (r', map (@tl R) beta) else (r, beta) in
      let q := gk G (match kpts with Some ks => ks | None => [vzero] end) in
      let radius := tmap norm q in
      do kmax <- Rmaxl (map (tget radius) (indices (tshape radius)));
      do t <- sbt_numerical jn r (F2 beta) (LList l) (Some kmax) None;
      if (length r =? 0)%nat then Err ValueErr else
      if Rle_dec kmax (/ 10000) then Err ValueErr else
      Ok (mkT (hd 0%nat (tshape q) :: length beta :: tshape G)
              (fun i => spline (fst t) (nth (nth 1 i 0%nat) (snd t) []) (tget radius (hd 0%nat i :: skipn 2 i))))
  end.

(** beta.py 83-120, [beta_sbt_grid]: zip stops at the shortest list. *)
Definition beta_sbt_grid (rs : list (list R)) (betas : list (list (list R))) (ls : list (list Z)) (G : tensor v3) (kpts : option (list v3)) : res (list (tensor R)) :=
  mapM (fun t => beta_sbt_single_atom (fst (fst t)) (snd (fst t)) (snd t) G kpts) (combine (combine rs betas) ls).
End Beta.

(** jnp.sqrt(x + 0j), the principal square root. *)
Definition csqrt (x : R) : C := if Rle_dec 0 x then RtoC (sqrt x) else (0, sqrt (- x)).
(** 1j ** n *)
Fixpoint ipow (n : nat) : C := match n with O => RtoC 1 | S n => Cmult Ci (ipow n) end.

(** The values fourier_transform_method may take, anything else being [NlOther]. *)
Inductive nl_method := NlFft | NlSbt | NlNumerical | NlOther.

Section Nonlocal.
Variable jn : Z -> R -> R.
Variable spline : list R -> list R -> R -> R.
(** jax.scipy.special.sph_harm_y(l, m, polar, azimuth) *)
Variable sph_harm_y : Z -> Z -> R -> R -> C.
(** jnp.linalg.eigh of a square matrix: eigenvalues and the matrix whose columns are eigenvectors. *)
Variable eigh : list (list R) -> list R * list (list R).

(** nloc.py 20-40, [_compute_spherical_harmonics], at the vector q: row l, column m. *)
Definition y_lm (l_max : nat) (q : v3) (l m : nat) : C :=
  SphModel.compute_spherical_harmonics sph_harm_y l_max (vx q, vy q, vz q) l m.

Definition square_matrix (n : nat) (D : list (list R)) : bool := (length D =? n)%nat && forallb (fun row => (length row =? n)%nat) D.
Definition mat (D : list (list R)) (i j : nat) : R := nth j (nth i D []) 0.

(** nloc.py 102-131, [_get_psi], for one atom: l, D and beta_gk must agree on the number of beta
    functions (einsum raises otherwise; an axis of length one would be stretched, here it
    raises). *)
Definition get_psi (G : tensor v3) (kpts : list v3) (l_max : nat) (position : v3) (l : list nat) (D : list (list R)) (beta : tensor R) : res (tensor C) :=
  let nb := length l in
  if negb (square_matrix nb D) then Err ValueErr else
  if list_eq_dec Nat.eq_dec (tshape beta) (length kpts :: nb :: tshape G) then
    let '(eigval, eigvec) := eigh D in
    let d_matrix_sqrt b1 b2 := (RtoC (mat eigvec b1 b2) * csqrt (nth b2 eigval 0%R))%C in
    Ok (mkT ([length kpts; nb; 2 * l_max + 1]%nat ++ tshape G) (fun i =>
      let k := nth 0 i 0%nat in let b1 := nth 1 i 0%nat in let m := nth 2 i 0%nat in let x := skipn 3 i in
      let q := tget (gk G kpts) (k :: x) in
      (sumC (seq 0 nb) (fun b2 => d_matrix_sqrt b1 b2 * y_lm l_max q (nth b2 l 0%nat) m * RtoC (tget beta (k :: b2 :: x)))
       * cis (- dot q position) * ipow (nth b1 l 0%nat) * RtoC (4 * PI))%C))
  else Err ValueErr.

(** np.max(np.hstack(l)), both of which need at least one entry. *)
Definition l_max_of (l : list (list nat)) : res nat :=
  match concat l with [] => Err ValueErr | a :: r => Ok (fold_left Nat.max r a) end.

(** nloc.py 43-140, [potential_nonlocal_psi_reciprocal], with concat=False; utils.py 22-47,
    [map_over_atoms]: one call per position.  Only grids of rank 3. *)
Definition nonlocal_psi_list (position : list v3) (G : tensor v3) (kpts : list v3) (rs : list (list R)) (betas : list (list (list R)))
  (ls : list (list nat)) (Ds : list (list (list R))) (beta_gk : option (list (tensor R))) (m : nl_method) : res (list (tensor C)) :=
  if negb (length betas =? length ls)%nat then Err AssertionErr else
  match m with NlOther => Err AssertionErr | _ =>
    if negb (ndim G =? 3)%nat then Err ValueErr else
    do bgk <- match beta_gk with Some b => Ok b | None => beta_sbt_grid jn spline rs betas (map (map Z.of_nat) ls) G (Some kpts) end;
    do l_max <- l_max_of ls;
    mapM (fun i =>
      match nth_error ls i, nth_error Ds i, nth_error bgk i with
      | Some l, Some D, Some b => get_psi G kpts l_max (nth i position vzero) l D b
      | _, _, _ => Err IndexErr
      end) (seq 0 (length position))
  end.

(** jnp.concatenate(arrays, axis=1) of arrays that agree on the other axes. *)
Fixpoint locate (sizes : list nat) (b : nat) : nat * nat :=
  match sizes with
  | [] => (0, b)%nat
  | n :: r => if (b <? n)%nat then (0, b)%nat else let '(a, b') := locate r (b - n) in (S a, b')
  end.
Definition concat1 (ts : list (tensor C)) : res (tensor C) :=
  match ts with
  | [] => Err ValueErr
  | t0 :: _ =>
      let sizes := map (fun t => nth 1 (tshape t) 0%nat) ts in
      let outer t := hd 0%nat (tshape t) :: skipn 2 (tshape t) in
      if forallb (fun t => if list_eq_dec Nat.eq_dec (outer t) (outer t0) then true else false) ts then
        Ok (mkT (hd 0%nat (tshape t0) :: fold_right Nat.add 0%nat sizes :: skipn 2 (tshape t0))
                (fun i => let '(a, b) := locate sizes (nth 1 i 0%nat) in tget (nth a ts t0) (hd 0%nat i :: b :: skipn 2 i)))
      else Err TypeErr
  end.
(** nloc.py 43-140, concat=True. *)
Definition nonlocal_psi (position : list v3) (G : tensor v3) (kpts : list v3) (rs : list (list R)) (betas : list (list (list R)))
  (ls : list (list nat)) (Ds : list (list (list R))) (beta_gk : option (list (tensor R))) (m : nl_method) : res (tensor C) :=
  do l <- nonlocal_psi_list position G kpts rs betas ls Ds beta_gk m; concat1 l.
End Nonlocal.

(** nloc.py 143-158, [hamiltonian_nonlocal].  The axes of the same name must have the same length
    (einsum would stretch axes of length one, here it raises). *)
Definition hamiltonian_nonlocal (c psi : tensor C) (vol : R) : res (tensor C) :=
  match tshape c, tshape psi with
  | [sp; K; B; x; y; z], [K'; nb; nm; x'; y'; z'] =>
      if list_eq_dec Nat.eq_dec [K; x; y; z] [K'; x'; y'; z'] then
        let f s k b be m := sumC (indices [x; y; z]) (fun g => (tget c ([s; k; b] ++ g) * tget psi ([k; be; m] ++ g))%C) in
        Ok (mkT [sp; K; B; B] (fun i =>
          let s := nth 0 i 0%nat in let k := nth 1 i 0%nat in let b1 := nth 2 i 0%nat in let b2 := nth 3 i 0%nat in
          (sumC (seq 0 nb) (fun be => sumC (seq 0 nm) (fun m => Cconj (f s k b1 be m) * f s k b2 be m)) * RtoC (/ vol))%C))
      else Err ValueErr
  | _, _ => Err ValueErr
  end.

(** nloc.py 217-227, [energy_nonlocal]: the product of an array with None raises. *)
Definition energy_nonlocal (c psi : tensor C) (vol : R) (occ : option (tensor R)) : res R :=
  do h <- hamiltonian_nonlocal c psi vol;
  let diag := mkT (firstn 3 (tshape h)) (fun i => tget h (i ++ [nth 2 i 0%nat])) in
  match occ with
  | None => Err TypeErr
  | Some o => do p <- tzip (fun a b => (a * RtoC b)%C) diag o; Ok (Re (tsum_all p))
  end.

(** nloc.py 161-214, [hamiltonian_matrix], for 3-component k-points. *)
Definition nl_hamiltonian_matrix (xcd : xcdens) (c : tensor C) (dens : tensor R) (V psi : tensor C) (G : tensor v3) (kpts : list v3)
  (vol : R) (xc : string) (kohn_sham : bool) : res (tensor C) :=
  do w <- wave_grid c vol;
  do nloc <- hamiltonian_nonlocal c psi vol;
  do loc <- hamiltonian_local w V vol;
  do D <- fftn3 (tmap RtoC dens);
  do hk <- expectation c (tmap RtoC (kinetic_operator G (Some kpts))) vol None false KineticMode;
  do har <- hartree_reciprocal D G kohn_sham;
  do har <- ifftn3 har;
  do vxc <- xcd dens G kohn_sham xc;
  do vs <- tzip Cplus har vxc;
  do hs <- expectation w vs vol None false RealMode;
  do a <- tzip Cplus nloc loc; do a <- tzip Cplus a hs; tzip Cplus a hk.

(** nloc.py 230-279, [hamiltonian_trace]. *)
Definition nl_hamiltonian_trace (xcd : xcdens) (c : tensor C) (dens : tensor R) (V psi : tensor C) (G : tensor v3) (kpts : list v3)
  (vol : R) (xc : string) (kohn_sham : bool) : res R :=
  do w <- wave_grid c vol;
  let occ := mkT (firstn 3 (tshape w)) (fun _ => 1) in
  do d <- wave_to_density w (Some occ);
  do D <- fftn3 (tmap RtoC d);
  do nloc <- energy_nonlocal c psi vol (Some occ);
  do loc <- energy_local D V vol;
  do HD <- fftn3 (tmap RtoC dens);
  do vh <- hartree_reciprocal HD G kohn_sham;
  do vh <- ifftn3 vh;
  do har <- expectation w vh vol None true RealMode;
  do vxc <- xcd dens G kohn_sham xc;
  do ex <- expectation w vxc vol None true RealMode;
  do hs <- tzip Cplus har ex;
  do kin <- expectation c (tmap RtoC (kinetic_operator G (Some kpts))) vol None true KineticMode;
  Ok (Re (RtoC (nloc + loc) + tsum_all hs + tsum_all kin)%C).
