(** Model of jrystal/pseudopotential/local.py. *)
From Coq Require Import List Arith ZArith Reals Bool.
From Coquelicot Require Import Complex.
From Verif Require Import Base Sums Tensor DFT Lin3 VecModel PwModel BraketModel EwaldModel SbtModel.
Import ListNotations.
Local Open Scope R_scope.

(** fourier_transform_method: any other string is [OtherMethod]. *)
Inductive ft_method := SbtMethod | FftMethod | OtherMethod.

Section Local.
(** scipy's spherical Bessel functions and interpax's [CubicSpline(x, y)(t)]; the checks
    CubicSpline makes on its knots are not modelled. *)
Variable jn : Z -> R -> R.
Variable spline : list R -> list R -> R -> R.

(** local.py 75-97: the numerical part of one atom, v + z/r transformed, on the grid.  A potential
    whose length is not that of the radial grid makes [v_r + z / r] raise (length 1 would be
    stretched, here it raises). *)
Definition short_range (m : ft_method) (G rv : tensor v3) (r v : list R) (z : R) : res (tensor C) :=
  if (length v =? length r)%nat then
    let v' := map (fun p => snd p + z / fst p) (combine r v) in
    match m with
    | SbtMethod =>
        do kmax <- Rmaxl (map (tget (grid_vector_radius G)) (indices (tshape G)));
        do t <- sbt_numerical jn r (F2 [v']) (LInt 0) (Some kmax) None;
        Ok (tmap (fun g => RtoC (spline (fst t) (nth 0 (snd t) []) g * (4 * PI))) (grid_vector_radius G))
    | FftMethod =>
        do f <- fftn3 (tmap (fun s => RtoC (spline r v' s)) (grid_vector_radius rv));
        Ok (tmap (fun c => (c * RtoC (/ INR (nprod (tshape G))) * RtoC (4 * PI))%C) f)
    | OtherMethod => Err ValueErr
    end
  else Err ValueErr.

(** local.py 32-131, [potential_local_reciprocal]; utils.py 22-47, [map_over_atoms]: as many data
    sets as radial grids; the charges are a jax array, an index past its end reads the last one;
    the potentials are a list.  Then the leading axes of the data, the charges and the positions
    are broadcast.  Only grids of rank 3. *)
Definition potential_local_reciprocal (pos : list v3) (G : tensor v3) (rs vs : list (list R)) (zs : list R) (vol : R) (m : ft_method) : res (tensor C) :=
  if negb (ndim G =? 3)%nat then Err IndexErr else
  do rv <- g2r_vector_grid G None;
  match m with
  | OtherMethod => Err ValueErr
  | _ =>
    do v1 <- mapM (fun i =>
        match nth_error vs i, zs with
        | Some v, _ :: _ => short_range m G rv (nth i rs []) v (nth (Nat.min i (length zs - 1)) zs 0)
        | _, _ => Err IndexErr
        end) (seq 0 (length rs));
    if (length v1 =? 0)%nat then Err ValueErr else
    match bshape [length v1] [length zs] with
    | Some [n1] =>
        match bshape [n1] [length pos] with
        | Some [n] =>
            let ax l a := hd 0%nat (clip1 [l] [a]) in
            let N := INR (nprod (tshape G)) in
            let v_g a x := if is_origin x then RtoC 0 else
              (tget (nth (ax (length v1) a) v1 (mkT [] (fun _ => RtoC 0))) x
               - RtoC (nth (ax (length zs) a) zs 0 / tget (grid_vector_radius G) x ^ 2 * (4 * PI)))%C in
            let sf a x := cis (- dot (tget G x) (nth (ax (length pos) a) pos vzero)) in
            Ok (mkT (tshape G) (fun x => (sumC (seq 0 n) (fun a => v_g (ax n1 a) x * sf a x) * RtoC (N / vol))%C))
        | _ => Err ValueErr
        end
    | _ => Err ValueErr
    end
  end.
End Local.

(** local.py 134-161, [hamiltonian_local]. *)
Definition hamiltonian_local (wave V : tensor C) (vol : R) : res (tensor C) :=
  do v <- ifftn3 V; expectation wave v vol None false RealMode.

(** local.py 164-187, [energy_local]. *)
Definition energy_local (D V : tensor C) (vol : R) : res R := reciprocal_braket V D vol.
