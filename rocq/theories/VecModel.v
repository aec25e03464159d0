(** Model of the vector grids of jrystal/_src/grid.py, of utils.volume and of the geometry
    properties of jrystal/_src/crystal.py.  Arrays [x y z 3] are tensors of three-vectors;
    floats are real numbers. *)
From Coq Require Import List Arith ZArith Reals Bool.
From Verif Require Import Base Sums Tensor GridModel Lin3.
Import ListNotations.
Local Open Scope R_scope.

Definition Rleb (x y : R) : bool := if Rle_dec x y then true else false.

(** numpy.fft.fftfreq(n, d)[i] = (integer frequency) / (n d). *)
Definition fftfreq_d (n : nat) (d : R) (i : nat) : R :=
  IZR (fftfreq (Z.of_nat n) (Z.of_nat i)) / (INR n * d).

(** jrystal/_src/grid.py 93-119, [_vector_grid] for a 3x3 basis.  [len(grid_sizes) <> 3]
    fails the assertion on the basis shape.  Size 0: [1 / grid_sizes[i]] divides by zero
    (with normalize=True numpy instead returns an empty axis; not modelled).
    The sum of the three reshaped outer products is written out entrywise. *)
Definition vector_grid (basis : m3) (sizes : list nat) (normalize : bool) : res (tensor v3) :=
  match sizes with
  | [n1; n2; n3] =>
      if (n1 =? 0)%nat || (n2 =? 0)%nat || (n3 =? 0)%nat then Err ZeroDivisionErr
      else
        let f n i := fftfreq_d n (if normalize then 1 else 1 / INR n) i in
        Ok (mkT sizes (fun i =>
          vadd (vadd (vscale (f n1 (nth 0%nat i 0%nat)) (m0 basis))
                     (vscale (f n2 (nth 1%nat i 0%nat)) (m1 basis)))
               (vscale (f n3 (nth 2%nat i 0%nat)) (m2 basis))))
  | _ => Err AssertionErr
  end.

(** grid.py 148, 261 and crystal.py 116: [2 * jnp.pi * jnp.linalg.inv(cell_vectors).T]. *)
Definition reciprocal_vectors (A : m3) : m3 := m3scale (2 * PI) (m3t (m3inv A)).

(** grid.py 122-149, [g_vectors]. *)
Definition g_vectors (A : m3) (sizes : list nat) : res (tensor v3) :=
  vector_grid (reciprocal_vectors A) sizes false.

(** grid.py 152-178, [r_vectors]. *)
Definition r_vectors (A : m3) (sizes : list nat) : res (tensor v3) :=
  vector_grid A sizes true.

(** Smallest integer not below x (numpy.ceil followed by int). *)
Definition ceil (x : R) : Z := (- Int_part (- x))%Z.

(** grid.py 213-236, [translation_vectors].  Division by a zero norm gives inf (or nan when
    cutoff is 0), on which [int] raises.  A count that is not positive makes [_vector_grid]
    raise.  [np.reshape(grid, [-1, 3])] lists the grid row-major. *)
Definition translation_vectors (A : m3) (cutoff : R) : res (list v3) :=
  let s := norm (vadd (vadd (m0 A) (m1 A)) (m2 A)) in
  if Req_EM_T s 0 then Err (if Req_EM_T cutoff 0 then ValueErr else OverflowErr)
  else
    let n := ceil (cutoff / s ^ 2) in
    if (n <? 0)%Z then Err ValueErr else
    let k := Z.to_nat n in
    do g <- vector_grid A [k; k; k] false;
    Ok (map (tget g) (indices (tshape g))).

(** ase.dft.kpoints.monkhorst_pack: row-major [(indices + 0.5) / size - 0.5]; a size <= 0 raises. *)
Definition monkhorst_pack (sizes : list nat) : res (list v3) :=
  match sizes with
  | [n1; n2; n3] =>
      if (n1 =? 0)%nat || (n2 =? 0)%nat || (n3 =? 0)%nat then Err ValueErr
      else
        let c n i := (INR i + / 2) / INR n - / 2 in
        Ok (map (fun i => V3 (c n1 (nth 0%nat i 0%nat)) (c n2 (nth 1%nat i 0%nat)) (c n3 (nth 2%nat i 0%nat)))
                (indices sizes))
  | _ => Err ValueErr
  end.

(** grid.py 239-262, [k_vectors]. *)
Definition k_vectors (A : m3) (sizes : list nat) : res (list v3) :=
  do ks <- monkhorst_pack sizes;
  Ok (map (fun k => vmul k (reciprocal_vectors A)) ks).

(** grid.py 265-293, [spherical_mask]. *)
Definition spherical_mask (A : m3) (sizes : list nat) (cutoff : R) : res (tensor bool) :=
  do g <- g_vectors A sizes;
  Ok (tmap (fun v => Rleb (norm v ^ 2) (cutoff * 2)) g).

(** numpy.max of a non-empty list. *)
Definition Rmaxl (l : list R) : res R :=
  match l with [] => Err ValueErr | x :: l' => Ok (fold_left Rmax l' x) end.

(** grid.py 328-349, [estimate_max_cutoff_energy].  Multiplying by a boolean is
    multiplying by 0 or 1. *)
Definition estimate_max_cutoff_energy (A : m3) (mask : tensor bool) : res R :=
  do g <- g_vectors A (tshape mask);
  Rmaxl (map (fun i => norm (tget g i) ^ 2 / 2 * (if tget mask i then 1 else 0)) (indices (tshape mask))).

(** grid.py 352-374, [grid_vector_radius]. *)
Definition grid_vector_radius (g : tensor v3) : tensor R :=
  tmap (fun v => sqrt (vx v ^ 2 + vy v ^ 2 + vz v ^ 2)) g.

(** [a.T @ b] for two N x 3 arrays given as lists of rows: sum of outer products. *)
Definition outer (a b : v3) : m3 := M3 (vscale (vx a) b) (vscale (vy a) b) (vscale (vz a) b).
Definition m3add (A B : m3) : m3 := M3 (vadd (m0 A) (m0 B)) (vadd (m1 A) (m1 B)) (vadd (m2 A) (m2 B)).
Definition m3zero := M3 vzero vzero vzero.
Fixpoint at_b (a b : list v3) : m3 :=
  match a, b with
  | x :: a', y :: b' => m3add (outer x y) (at_b a' b')
  | _, _ => m3zero
  end.
(** [reshape([-1, 3])]: rows in row-major order. *)
Definition rows (g : tensor v3) : list v3 := map (tget g) (indices (tshape g)).

(** grid.py 428-448, [g2cell_vectors]. *)
Definition g2cell_vectors (g : tensor v3) : res m3 :=
  do c <- g_vectors m3id (tshape g);
  let a := rows c in
  let b := rows g in
  Ok (m3inv (m3mul (m3inv (at_b a a)) (at_b a b))).

(** grid.py 451-470, [r2cell_vectors]. *)
Definition r2cell_vectors (r : tensor v3) : res m3 :=
  do d0 <- r_vectors m3id (tshape r);
  let d := rows d0 in
  Ok (m3mul (m3inv (at_b d d)) (at_b d (rows r))).

(** grid.py 377-401, [g2r_vector_grid]. *)
Definition g2r_vector_grid (g : tensor v3) (cell : option m3) : res (tensor v3) :=
  do A <- match cell with Some A => Ok A | None => g2cell_vectors g end;
  r_vectors A (tshape g).

(** grid.py 404-425, [r2g_vector_grid]. *)
Definition r2g_vector_grid (r : tensor v3) (cell : option m3) : res (tensor v3) :=
  do A <- match cell with Some A => Ok A | None => r2cell_vectors r end;
  g_vectors A (tshape r).

(** jrystal/_src/utils.py 133-158, [volume]; crystal.py 91-96, [Crystal.vol]. *)
Definition volume (A : m3) : R := Rabs (m3det A).

(** crystal.py 84-89, [Crystal.scaled_positions]: [positions @ inv(cell).T], one atom. *)
Definition scaled_position (A : m3) (p : v3) : v3 := vmul p (m3t (m3inv A)).
