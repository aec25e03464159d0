(** Model of jrystal/pseudopotential/spherical.py.  Functions that act on the last axis of a
    batch are modelled on one vector; the batch axes are mapped over unchanged. *)
From Coq Require Import Reals ZArith List.
From Coquelicot Require Import Complex.
From Verif Require Import Base.
Import ListNotations.
Local Open Scope R_scope.

Definition vec : Type := (R * R * R)%type.
Definition vx (v : vec) : R := fst (fst v).
Definition vy (v : vec) : R := snd (fst v).
Definition vz (v : vec) : R := snd v.

(** jnp.arctan2(y, x) over the reals (no signed zero). *)
Definition arctan2 (y x : R) : R :=
  if Rlt_dec 0 x then atan (y / x)
  else if Rlt_dec x 0 then (if Rle_dec 0 y then atan (y / x) + PI else atan (y / x) - PI)
  else if Rlt_dec 0 y then PI / 2 else if Rlt_dec y 0 then - (PI / 2) else 0.
(** jnp.mod(a, b): a - floor(a/b) b. *)
Definition rmod (a b : R) : R := a - IZR (Int_part (a / b)) * b.
(** jnp.clip *)
Definition rclip (x lo hi : R) : R := Rmin (Rmax x lo) hi.
(** jnp.linalg.norm of a 3-vector *)
Definition norm3 (v : vec) : R := sqrt (vx v ^ 2 + vy v ^ 2 + vz v ^ 2).

(** spherical.py 33-64, [cartesian_to_spherical]. *)
Definition cartesian_to_spherical (eps : R) (x : vec) : vec :=
  let r0 := norm3 x in
  let r := if Req_EM_T r0 0 then eps else r0 in
  let phi := acos (rclip (vz x / r) (-1) 1) in
  let theta := rmod (arctan2 (vy x) (vx x) + 2 * PI) (2 * PI) in
  (r, theta, phi).

(** spherical.py 177-209, [legendre_kernel_trick]: the feature map.  Division by the norm of the zero
    vector gives NaN entries, which are then set to 0. *)
Definition legendre_kernel_trick (l : Z) : res (vec -> vec) :=
  if (l =? 0)%Z then Ok (fun x => (sqrt 3 / 3 + 0, sqrt 3 / 3 + 0, sqrt 3 / 3 + 0))
  else if (l =? 1)%Z then
    Ok (fun x =>
      let n := sqrt (vx x ^ 2 + vy x ^ 2 + vz x ^ 2) in
      let d a := if Req_EM_T n 0 then 0 else a / n in
      (sqrt 3 * d (vx x), sqrt 3 * d (vy x), sqrt 3 * d (vz x)))
  else Err NotImplementedErr.

Section Harmonics.
(** jax.scipy.special.sph_harm_y(l, m, polar, azimuth). *)
Variable sph_harm_y : Z -> Z -> R -> R -> C.

(** (-1) ** m for jnp integers (square and multiply on the bits of m: the parity, also for
    negative m). *)
Definition sgn (m : Z) : R := if Z.even m then 1 else -1.
(** np.arange(-l, l + 1) *)
Definition ms (l : nat) : list Z := map (fun j => (Z.of_nat j - Z.of_nat l)%Z) (seq 0 (2 * l + 1)).
(** spherical.py 89-121, [batch_sph_harm], at one point; theta azimuth, phi polar. *)
Definition batch_sph_harm (l : nat) (theta phi : R) : list C := map (fun m => sph_harm_y (Z.of_nat l) m phi theta) (ms l).
(** spherical.py 67-86, [batch_sph_harm_real], at one point. *)
Definition batch_sph_harm_real (l : nat) (theta phi : R) : list R :=
  let h1 := batch_sph_harm l theta phi in
  let h2 := map (fun p : C * Z => Cmult (Cconj (fst p)) (RtoC (sgn (snd p)))) (combine h1 (ms l)) in
  let output := map (fun p : (C * C) * Z =>
      if (0 <=? snd p)%Z then Re (fst (fst p)) * sqrt 2 * sgn (snd p) else Im (snd (fst p)) * sqrt 2 * sgn (snd p))
      (combine (combine h1 h2) (ms l)) in
  firstn l output ++ [Re (nth l h1 (RtoC 0))] ++ skipn (S l) output.

(** nloc.py 20-40, [_compute_spherical_harmonics], at one point: row l, zero padded to 2 l_max + 1. *)
Definition compute_spherical_harmonics (l_max : nat) (x : vec) (l j : nat) : C :=
  let s := cartesian_to_spherical (/ 10 ^ 10) x in
  if (j <? 2 * l + 1)%nat then RtoC (nth j (batch_sph_harm_real l (vy s) (vz s)) 0) else RtoC 0.

(** jax.scipy.special.sph_harm(m, n, azimuth, polar), the older interface to the same functions. *)
Definition sph_harm (m n : Z) (azimuth polar : R) : C := sph_harm_y n m polar azimuth.
(** spherical.py 124-174, [legendre_to_sph_harm] and the returned function, at one point, for l >= 0.
    jnp.pad raises ValueError when a padding width is negative. *)
Definition legendre_to_sph_harm (l l_max : nat) (x_i : vec) : res (list C) :=
  let x_spherical := cartesian_to_spherical (/ 10 ^ 10) x_i in
  let theta := vy x_spherical in
  let phi := vz x_spherical in
  let y_lm := map (fun m => sph_harm m (Z.of_nat l) theta phi) (ms l) in
  let width := ((Z.of_nat l_max - Z.of_nat l) * 2)%Z in
  if (width <? 0)%Z then Err ValueErr
  else Ok (map (fun y => Cmult (Cmult y (RtoC 2)) (RtoC (sqrt PI))) (y_lm ++ repeat (RtoC 0) (Z.to_nat width))).
End Harmonics.
