(** Model of jrystal/_src/hessian.py and hamiltonian.py. *)
From Coq Require Import Reals.
From Coquelicot Require Import Coquelicot.
From Coq Require Import Ascii String List Arith ZArith Bool.
From Verif Require Import Base Sums Tensor DFT GridModel PadModel Lin3 VecModel PwModel BraketModel XcModel EnergyModel.
Import ListNotations.
Local Open Scope R_scope.

(** A complex vector; the dimension is passed along. *)
Definition cvec := nat -> C.
(** The point x + s d e_k. *)
Definition move (x : cvec) (k : nat) (d : C) (s : R) : cvec :=
  fun j => if Nat.eqb j k then (x j + RtoC s * d)%C else x j.

(** jax.vjp of f : C^n -> C^m at x, applied to the cotangent ct: the vector w with
    Re(sum_k w_k t_k) = d/ds Re(sum_j ct_j f(x + s t)_j) for every tangent t, whose components
    are found with the tangents e_k and i e_k. *)
Definition vjp (m : nat) (f : cvec -> cvec) (x ct : cvec) : cvec := fun k =>
  (Derive (fun s => Re (sumC (seq 0 m) (fun j => ct j * f (move x k (RtoC 1) s) j)%C)) 0,
   - Derive (fun s => Re (sumC (seq 0 m) (fun j => ct j * f (move x k Ci s) j)%C)) 0).

(** hessian.py 21-55, [complex_hessian], for a vector [x] of length [m] and a scalar
    function [f].  Row i is the vjp of grad_f with cotangent e_i; [jnp.array([])] has shape [0]. *)
Definition square (m : nat) : list nat := if (m =? 0)%nat then [0%nat] else [m; m].
Definition complex_hessian (m : nat) (f : cvec -> C) (x : cvec) : tensor C :=
  let grad_f y := vjp 1 (fun z _ => f z) y (fun _ => RtoC 1) in
  mkT (square m) (fun i => vjp m grad_f x (fun j => if Nat.eqb j (nth 0 i 0%nat) then RtoC 1 else RtoC 0) (nth 1 i 0%nat)).

(** potential.py 203-212: the parameter names of [effective]; a call with any other keyword
    raises TypeError before the body runs. *)
Definition effective_parameters : list string :=
  ["density_grid"; "position"; "charge"; "g_vector_grid"; "vol"; "split"; "xc_type"; "kohn_sham"]%string.
Definition check_keywords (params kws : list string) : res unit :=
  if forallb (fun k => existsb (String.eqb k) params) kws then Ok tt else Err TypeErr.

(** [jnp.sum(t, axis=0)] of a real array. *)
Definition tsum0R (t : tensor R) : tensor R :=
  mkT (tl (tshape t)) (fun i => sumR (seq 0 (hd 0%nat (tshape t))) (fun s => tget t (s :: i))).
(** hamiltonian.py 30-102, [_hamiltonian_matrix]: the keywords used are split, xc and
    kohn_sham. *)
Definition hamiltonian_matrix_direct (xcd : xcdens) (c : tensor C) (position : list v3) (charge : list R) (dens : tensor R)
  (G : tensor v3) (kpts : list v3) (vol : R) (xc : string) (kohn_sham : bool) : res (tensor C) :=
  let dens := if (ndim dens =? 4)%nat then tsum0R dens else dens in
  do _ <- check_keywords effective_parameters ["split"; "xc"; "kohn_sham"]%string;
  do v <- effective_sum xcd dens position charge G vol xc kohn_sham;
  do w <- wave_grid c vol;
  do fe <- expectation w v vol None false RealMode;
  do fk <- expectation c (tmap RtoC (kinetic_operator G (Some kpts))) vol None false KineticMode;
  tzip Cplus fe fk.

(** hamiltonian.py 105-168, [hamiltonian_matrix_trace]. *)
Definition hamiltonian_matrix_trace (xcd : xcdens) (c : tensor C) (position : list v3) (charge : list R) (dens : tensor R)
  (G : tensor v3) (kpts : list v3) (vol : R) (xc : string) (kohn_sham keep_kpts_axis : bool) : res (tensor R) :=
  do v <- effective_sum xcd dens position charge G vol xc kohn_sham;
  do w <- wave_grid c vol;
  do fe <- expectation w v vol None true RealMode;
  do fk <- expectation c (tmap RtoC (kinetic_operator G (Some kpts))) vol None true KineticMode;
  do h <- tzip Cplus fe fk;
  match tshape h with
  | [a; k; b] =>
      let band_sum s := sumR (seq 0 k) (fun kk => sumR (seq 0 b) (fun bb => Re (tget h [s; kk; bb]))) in
      if keep_kpts_axis then Ok (mkT [a] (fun i => band_sum (hd 0%nat i)))
      else Ok (mkT [] (fun _ => sumR (seq 0 a) band_sum))
  | _ => Err ValueErr
  end.

(** hamiltonian.py 171-240, [hamiltonian_matrix].  [efun] is evaluated by jax on abstract
    values, so it raises for all vectors or for none; the first evaluation decides.  vmap
    needs as many k-points as the coefficient array has. *)
Definition efun (xcd : xcdens) (c : tensor C) (position : list v3) (charge : list R) (dens : tensor R)
  (G : tensor v3) (kpts : list v3) (vol : R) (xc : string) (kohn_sham : bool) (B : nat) (s k : nat) (u : cvec) : res C :=
  let combined := mkT ([1; 1; 1]%nat ++ grid3 c)
                      (fun i => sumC (seq 0 B) (fun b => u b * tget c ([s; k; b] ++ skipn 3 i))%C) in
  do t <- hamiltonian_matrix_trace xcd combined position charge dens G [nth k kpts vzero] vol xc kohn_sham false;
  Ok (RtoC (/ 2 * tget t [])).
Definition hamiltonian_matrix (xcd : xcdens) (c : tensor C) (position : list v3) (charge : list R) (dens : tensor R)
  (G : tensor v3) (kpts : list v3) (vol : R) (xc : string) (kohn_sham : bool) : res (tensor C) :=
  match tshape c with
  | [sp; K; B; _; _; _] =>
      if negb (K =? length kpts)%nat then Err ValueErr else
      let ef := efun xcd c position charge dens G kpts vol xc kohn_sham B in
      do _ <- ef 0%nat 0%nat (fun _ => RtoC 1);
      Ok (mkT ([sp; K] ++ square B) (fun i =>
            tget (complex_hessian B (fun u => match ef (nth 0 i 0%nat) (nth 1 i 0%nat) u with Ok z => z | Err _ => RtoC 0 end)
                                  (fun _ => RtoC 1)) (skipn 2 i)))
  | _ => Err ValueErr
  end.

(** hamiltonian.py 243-306, [_hamiltonian_matrix_basis], for a boolean mask and a float
    g_vector_grid (any other dtype raises ValueError; dtypes are not modelled). *)
Definition efun_basis (xcd : xcdens) (mask : tensor bool) (position : list v3) (charge : list R) (dens : tensor R)
  (G : tensor v3) (kpt : v3) (vol : R) (xc : string) (kohn_sham : bool) (u : cvec) : res C :=
  let n := length (mask_positions mask) in
  do coeff <- expand_coefficient (mkT [1; 1; n; 1]%nat (fun i => u (nth 2 i 0%nat))) mask;
  do t <- hamiltonian_matrix_trace xcd coeff position charge dens G [kpt] vol xc kohn_sham false;
  Ok (RtoC (/ 2 * tget t [])).
Definition hamiltonian_matrix_basis (xcd : xcdens) (mask : tensor bool) (position : list v3) (charge : list R) (dens : tensor R)
  (G : tensor v3) (kpts : list v3) (vol : R) (xc : string) (kohn_sham : bool) : res (tensor C) :=
  let n := length (mask_positions mask) in
  let ef k := efun_basis xcd mask position charge dens G (nth k kpts vzero) vol xc kohn_sham in
  do _ <- ef 0%nat (fun _ => RtoC 1);
  Ok (mkT (length kpts :: square n) (fun i =>
        tget (complex_hessian n (fun u => match ef (hd 0%nat i) u with Ok z => z | Err _ => RtoC 0 end)
                              (fun _ => RtoC 1)) (tl i))).
