(** Model of jrystal/_src/pw.py, of the FFT wrappers of jrystal/_src/spmd/fft.py and of the
    density helpers of jrystal/_src/utils.py.  Floats are reals, complex floats Coquelicot C. *)
From Coq Require Import Ascii String List Arith ZArith Reals Bool.
From Coquelicot Require Import Complex.
From Verif Require Import Base Sums Tensor DFT GridModel PadModel Lin3 VecModel.
Import ListNotations.
Local Open Scope R_scope.

(** [t.shape[-3:]] and [t.shape[:-3]]. *)
Definition grid3 {A} (t : tensor A) : list nat := skipn (ndim t - 3) (tshape t).
Definition lead {A} (t : tensor A) : list nat := firstn (ndim t - 3) (tshape t).

(** spmd/fft.py 37-49, 70-72, [fftn3d], and [jnp.fft.fftn(x, axes=range(-3, 0))]: the
    transform of the last three axes; fewer than three axes raise.  Sharding does not
    change values and is not modelled here. *)
Definition fftn3 (t : tensor C) : res (tensor C) :=
  if (ndim t <? 3)%nat then Err ValueErr else
  let nb := (ndim t - 3)%nat in
  Ok (mkT (tshape t) (fun i => dft (grid3 t) (fun x => tget t (firstn nb i ++ x)) (skipn nb i))).

(** spmd/fft.py 52-64, [ifftn3d]. *)
Definition ifftn3 (t : tensor C) : res (tensor C) :=
  if (ndim t <? 3)%nat then Err ValueErr else
  let nb := (ndim t - 3)%nat in
  Ok (mkT (tshape t) (fun i => idft (grid3 t) (fun x => tget t (firstn nb i ++ x)) (skipn nb i))).

(** utils.py 108-130, [absolute_square]: real(conj(z) z). *)
Definition absolute_square (t : tensor C) : tensor R := tmap (fun z => Re (Cconj z * z)%C) t.

(** pw.py 29-91, [param_init]: shape of the two random arrays w_re, w_im. *)
Definition pw_param_shape (num_bands num_kpts : nat) (mask : tensor bool) (spin_restricted : bool) : list nat :=
  [if spin_restricted then 1 else 2; num_kpts; length (mask_positions mask); num_bands]%nat.
Definition pw_param_init (rnd : list nat -> tensor R * tensor R) (num_bands num_kpts : nat) (mask : tensor bool)
   (spin_restricted : bool) : tensor R * tensor R :=
  rnd (pw_param_shape num_bands num_kpts mask spin_restricted).

(** unitary_module.py 28-75 with complex=True: Q of the reduced QR of w_re + i w_im, on the
    last two axes; [cqr] is the oracle for jnp.linalg.qr(., mode='reduced')[0]. *)
Definition unitary_matrix (cqr : tensor C -> tensor C) (w_re w_im : tensor R) : res (tensor C) :=
  rmap cqr (tzip (fun a b => (a, b)) w_re w_im).

(** pw.py 94-137, [coeff]. *)
Definition pw_coeff (cqr : tensor C -> tensor C) (w_re w_im : tensor R) (mask : tensor bool) : res (tensor C) :=
  do u <- unitary_matrix cqr w_re w_im; expand_coefficient u mask.

(** pw.py 140-211, [wave_grid]. *)
Definition wave_grid (c : tensor C) (vol : R) : res (tensor C) :=
  do w <- ifftn3 c;
  Ok (tmap (fun z => (RtoC (INR (nprod (grid3 c)) / sqrt vol) * z)%C) w).

(** jnp.einsum('skb...,skb->s...', dens, occ).  As in jax, an axis of length 1 is broadcast
    against the other operand's axis of the same label; other mismatches raise ValueError. *)
Definition einsum_occ (dens occ : tensor R) : res (tensor R) :=
  match tshape dens with
  | s :: k :: b :: rest =>
      match bshape [s; k; b] (tshape occ), length (tshape occ) with
      | Some [sS; K; B], 3%nat =>
          Ok (mkT (sS :: rest) (fun i =>
            sumR (seq 0 K) (fun kk => sumR (seq 0 B) (fun bb =>
              tget dens (clip1 [s; k; b] [hd 0%nat i; kk; bb] ++ tl i)
              * tget occ (clip1 (tshape occ) [hd 0%nat i; kk; bb])))))
      | _, _ => Err ValueErr
      end
  | _ => Err ValueErr
  end.

(** pw.py 214-284, [density_grid]. *)
Definition density_grid (c : tensor C) (vol : R) (occ : option (tensor R)) : res (tensor R) :=
  do w <- wave_grid c vol;
  let dens := absolute_square w in
  match occ with
  | None => Ok dens
  | Some o => einsum_occ dens o
  end.

(** pw.py 287-334, [density_grid_reciprocal]. *)
Definition density_grid_reciprocal (c : tensor C) (vol : R) (occ : option (tensor R)) : res (tensor C) :=
  do d <- density_grid c vol occ; fftn3 (tmap RtoC d).

(** utils.py 161-197, [wave_to_density]: expand_dims(occ, (-3,-2,-1)), multiply with
    broadcasting, sum over axes 1 and 2; every failure is turned into ValueError.  Modelled
    for arrays of at least three axes after broadcasting, as the sum requires. *)
Definition wave_to_density (w : tensor C) (occ : option (tensor R)) : res (tensor R) :=
  let dens := absolute_square w in
  match occ with
  | None => Ok dens
  | Some o =>
      let oe := mkT (tshape o ++ [1; 1; 1]%nat) (fun i => tget o (firstn (ndim o) i)) in
      match tzip Rmult dens oe with
      | Err _ => Err ValueErr
      | Ok p =>
          match tshape p with
          | s :: k :: b :: rest => Ok (mkT (s :: rest) (fun i =>
              sumR (seq 0 k) (fun kk => sumR (seq 0 b) (fun bb => tget p (hd 0%nat i :: kk :: bb :: tl i)))))
          | _ => Err ValueErr
          end
      end
  end.

(** utils.py 200-224, [wave_to_density_reciprocal]. *)
Definition wave_to_density_reciprocal (w : tensor C) (occ : option (tensor R)) : res (tensor C) :=
  do d <- wave_to_density w occ; fftn3 (tmap RtoC d).

(** Subscript check of einsum: every output label must occur in an input. *)
Definition einsum_out_ok (ins : list string) (out : string) : bool :=
  forallb (fun c => existsb (fun i => existsb (Ascii.eqb c) (list_ascii_of_string i)) ins)
          (list_ascii_of_string out).

(** pw.py 337-381, [wave_r].  [r] is the list of entries of the array r; [subs_out] the output
    subscripts of the einsum, "skb" in the code.  If the subscripts were accepted the result
    would be the sum over the grid for every leading index. *)
Definition wave_r_with (subs_out : string) (r : list R) (c : tensor C) (A : m3) (g : option (tensor v3)) : res (tensor C) :=
  if (ndim c <? 3)%nat then Err ValueErr else
  do G <- match g with Some G => Ok G | None => g_vectors A (grid3 c) end;
  match r with
  | [r1; r2; r3] =>
      if einsum_out_ok ["lxyz"%string; "xyz"%string] subs_out
      then Ok (mkT (lead c) (fun b =>
             (RtoC (/ sqrt (volume A)) * sumC (indices (grid3 c)) (fun x => tget c (b ++ x) * cis (dot (tget G x) (V3 r1 r2 r3))))%C))
      else Err ValueErr
  | _ => Err ValueErr
  end.
Definition wave_r := wave_r_with "skb"%string.

(** pw.py 384-415, [density_r]. *)
Definition density_r (r : list R) (c : tensor C) (A : m3) (g : option (tensor v3)) (occ : option (tensor R)) : res (tensor R) :=
  do w <- wave_r r c A g;
  let d := absolute_square w in
  match occ with
  | None => Ok d
  | Some o => do p <- tzip Rmult d o; Ok (mkT [] (fun _ => sumR (indices (tshape p)) (tget p)))
  end.

(** pw.py 418-447, [nabla_density_r]: jax.grad of a function evaluates it first, so it raises
    what density_r raises; [grad] stands for the gradient otherwise. *)
Definition nabla_density_r (grad : tensor R -> v3) (r : list R) (c : tensor C) (A : m3) (g : option (tensor v3)) (occ : option (tensor R)) : res v3 :=
  rmap grad (density_r r c A g occ).

(** sum of three-vectors *)
Definition sumV {X} (l : list X) (f : X -> v3) : v3 :=
  V3 (sumR l (fun x => vx (f x))) (sumR l (fun x => vy (f x))) (sumR l (fun x => vz (f x))).

(** pw.py 450-511, [nabla_density_grid].  A frequency grid whose shape is not that of the
    last three axes of coeff raises (jax would broadcast axes of length 1: not modelled). *)
Definition nabla_density_grid (r : list R) (c : tensor C) (A : m3) (g : option (tensor v3)) (occ : option (tensor R))
  : res (tensor v3) :=
  match r with
  | [r1; r2; r3] =>
      match tshape c with
      | [sS; K; B; n1; n2; n3] =>
          let ns := [n1; n2; n3] in
          do G <- match g with Some G => Ok G | None => g_vectors A ns end;
          if list_eq_dec Nat.eq_dec (tshape G) ns then
            let gr x := dot (tget G x) (V3 r1 r2 r3) in
            let a (i x : list nat) := Re (tget c (i ++ x)) * cos (gr x) - Im (tget c (i ++ x)) * sin (gr x) in  (* rcos - isin *)
            let b (i x : list nat) := Re (tget c (i ++ x)) * sin (gr x) + Im (tget c (i ++ x)) * cos (gr x) in  (* rsin + icos *)
            let o1 i := sumR (indices ns) (a i) in
            let o2 i := vneg (sumV (indices ns) (fun x => vscale (b i x) (tget G x))) in
            let o3 i := sumR (indices ns) (b i) in
            let o4 i := sumV (indices ns) (fun x => vscale (a i x) (tget G x)) in
            let output := mkT [sS; K; B] (fun i => vscale 2 (vadd (vscale (o1 i) (o2 i)) (vscale (o3 i) (o4 i)))) in
            match occ with
            | None => Ok output
            | Some o =>
                do p <- tzip (fun v w => vscale w v) output o;
                if (ndim p =? 3)%nat
                then Ok (mkT [] (fun _ => vscale (/ volume A) (sumV (indices (tshape p)) (tget p))))
                else Err ValueErr
            end
          else Err ValueErr
      | _ => Err ValueErr
      end
  | _ => Err ValueErr
  end.
