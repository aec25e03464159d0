(** Model of jrystal/_src/ewald.py and of energy.py [nuclear_repulsion]. *)
From Coq Require Import List Arith Reals Bool.
From Verif Require Import Base Sums Tensor Lin3 VecModel.
Import ListNotations.
Local Open Scope R_scope.

(** ewald.py 56-60: the guarded norm of tau - t. *)
Definition guarded_norm (v : v3) : R :=
  let r := sqrt (norm2 v + / 10 ^ 20) in if Rle_dec r (/ 10 ^ 9) then 10 ^ 20 else r.

(** ewald.py 63-65: [ew_ovlp] for one pair; [erfc] is jax.scipy.special.erfc.  [ewald_grid] is
    the list returned by translation_vectors (the documented rank 4 does not broadcast). *)
Definition ew_ovlp (erfc : R -> R) (eta : R) (T : list v3) (tau : v3) : R :=
  sumR T (fun t => let d := guarded_norm (vsub tau t) in erfc (eta * d) / d).

(** ewald.py 68-83: [ew_rprcl] for one pair, for positions in 3 dimensions: at position
    (0,0,0) of the grid |G|^2 is set to 1e16 and the cosine to 0. *)
Definition is_origin (i : list nat) : bool := forallb (Nat.eqb 0) i.
Definition ew_rprcl (G : tensor v3) (vol eta : R) (tau : v3) : R :=
  sumR (indices (tshape G)) (fun i =>
    let g2 := if is_origin i then 10 ^ 16 else norm2 (tget G i) in
    exp (- g2 / 4 / eta ^ 2) / g2 * (if is_origin i then 0 else cos (dot (tget G i) tau)))
  * 4 * PI / vol.

(** ewald.py 21-86, [ewald_coulomb_repulsion]; the contraction and the dot product raise
    unless there is one charge per atom. *)
Definition ewald_coulomb_repulsion (erfc : R -> R) (pos : list v3) (q : list R) (G : tensor v3) (vol eta : R) (T : list v3) : res R :=
  if negb (length q =? length pos)%nat then Err ValueErr else
  let n := length pos in
  let P i := nth i pos vzero in
  let Q i := nth i q 0 in
  let tau i j := vsub (P j) (P i) in
  let ew_aa := sumR (seq 0 n) (fun j =>
      sumR (seq 0 n) (fun i => Q i * (ew_ovlp erfc eta T (tau i j) + ew_rprcl G vol eta (tau i j))) * Q j) / 2 in
  let ew_a := - sumR q (fun x => x ^ 2) * 2 * eta / sqrt PI / 2 - sumR q (fun x => x) ^ 2 * PI / eta ^ 2 / vol / 2 in
  Ok (ew_aa + ew_a).

(** energy.py 214-244, [nuclear_repulsion]. *)
Definition nuclear_repulsion (erfc : R -> R) (pos : list v3) (q : list R) (A : m3) (G : tensor v3) (vol eta cutoff : R) : res R :=
  do T <- translation_vectors A cutoff;
  ewald_coulomb_repulsion erfc pos q G vol eta T.
