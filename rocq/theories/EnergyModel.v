(** Model of jrystal/_src/potential.py and energy.py.  The vector grid has rank 3 and
    three-component entries, so dim = 3. *)
From Coq Require Import Ascii String List Arith ZArith Reals Bool.
From Coquelicot Require Import Complex.
From Verif Require Import Base Sums Tensor DFT GridModel Lin3 VecModel OccModel PwModel BraketModel.
Import ListNotations.
Local Open Scope R_scope.

Definition is_origin (i : list nat) : bool := forallb (Nat.eqb 0) i.

(** potential.py 24-77, [hartree_reciprocal].  stop_gradient does not change values. *)
Definition hartree_reciprocal (D : tensor C) (G : tensor v3) (kohn_sham : bool) : res (tensor C) :=
  if negb (ndim D =? 4)%nat then Err AssertionErr else
  if negb (ndim G =? 3)%nat then Err IndexErr else
  let g2 := mkT (tshape G) (fun i => if is_origin i then 1 else dot (tget G i) (tget G i)) in
  do o <- tzip (fun a b => (a / RtoC b)%C) (tsum0 D) g2;
  Ok (mkT (tshape o) (fun i =>
        let v := ((if is_origin i then RtoC 0 else tget o i) * RtoC 4 * RtoC PI)%C in
        if kohn_sham then v else (v / RtoC 2)%C)).

(** potential.py 80-118, [hartree]. *)
Definition hartree_real (D : tensor C) (G : tensor v3) (kohn_sham : bool) : res (tensor C) :=
  if negb (ndim D =? 4)%nat then Err AssertionErr else
  do v <- hartree_reciprocal (tsum0 D) G kohn_sham; ifftn3 v.

(** potential.py 121-166, [external_reciprocal].  Lists of positions and charges of different
    lengths broadcast if one has length 1 and raise otherwise. *)
Definition external_reciprocal (position : list v3) (charge : list R) (G : tensor v3) (vol : R) : res (tensor C) :=
  if negb (ndim G =? 3)%nat then Err IndexErr else
  match bshape [length charge] [length position] with
  | Some [m] =>
      let N := INR (nprod (tshape G)) in
      let vi i a := if is_origin i then 0
                    else 4 * PI * (nth (hd 0%nat (clip1 [length charge] [a])) charge 0 / (dot (tget G i) (tget G i) + / 10 ^ 10)) in
      let si i a := cis (- dot (tget G i) (nth (hd 0%nat (clip1 [length position] [a])) position vzero)) in
      Ok (mkT (tshape G) (fun i =>
            (- sumC (seq 0 m) (fun a => RtoC (vi i a) * si i a) * RtoC (N / vol))%C))
  | _ => Err ValueErr
  end.

(** potential.py 169-200, [external]. *)
Definition external_real (position : list v3) (charge : list R) (G : tensor v3) (vol : R) : res (tensor C) :=
  do v <- external_reciprocal position charge G vol; ifftn3 v.

(** jnp.expand_dims(t, 0) *)
Definition expand0 {A} (t : tensor A) : tensor A := mkT (1%nat :: tshape t) (fun i => tget t (tl i)).

(** Exchange-correlation density: xc.py [xc_density] applied to (density, grid, kohn_sham, name). *)
Definition xcdens := tensor R -> tensor v3 -> bool -> string -> res (tensor C).

(** potential.py 203-279, [effective]; split=True and the sum of split=False. *)
Definition effective_split (xcd : xcdens) (dens : tensor R) (position : list v3) (charge : list R) (G : tensor v3)
  (vol : R) (xc_type : string) (kohn_sham : bool) : res (tensor C * tensor C * tensor C) :=
  if negb ((ndim dens =? 3)%nat || (ndim dens =? 4)%nat) then Err AssertionErr else
  let dens := if (ndim dens =? 3)%nat then expand0 dens else dens in
  do D <- fftn3 (tmap RtoC dens);
  do vh <- hartree_reciprocal D G kohn_sham;
  do ve <- external_reciprocal position charge G vol;
  do vxc <- xcd dens G kohn_sham xc_type;
  do vh' <- ifftn3 vh;
  do ve' <- ifftn3 ve;
  Ok (vh', ve', vxc).
Definition effective_sum (xcd : xcdens) (dens : tensor R) (position : list v3) (charge : list R) (G : tensor v3)
  (vol : R) (xc_type : string) (kohn_sham : bool) : res (tensor C) :=
  do r <- effective_split xcd dens position charge G vol xc_type kohn_sham;
  let '(vh, ve, vxc) := r in
  do a <- tzip Cplus (expand0 vh) (expand0 ve); tzip Cplus a vxc.

(** energy.py 29-82, [hartree]; safe_real of a real number is the number. *)
Definition e_hartree (D : tensor C) (G : tensor v3) (vol : R) (kohn_sham : bool) : res R :=
  if negb (ndim D =? 4)%nat then Err AssertionErr else
  do v <- hartree_reciprocal D G kohn_sham; reciprocal_braket (expand0 v) D vol.

(** energy.py 85-135, [external]. *)
Definition e_external (D : tensor C) (position : list v3) (charge : list R) (G : tensor v3) (vol : R) : res R :=
  if negb (ndim D =? 4)%nat then Err AssertionErr else
  do v <- external_reciprocal position charge G vol; reciprocal_braket (expand0 v) D vol.

(** energy.py 138-182, [kinetic]: the squared vectors have shape [1, kpt, 1, x, y, z].  The
    product with |coeff|^2 must have rank 6 (a higher rank is not modelled). *)
Definition e_kinetic (G : tensor v3) (kpts : list v3) (coeff : tensor C) (occ : option (tensor R)) : res (tensor R) :=
  if negb (ndim G =? 3)%nat then Err IndexErr else
  let ek := mkT ([1; length kpts; 1]%nat ++ tshape G)
                (fun i => let q := vadd (tget G (skipn 3 i)) (nth (nth 1 i 0%nat) kpts vzero) in dot q q) in
  do p <- tzip Rmult ek (absolute_square coeff);
  if negb (ndim p =? 6)%nat then Err ValueErr else
  let e := mkT (lead p) (fun b => sumR (indices (grid3 p)) (fun x => tget p (b ++ x))) in
  match occ with
  | Some o => do q <- tzip Rmult e o; Ok (mkT [] (fun _ => sumR (indices (tshape q)) (tget q) / 2))
  | None => Ok (tmap (fun x => x / 2) e)
  end.

(** energy.py 185-211, [xc_energy].  safe_real's tolerance is its default 1e-8. *)
Definition e_xc (xcd : xcdens) (dens : tensor R) (G : tensor v3) (vol : R) (xc_type : string) (kohn_sham : bool) : res R :=
  if negb (ndim dens =? 4)%nat then Err AssertionErr else
  do e <- xcd dens G kohn_sham xc_type;
  do p <- tzip Cmult e (tmap RtoC dens);
  do s <- safe_real (CArr (mkT [] (fun _ => tsum_all p))) (/ 10 ^ 8);
  Ok (tget s [] * vol / INR (nprod (grid3 dens))).

(** energy.py 246-307, [total_energy]; split=True returns the four components. *)
Definition total_energy_split (xcd : xcdens) (c : tensor C) (position : list v3) (charge : list R) (G : tensor v3) (kpts : list v3)
  (vol : R) (occ : option (tensor R)) (kohn_sham : bool) (xc_type : string) : res (R * R * R * R) :=
  do w <- wave_grid c vol;
  let occ := match occ with Some o => o | None => mkT (firstn 3 (tshape c)) (fun _ => 1) end in
  do d <- wave_to_density w (Some occ);
  do D <- wave_to_density_reciprocal w (Some occ);
  do ek <- e_kinetic G kpts c (Some occ);
  do ee <- e_external D position charge G vol;
  do eh <- e_hartree D G vol kohn_sham;
  do ex <- e_xc xcd d G vol xc_type kohn_sham;
  Ok (tget ek [], ee, eh, ex).
Definition total_energy (xcd : xcdens) (c : tensor C) (position : list v3) (charge : list R) (G : tensor v3) (kpts : list v3)
  (vol : R) (occ : option (tensor R)) (kohn_sham : bool) (xc_type : string) : res R :=
  do r <- total_energy_split xcd c position charge G kpts vol occ kohn_sham xc_type;
  let '(ek, ee, eh, ex) := r in Ok (ek + ee + eh + ex).

(** energy.py 310-365, [band_energy].  e_eff is a scalar (shape []). *)
Definition band_energy (xcd : xcdens) (c : tensor C) (position : list v3) (charge : list R) (G : tensor v3) (kpts : list v3)
  (vol : R) (occ : option (tensor R)) (kohn_sham : bool) (xc_type : string) : res (tensor R) :=
  do dsum <- density_grid c vol occ;
  do dband <- density_grid c vol None;
  do v <- effective_sum xcd dsum position charge G vol xc_type kohn_sham;
  do ee <- real_braket (tmap RtoC dband) v vol;
  do ek <- e_kinetic G kpts c None;
  if list_eq_dec Nat.eq_dec (tshape ek) [] then
    safe_real (CArr (mkT [] (fun _ => (ee + RtoC (tget ek []))%C))) (/ 10 ^ 8)
  else Err AssertionErr.
