(** The potential of gradient-dependent functionals: property C125. *)
From Coq Require Import Reals Lra Lia.
From Coquelicot Require Import Coquelicot.
From Coq Require Import Ascii String List Arith ZArith Bool.
From Verif Require Import Base Sums Tensor DFT GridModel PadModel Lin3 VecModel VecProofs PwModel XcModel EnergyModel GgaModel GgaSpec GgaProofs2 GgaProofs4 GgaProofs5 GgaProofs6.
Import ListNotations.
Local Open Scope R_scope.

(** A uniform density: the potential is the derivative of the energy density. *)
Theorem C125_uniform : forall lib xt A G (d : tensor R) (c : R) n1 n2 n3, let ns := [n1; n2; n3] in let ts := split_on "+" xt in
  m3det A <> 0 -> g_vectors A ns = Ok G -> contains "gga" xt = true -> (forall t b, In t ts -> lib t b <> None) ->
  tshape d = 1%nat :: ns -> (forall x, inb x ns -> tget d (0%nat :: x) = c) ->
  ex_derive (fun r : R => per_particle lib ts [r] [0]) c ->
  exists v e, xc_density_full lib d G true xt = Ok v /\ tshape v = 1%nat :: ns /\
    is_derive (fun r : R => r * per_particle lib ts [r] [0]) c e /\ forall x, inb x ns -> tget v (0%nat :: x) = RtoC e.
Proof. exact gga_uniform_spec. Qed.
Print Assumptions C125_uniform.

(** A functional that ignores the gradients: the local-density potential. *)
Theorem C125_no_gradient : forall lib xt G d sp n1 n2 n3 z, let ns := [n1; n2; n3] in let ts := split_on "+" xt in
  (sp = 1 \/ sp = 2)%nat -> contains "gga" xt = true -> (forall t b, In t ts -> lib t b <> None) -> tshape d = sp :: ns -> tshape G = ns ->
  length z = (if (sp =? 2)%nat then 3%nat else 1%nat) ->
  (forall u a b, length a = length z -> length b = length z -> per_particle lib ts u a = per_particle lib ts u b) ->
  exists v w, xc_density_full lib d G true xt = Ok v /\ tshape v = sp :: ns /\ vxc_lda (fun u => per_particle lib ts u z) d = Ok w /\ tshape w = sp :: ns /\
    forall i, inb i (sp :: ns) -> tget v i = RtoC (tget w i).
Proof. exact gga_no_gradient_spec. Qed.
Print Assumptions C125_no_gradient.

(** Variation along the last axis only.  The exact potential has [norm2 b] where this one has [mixed b]. *)
Theorem C125_last_axis : forall lib xt A G (d : tensor R) n, let ts := split_on "+" xt in
  g_vectors A [1; 1; n]%nat = Ok G -> contains "gga" xt = true -> (forall t b, In t ts -> lib t b <> None) -> tshape d = [1; 1; 1; n]%nat ->
  let exc := per_particle lib ts in let b := m2 (reciprocal_vectors A) in let rho z := tget d [0; 0; 0; z]%nat in
  let sigma z := norm2 b * Cnorm2 (deriv1 n rho z) in let t := line_weight exc rho sigma in
  exists v, xc_density_full lib d G true xt = Ok v /\ tshape v = [1; 1; 1; n]%nat /\
    forall z, (z < n)%nat -> tget v [0; 0; 0; z]%nat =
      (RtoC (line_local exc rho sigma z) - RtoC 2 * (RtoC (mixed b) * (deriv1 n t z * deriv1 n rho z) + RtoC (norm2 b) * (RtoC (t z) * deriv2 n rho z)))%C.
Proof. exact gga_last_axis_spec. Qed.
Print Assumptions C125_last_axis.

(** Variation along the first axis only: one gradient product is left in Fourier space. *)
Theorem C125_first_axis : forall lib xt A G (d : tensor R) n, let ts := split_on "+" xt in
  g_vectors A [n; 1; 1]%nat = Ok G -> contains "gga" xt = true -> (forall t b, In t ts -> lib t b <> None) -> tshape d = [1; n; 1; 1]%nat ->
  let exc := per_particle lib ts in let b := m0 (reciprocal_vectors A) in let rho z := tget d [0; z; 0; 0]%nat in
  let sigma z := norm2 b * Cnorm2 (deriv1 n rho z) in let t := line_weight exc rho sigma in
  exists v, xc_density_full lib d G true xt = Ok v /\ tshape v = [1; n; 1; 1]%nat /\
    forall z, (z < n)%nat -> tget v [0; z; 0; 0]%nat =
      (RtoC (line_local exc rho sigma z) - RtoC 2 * (RtoC (- (mixed b * (freq n z * freq n z) * t z)) * coefficient n rho z + RtoC (norm2 b) * (RtoC (t z) * deriv2 n rho z)))%C.
Proof. exact gga_first_axis_spec. Qed.
Print Assumptions C125_first_axis.

(** Variation along the middle axis only: the weight is never transformed forward. *)
Theorem C125_middle_axis : forall lib xt A G (d : tensor R) n, let ts := split_on "+" xt in
  g_vectors A [1; n; 1]%nat = Ok G -> contains "gga" xt = true -> (forall t b, In t ts -> lib t b <> None) -> tshape d = [1; 1; n; 1]%nat ->
  let exc := per_particle lib ts in let b := m1 (reciprocal_vectors A) in let rho z := tget d [0; 0; z; 0]%nat in
  let sigma z := norm2 b * Cnorm2 (deriv1 n rho z) in let t := line_weight exc rho sigma in
  exists v, xc_density_full lib d G true xt = Ok v /\ tshape v = [1; 1; n; 1]%nat /\
    forall z, (z < n)%nat -> tget v [0; 0; z; 0]%nat =
      (RtoC (line_local exc rho sigma z) - RtoC 2 * (RtoC (mixed b) * (synthesis n (fun k => Ci * RtoC (freq n k) * RtoC (t k)) z * deriv1 n rho z) + RtoC (norm2 b) * (RtoC (t z) * deriv2 n rho z)))%C.
Proof. exact gga_middle_axis_spec. Qed.
Print Assumptions C125_middle_axis.

(** Two spin channels, variation along the last axis only. *)
Theorem C125_last_axis_polarised : forall lib xt A G (d : tensor R) n, let ts := split_on "+" xt in
  g_vectors A [1; 1; n]%nat = Ok G -> contains "gga" xt = true -> (forall t b, In t ts -> lib t b <> None) -> tshape d = [2; 1; 1; n]%nat ->
  let exc := per_particle lib ts in let b := m2 (reciprocal_vectors A) in let u z := tget d [0; 0; 0; z]%nat in let w z := tget d [1; 0; 0; z]%nat in
  let uu z := norm2 b * Cnorm2 (deriv1 n u z) in let uw z := norm2 b * Re (Cconj (deriv1 n u z) * deriv1 n w z)%C in let ww z := norm2 b * Cnorm2 (deriv1 n w z) in
  let t_up z := if Rlt_dec 0 (uu z) then Derive (fun s => exc [u z; w z] [s; uw z; ww z]) (uu z) * u z else 0 in
  let t_dn z := if Rlt_dec 0 (ww z) then Derive (fun s => exc [u z; w z] [uu z; uw z; s]) (ww z) * w z else 0 in
  let mix z := Derive (fun s => exc [u z; w z] [uu z; s; ww z]) (uw z) in
  exists v, xc_density_full lib d G true xt = Ok v /\ tshape v = [2; 1; 1; n]%nat /\ forall z, (z < n)%nat ->
    tget v [0; 0; 0; z]%nat = (RtoC (Derive (fun r => exc [r; w z] [uu z; uw z; ww z]) (u z) * u z + exc [u z; w z] [uu z; uw z; ww z]) - pol_correction n b t_up u (fun y => mix y * w y)%R w z)%C /\
    tget v [1; 0; 0; z]%nat = (RtoC (Derive (fun r => exc [u z; r] [uu z; uw z; ww z]) (w z) * w z + exc [u z; w z] [uu z; uw z; ww z]) - pol_correction n b t_dn w (fun y => mix y * u y)%R u z)%C.
Proof. exact gga_last_axis_polarised_spec. Qed.
Print Assumptions C125_last_axis_polarised.

Theorem C125_derivative_refuted : exists (lib : xclib) (xt : string) (A : m3) (G : tensor v3) (d e : tensor R) (v : tensor C) (E : R -> R) (l : R),
  m3det A <> 0 /\ g_vectors A [1; 1; 3]%nat = Ok G /\ tshape d = [1; 1; 1; 3]%nat /\ tshape e = [1; 1; 1; 3]%nat /\
  xc_density_full lib d G true xt = Ok v /\ tshape v = [1; 1; 1; 3]%nat /\
  (forall t, e_xc (xc_density_full lib) (mkT [1; 1; 1; 3]%nat (fun i => tget d i + t * tget e i)) G 1 xt false = Ok (E t)) /\
  is_derive E 0 l /\ l <> 1 / 3 * sumR (indices [1; 1; 3]%nat) (fun x => Re (tget v (0%nat :: x)) * tget e (0%nat :: x)).
Proof. exact gga_derivative_wrong. Qed.
Print Assumptions C125_derivative_refuted.

Theorem C125_rotation_refuted : exists (lib : xclib) (xt : string) (A A' : m3) (G G' : tensor v3) (d : tensor R) (v v' : tensor C) (E : R),
  m3det A <> 0 /\ m3mul A' (m3t A') = m3mul A (m3t A) /\ m3det A' = m3det A /\
  g_vectors A [1; 1; 3]%nat = Ok G /\ g_vectors A' [1; 1; 3]%nat = Ok G' /\ tshape d = [1; 1; 1; 3]%nat /\
  e_xc (xc_density_full lib) d G 1 xt false = Ok E /\ e_xc (xc_density_full lib) d G' 1 xt false = Ok E /\
  xc_density_full lib d G true xt = Ok v /\ xc_density_full lib d G' true xt = Ok v' /\ tget v [0; 0; 0; 0]%nat <> tget v' [0; 0; 0; 0]%nat.
Proof. exact gga_rotation_wrong. Qed.
Print Assumptions C125_rotation_refuted.

Theorem C125_real_refuted : exists (lib : xclib) (xt : string) (A : m3) (G : tensor v3) (d : tensor R) (v : tensor C),
  m3det A <> 0 /\ g_vectors A [3; 1; 1]%nat = Ok G /\ tshape d = [1; 3; 1; 1]%nat /\ xc_density_full lib d G true xt = Ok v /\ tshape v = [1; 3; 1; 1]%nat /\ Im (tget v [0; 1; 0; 0]%nat) <> 0.
Proof. exact gga_real_wrong. Qed.
Print Assumptions C125_real_refuted.

Example C125_example : m3det m3id <> 0 /\ contains "gga" "gga_x_pbe+gga_c_pbe" = true /\
  (forall t b, In t (split_on "+" "gga_x_pbe+gga_c_pbe") -> sig_lib t b <> None) /\
  (exists G, g_vectors m3id [2; 3; 2]%nat = Ok G) /\ ex_derive (fun r : R => per_particle sig_lib (split_on "+" "gga_x_pbe+gga_c_pbe") [r] [0]) 1.
Proof.
  split; [rewrite m3det_id; lra|]. split; [reflexivity|]. split; [discriminate|]. split; [apply g_vectors_ok; lia|].
  apply (ex_derive_ext (fun _ => 0 + (0 + 0))); [reflexivity|]. apply ex_derive_const.
Qed.
Example C125_no_gradient_example : let lib : xclib := fun _ _ => Some (fun u _ => nth 0 u 0 * nth 0 u 0) in
  forall u a b, per_particle lib (split_on "+" "gga_x_pbe") u a = per_particle lib (split_on "+" "gga_x_pbe") u b.
Proof. intros lib u a b. destruct u as [|x [|y [|z u]]]; reflexivity. Qed.
