(** The theorems of the gradient-dependent potential in the vocabulary of the specification. *)
From Coq Require Import Reals Lra Lia FunctionalExtensionality.
From Coquelicot Require Import Coquelicot.
From Coq Require Import Ascii String List Arith ZArith Bool.
From Verif Require Import Base Sums Tensor DFT GridModel PadModel Lin3 VecModel VecProofs PwModel XcModel EnergyModel GgaModel GgaSpec GgaProofs2 GgaProofs4 GgaProofs5.
Import ListNotations.
Local Open Scope R_scope.

Lemma per_particle_eq : gga_sum_at = per_particle.
Proof.
  apply functional_extensionality; intros lib. apply functional_extensionality; intros ts. apply functional_extensionality; intros v. apply functional_extensionality; intros sg.
  unfold gga_sum_at, per_particle. apply sumR_ext. intros t _. unfold contribution, pick, gga_at, is_exchange.
  destruct v as [|u [|w [|z v]]]; cbn [length Nat.eqb andb]; try reflexivity.
  destruct (contains "_x" t); cbn [negb andb]; [|reflexivity]. destruct (lib t false); [|reflexivity]. cbn [nth]. lra.
Qed.

Lemma gga_uniform_spec : forall lib xt A G (d : tensor R) (c : R) n1 n2 n3, let ns := [n1; n2; n3] in let ts := split_on "+" xt in
  m3det A <> 0 -> g_vectors A ns = Ok G -> contains "gga" xt = true -> (forall t b, In t ts -> lib t b <> None) ->
  tshape d = 1%nat :: ns -> (forall x, inb x ns -> tget d (0%nat :: x) = c) ->
  ex_derive (fun r : R => per_particle lib ts [r] [0]) c ->
  exists v e, xc_density_full lib d G true xt = Ok v /\ tshape v = 1%nat :: ns /\
    is_derive (fun r : R => r * per_particle lib ts [r] [0]) c e /\ forall x, inb x ns -> tget v (0%nat :: x) = RtoC e.
Proof. rewrite <- per_particle_eq. exact gga_uniform. Qed.

Lemma gga_no_gradient_spec : forall lib xt G d sp n1 n2 n3 z, let ns := [n1; n2; n3] in let ts := split_on "+" xt in
  (sp = 1 \/ sp = 2)%nat -> contains "gga" xt = true -> (forall t b, In t ts -> lib t b <> None) -> tshape d = sp :: ns -> tshape G = ns ->
  length z = (if (sp =? 2)%nat then 3%nat else 1%nat) ->
  (forall u a b, length a = length z -> length b = length z -> per_particle lib ts u a = per_particle lib ts u b) ->
  exists v w, xc_density_full lib d G true xt = Ok v /\ tshape v = sp :: ns /\ vxc_lda (fun u => per_particle lib ts u z) d = Ok w /\ tshape w = sp :: ns /\
    forall i, inb i (sp :: ns) -> tget v i = RtoC (tget w i).
Proof. rewrite <- per_particle_eq. exact gga_no_gradient. Qed.

Lemma gga_last_axis_spec : forall lib xt A G (d : tensor R) n, let ts := split_on "+" xt in
  g_vectors A [1; 1; n]%nat = Ok G -> contains "gga" xt = true -> (forall t b, In t ts -> lib t b <> None) -> tshape d = [1; 1; 1; n]%nat ->
  let exc := per_particle lib ts in let b := m2 (reciprocal_vectors A) in let rho z := tget d [0; 0; 0; z]%nat in
  let sigma z := norm2 b * Cnorm2 (deriv1 n rho z) in let t := line_weight exc rho sigma in
  exists v, xc_density_full lib d G true xt = Ok v /\ tshape v = [1; 1; 1; n]%nat /\
    forall z, (z < n)%nat -> tget v [0; 0; 0; z]%nat =
      (RtoC (line_local exc rho sigma z) - RtoC 2 * (RtoC (mixed b) * (deriv1 n t z * deriv1 n rho z) + RtoC (norm2 b) * (RtoC (t z) * deriv2 n rho z)))%C.
Proof. rewrite <- per_particle_eq. exact gga_last_axis. Qed.

Lemma gga_first_axis_spec : forall lib xt A G (d : tensor R) n, let ts := split_on "+" xt in
  g_vectors A [n; 1; 1]%nat = Ok G -> contains "gga" xt = true -> (forall t b, In t ts -> lib t b <> None) -> tshape d = [1; n; 1; 1]%nat ->
  let exc := per_particle lib ts in let b := m0 (reciprocal_vectors A) in let rho z := tget d [0; z; 0; 0]%nat in
  let sigma z := norm2 b * Cnorm2 (deriv1 n rho z) in let t := line_weight exc rho sigma in
  exists v, xc_density_full lib d G true xt = Ok v /\ tshape v = [1; n; 1; 1]%nat /\
    forall z, (z < n)%nat -> tget v [0; z; 0; 0]%nat =
      (RtoC (line_local exc rho sigma z) - RtoC 2 * (RtoC (- (mixed b * (freq n z * freq n z) * t z)) * coefficient n rho z + RtoC (norm2 b) * (RtoC (t z) * deriv2 n rho z)))%C.
Proof. rewrite <- per_particle_eq. exact gga_first_axis. Qed.

Lemma gga_middle_axis_spec : forall lib xt A G (d : tensor R) n, let ts := split_on "+" xt in
  g_vectors A [1; n; 1]%nat = Ok G -> contains "gga" xt = true -> (forall t b, In t ts -> lib t b <> None) -> tshape d = [1; 1; n; 1]%nat ->
  let exc := per_particle lib ts in let b := m1 (reciprocal_vectors A) in let rho z := tget d [0; 0; z; 0]%nat in
  let sigma z := norm2 b * Cnorm2 (deriv1 n rho z) in let t := line_weight exc rho sigma in
  exists v, xc_density_full lib d G true xt = Ok v /\ tshape v = [1; 1; n; 1]%nat /\
    forall z, (z < n)%nat -> tget v [0; 0; z; 0]%nat =
      (RtoC (line_local exc rho sigma z) - RtoC 2 * (RtoC (mixed b) * (synthesis n (fun k => Ci * RtoC (freq n k) * RtoC (t k)) z * deriv1 n rho z) + RtoC (norm2 b) * (RtoC (t z) * deriv2 n rho z)))%C.
Proof. rewrite <- per_particle_eq. exact gga_middle_axis. Qed.

Lemma gga_last_axis_polarised_spec : forall lib xt A G (d : tensor R) n, let ts := split_on "+" xt in
  g_vectors A [1; 1; n]%nat = Ok G -> contains "gga" xt = true -> (forall t b, In t ts -> lib t b <> None) -> tshape d = [2; 1; 1; n]%nat ->
  let exc := per_particle lib ts in let b := m2 (reciprocal_vectors A) in let u z := tget d [0; 0; 0; z]%nat in let w z := tget d [1; 0; 0; z]%nat in
  let uu z := norm2 b * Cnorm2 (deriv1 n u z) in let uw z := norm2 b * Re (Cconj (deriv1 n u z) * deriv1 n w z)%C in let ww z := norm2 b * Cnorm2 (deriv1 n w z) in
  let t_up z := if Rlt_dec 0 (uu z) then Derive (fun s => exc [u z; w z] [s; uw z; ww z]) (uu z) * u z else 0 in
  let t_dn z := if Rlt_dec 0 (ww z) then Derive (fun s => exc [u z; w z] [uu z; uw z; s]) (ww z) * w z else 0 in
  let mix z := Derive (fun s => exc [u z; w z] [uu z; s; ww z]) (uw z) in
  exists v, xc_density_full lib d G true xt = Ok v /\ tshape v = [2; 1; 1; n]%nat /\ forall z, (z < n)%nat ->
    tget v [0; 0; 0; z]%nat = (RtoC (Derive (fun r => exc [r; w z] [uu z; uw z; ww z]) (u z) * u z + exc [u z; w z] [uu z; uw z; ww z]) - pol_correction n b t_up u (fun y => mix y * w y)%R w z)%C /\
    tget v [1; 0; 0; z]%nat = (RtoC (Derive (fun r => exc [u z; r] [uu z; uw z; ww z]) (w z) * w z + exc [u z; w z] [uu z; uw z; ww z]) - pol_correction n b t_dn w (fun y => mix y * u y)%R u z)%C.
Proof. rewrite <- per_particle_eq. exact gga_last_axis_polarised. Qed.

