(** Scaling all lengths of a crystal by one factor: property C138. *)
From Coq Require Import Reals Lra Lia.
From Coquelicot Require Import Coquelicot.
From Coq Require Import Ascii String List Arith ZArith Bool.
From Verif Require Import Base Sums Tensor DFT GridModel PadModel Lin3 VecModel VecProofs PwModel BraketModel XcModel EnergyModel EnergySpec ScaleSpec ScaleProofs.
Import ListNotations.
Local Open Scope R_scope.

(** C138. *)
Theorem C138_grids : forall lam A sizes cutoff, 0 < lam -> m3det A <> 0 ->
  volume (m3scale lam A) = lam ^ 3 * volume A /\
  g_vectors (m3scale lam A) sizes = rmap (tmap (vscale (/ lam))) (g_vectors A sizes) /\
  r_vectors (m3scale lam A) sizes = rmap (tmap (vscale lam)) (r_vectors A sizes) /\
  k_vectors (m3scale lam A) sizes = rmap (map (vscale (/ lam))) (k_vectors A sizes) /\
  translation_vectors (m3scale lam A) (lam ^ 2 * cutoff) = rmap (map (vscale lam)) (translation_vectors A cutoff) /\
  spherical_mask (m3scale lam A) sizes (cutoff / lam ^ 2) = spherical_mask A sizes cutoff.
Proof. exact grids_scale. Qed.
Print Assumptions C138_grids.

(** With the same coefficients and occupations, every energy is that of the original crystal
    divided by lam^2 (kinetic) or by lam; in the attraction by the nuclei the constant 1e-10 that
    the code adds to |G|^2 does not shrink with the grid, so it counts lam^2 times. *)
Theorem C138_energies : forall lib vg xt A lam c pos ch G G' kpts occ sp B n1 n2 n3, let ns := [n1; n2; n3] in let K := length kpts in let vol := volume A in
  0 < lam -> exchange_like lib xt lam -> m3det A <> 0 -> g_vectors A ns = Ok G -> g_vectors (m3scale lam A) ns = Ok G' ->
  (sp = 1 \/ sp = 2)%nat -> length ch = length pos -> tshape c = [sp; K; B] ++ ns -> tshape occ = [sp; K; B] ->
  exists D t h x, density_grid_reciprocal c vol (Some occ) = Ok D /\
    total_energy_split (xc_density lib vg) c pos ch G kpts vol (Some occ) false xt = Ok (t, attraction ns G D pos ch (/ 10 ^ 10), h, x) /\
    total_energy_split (xc_density lib vg) c (map (vscale lam) pos) ch G' (map (vscale (/ lam)) kpts) (volume (m3scale lam A)) (Some occ) false xt =
      Ok (t / lam ^ 2, attraction ns G D pos ch (lam ^ 2 / 10 ^ 10) / lam, h / lam, x / lam).
Proof. exact energies_scale. Qed.
Print Assumptions C138_energies.

(** Slater exchange, the cube root of the density, scales so for every factor. *)
Example C138_example : let slater (v s : list R) := if Rlt_dec 0 (nth 0 v 0) then - Rpower (nth 0 v 0) (/ 3) else 0 in
  (forall lam, 0 < lam -> exchange_like (fun _ _ => Some slater) "lda_x" lam) /\ slater [8] [] < -1 /\
  m3det (M3 (V3 2 0 0) (V3 1 2 0) (V3 0 0 2)) <> 0 /\ exists G, g_vectors (M3 (V3 2 0 0) (V3 1 2 0) (V3 0 0 2)) [1; 2; 3]%nat = Ok G.
Proof.
  cbv zeta. split; [|split; [|split]].
  - intros lam H t b _. eexists. split; [reflexivity|]. intros v s. assert (P : 0 < / lam ^ 3) by (apply Rinv_0_lt_compat, pow_lt; exact H).
    destruct v as [|r v]; [cbn [map nth]; destruct (Rlt_dec 0 0); [lra|unfold Rdiv; ring]|]. cbn [map nth].
    destruct (Rlt_dec 0 r) as [Q|Q]; destruct (Rlt_dec 0 (r / lam ^ 3)) as [Q'|Q']; try (exfalso; unfold Rdiv in Q'; nra); [|unfold Rdiv; ring].
    unfold Rdiv at 1. rewrite <- Rpower_mult_distr by assumption.
    replace (Rpower (/ lam ^ 3) (/ 3)) with (/ lam); [unfold Rdiv; ring|].
    rewrite <- (Rpower_pow 3 lam H), <- Rpower_Ropp, Rpower_mult. replace (- INR 3 * / 3) with (- (1)) by (cbn; field). rewrite Rpower_Ropp, Rpower_1 by exact H. reflexivity.
  - cbn [nth]. destruct (Rlt_dec 0 8); [|lra]. assert (E : Rpower 8 (/ 3) = 2); [|lra].
    replace 8 with (2 ^ 3) by ring. rewrite <- (Rpower_pow 3 2) by lra. rewrite Rpower_mult. replace (INR 3 * / 3) with 1 by (cbn; field). apply Rpower_1. lra.
  - unfold m3det; lin3; lra.
  - apply g_vectors_ok. repeat split; lia.
Qed.
