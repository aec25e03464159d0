(** Bands at neighbouring k-points: an example. *)
From Coq Require Import Reals Lra Lia.
From Coquelicot Require Import Coquelicot.
From Coq Require Import Ascii String List Arith ZArith Bool.
From Verif Require Import Base Sums Tensor DFT GridModel PadModel Lin3 VecModel VecProofs PwModel PwSpec XcModel EnergyModel HamModel HamProofs3 EigSpec BndSpec VarProofs PropVar.
Import ListNotations.
Local Open Scope R_scope.

Lemma ex_kbands : let kpts := [V3 1 0 0; vzero; V3 (-1) 0 0] in let xcd := xc_density ex_lib ex_vg in exists G v M lam1 lam lam2 Q,
  g_vectors ex_A [1; 1; 3]%nat = Ok G /\ tshape G = [1; 1; 3]%nat /\ effective_sum xcd ex_dens [vzero] [2%R] G 8 "lda_x" true = Ok v /\ tshape v = [1; 1; 1; 3]%nat /\
  hamiltonian_matrix_basis xcd ex_full [vzero] [2%R] ex_dens G kpts 8 "lda_x" true = Ok M /\ length (mask_positions ex_full) = 3%nat /\
  spectrum 3 (matrix_at M [0%nat]) lam1 /\ spectrum 3 (matrix_at M [1%nat]) lam /\ spectrum 3 (matrix_at M [2%nat]) lam2 /\
  nth 1 kpts vzero = vadd (vscale (/ 2) (nth 0 kpts vzero)) (vscale (1 - / 2) (nth 2 kpts vzero)) /\
  (forall g, inb g [1; 1; 3]%nat -> tget ex_full g = true -> let q := vadd (tget G g) (nth 1 kpts vzero) in sqrt (dot q q) <= Q).
Proof.
  intros kpts xcd. destruct (proj2 (g_vectors_ok ex_A 1 1 3)) as (G & HG); [repeat split; lia|].
  assert (SG : tshape G = [1; 1; 3]%nat) by (unfold g_vectors in HG; exact (proj1 (vector_grid_get _ _ _ _ _ _ HG))).
  destruct (lda_channels ex_lib ex_vg "lda_x" ex_dens [vzero] [2%R] G 8 true 1 1 1 3 (or_introl eq_refl) eq_refl ltac:(intros; discriminate) eq_refl SG eq_refl) as (v & Hv & Sv).
  assert (X : forall k, (k < 3)%nat -> exists M lam, hamiltonian_matrix_basis xcd ex_full [vzero] [2%R] ex_dens G kpts 8 "lda_x" true = Ok M /\ spectrum 3 (matrix_at M [k]) lam).
  { intros k Hk. exact (basis_spectrum xcd ex_full [vzero] [2%R] ex_dens G kpts 8 "lda_x" true 1 1 3 v k eq_refl SG Hv Sv ltac:(lra) Hk). }
  destruct (X 0%nat ltac:(lia)) as (M & lam1 & HM & L1). destruct (X 1%nat ltac:(lia)) as (M' & lam & HM' & L). rewrite HM in HM'. injection HM' as <-. destruct (X 2%nat ltac:(lia)) as (M' & lam2 & HM' & L2). rewrite HM in HM'. injection HM' as <-.
  set (e := fun g => let q := vadd (tget G g) (nth 1 kpts vzero) in sqrt (dot q q)).
  exists G, v, M, lam1, lam, lam2, (e [0; 0; 0]%nat + e [0; 0; 1]%nat + e [0; 0; 2]%nat). repeat (split; [first [assumption|reflexivity]|]). split.
  - cbn [nth kpts]. unfold vzero, vadd, vscale. cbn [vx vy vz]. f_equal; field.
  - assert (P : forall g, 0 <= e g) by (intros g; apply sqrt_pos). intros g Hg _. cbv zeta. change (e g <= e [0; 0; 0]%nat + e [0; 0; 1]%nat + e [0; 0; 2]%nat).
    inversion Hg as [|a ? g1 ? Ha H1]; subst. inversion H1 as [|b ? g2 ? Hb H2]; subst. inversion H2 as [|c ? g3 ? Hc H3]; subst. inversion H3; subst.
    assert (a = 0%nat) by lia. assert (b = 0%nat) by lia. subst. pose proof (P [0; 0; 0]%nat). pose proof (P [0; 0; 1]%nat). pose proof (P [0; 0; 2]%nat). assert (C : (c = 0 \/ c = 1 \/ c = 2)%nat) by lia. destruct C as [-> | [-> | ->]]; lra.
Qed.
