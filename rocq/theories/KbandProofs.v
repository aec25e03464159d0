(** Bands at neighbouring k-points. *)
From Coq Require Import Reals Lra Lia.
From Coquelicot Require Import Coquelicot.
From Coq Require Import Ascii String List Arith ZArith Bool.
From Verif Require Import Base Sums Tensor DFT GridModel PadModel PadProofs Lin3 VecModel VecProofs PwModel PwSpec PwProofs BraketModel XcModel EnergyModel HamModel HamProofs3 EigSpec EigProofs EigProofs2 BndSpec BndProofs BndProofs4 BminProofs EnergyProofs LocProofs SymSpec SymProofs2 VarProofs.
Import ListNotations.
Local Open Scope R_scope.

Lemma compress_hermitian n B A Q : hermitian n A -> hermitian B (compress n A Q).
Proof.
  intros HA i j _ _. unfold compress. rewrite Cconj_sum. rewrite sumC_swap. apply sumC_ext. intros g Hg. apply seq_in in Hg. rewrite Cconj_sum. apply sumC_ext. intros g' Hg'. apply seq_in in Hg'.
  rewrite (HA g g' Hg Hg'), !Cconj_mult, Cconj_conj. ring.
Qed.
Lemma compress_quad n A Q b : compress n A Q b b = quad n A (fun g => Q g b).
Proof. unfold compress, quad, mulv. apply sumC_ext. intros g _. rewrite <- sumC_scal. apply sumC_ext. intros g' _. ring. Qed.
Lemma column_norm n B Q b : orthonormal_columns n B Q -> (b < B)%nat -> EigProofs.norm2 n (fun g => Q g b) = 1.
Proof. intros HQ Hb. apply RtoC_inj. rewrite <- norm2_sum, (HQ b b Hb Hb). unfold kron. rewrite Nat.eqb_refl. reflexivity. Qed.
(** Ky Fan: no orthonormal set has a smaller sum of expectation values than the lowest eigenvectors. *)
Lemma ky_fan n B A lam Q : (B <= n)%nat -> spectrum n A lam -> orthonormal_columns n B Q -> sumR (seq 0 B) lam <= sumR (seq 0 B) (fun b => Re (quad n A (fun g => Q g b))).
Proof.
  intros HB HA HQ. destruct (spectrum_exists B (compress n A Q) (compress_hermitian n B A Q (spectrum_hermitian _ _ _ HA))) as (mu & Hmu).
  pose proof (separated_of n B A Q _ mu HQ (fun i j _ _ => eq_refl) Hmu) as X. pose proof (spectrum_trace _ _ _ Hmu) as Tr. apply (f_equal Re) in Tr. rewrite Re_sumC in Tr. change (Re (RtoC ?x)) with x in Tr.
  rewrite (sumR_ext _ (fun b => Re (quad n A (fun g => Q g b))) (fun b => Re (compress n A Q b b))) by (intros b _; rewrite compress_quad; reflexivity). rewrite Tr. apply sumR_le. intros b Hb. apply seq_in in Hb. apply (X lam HA b Hb).
Qed.
(** The lowest eigenvectors attain it. *)
Lemma eigen_sum n B A lam : (B <= n)%nat -> spectrum n A lam -> exists Q, orthonormal_columns n B Q /\ sumR (seq 0 B) (fun b => Re (quad n A (fun g => Q g b))) = sumR (seq 0 B) lam.
Proof.
  intros HB (Ha & V & H1 & _ & H3). exists V. split; [intros i j Hi Hj; apply H1; lia|].
  pose proof (compress_eigen n B A lam V V (fun _ => RtoC 1) HB Ha H1 H3 ltac:(intros b _; split; [apply Cmod_1|intros g _; ring])) as X.
  pose proof (spectrum_trace _ _ _ X) as Tr. apply (f_equal Re) in Tr. rewrite Re_sumC in Tr. change (Re (RtoC ?x)) with x in Tr. rewrite <- Tr. apply sumR_ext. intros b _. rewrite compress_quad. reflexivity.
Qed.
Lemma dot_bound (u v : v3) : Rabs (dot u v) <= sqrt (dot u u) * sqrt (dot v v).
Proof.
  assert (X : dot u v * dot u v <= dot u u * dot v v).
  { destruct u as [a b c], v as [x y z]. unfold dot. cbn [vx vy vz]. assert (0 <= (a * y - b * x) * (a * y - b * x) + (a * z - c * x) * (a * z - c * x) + (b * z - c * y) * (b * z - c * y)) by (repeat apply Rplus_le_le_0_compat; apply Rle_0_sqr). lra. }
  rewrite <- sqrt_mult by (unfold dot; nra). rewrite <- sqrt_Rsqr_abs. apply sqrt_le_1_alt. exact X.
Qed.

Section Bands.
Variables (xcd : xcdens) (mask : tensor bool) (pos : list v3) (ch : list R) (dens : tensor R) (G : tensor v3) (kpts : list v3) (vol : R) (xt : string) (ks : bool) (n1 n2 n3 : nat) (v M : tensor C).
Let ns := [n1; n2; n3]. Let n := length (mask_positions mask). Let p i := nth i (mask_positions mask) []. Let V x := Re (tget v (0%nat :: x)).
Let T k i := let q := vadd (tget G (p i)) (nth k kpts vzero) in dot q q / 2.
Hypothesis (Sm : tshape mask = ns) (SG : tshape G = ns) (Hvol : 0 < vol) (Hv : effective_sum xcd dens pos ch G vol xt ks = Ok v) (Sv : tshape v = 1%nat :: ns)
  (HM : hamiltonian_matrix_basis xcd mask pos ch dens G kpts vol xt ks = Ok M).
Let H k := pwm ns p (T k) V.
Let spec k lam : (k < length kpts)%nat -> spectrum n (matrix_at M [k]) lam -> spectrum n (H k) lam.
Proof. intros Hk L. eapply spectrum_ext; [|exact L]. intros i j Hi Hj. apply (basis_pwm xcd mask pos ch dens G kpts vol xt ks n1 n2 n3 v M k); assumption. Qed.
Let inside i : (i < n)%nat -> inb (p i) ns.
Proof. intros Hi. apply (pos_true mask n1 n2 n3 Sm i Hi). Qed.

Lemma quad_shift k k' x : Re (quad n (H k') x) = Re (quad n (H k) x) + sumR (seq 0 n) (fun i => (T k' i - T k i) * Cnorm2 (x i)).
Proof.
  unfold H. rewrite !(pwm_quad ns p _ n inside). rewrite (sumR_ext _ (fun i => (T k' i - T k i) * Cnorm2 (x i)) (fun i => T k' i * Cnorm2 (x i) + -1 * (T k i * Cnorm2 (x i)))) by (intros; ring).
  rewrite sumR_plus, sumR_scal. ring.
Qed.
Lemma bands_close k k' lam lam' Q : (k < length kpts)%nat -> (k' < length kpts)%nat -> spectrum n (matrix_at M [k]) lam -> spectrum n (matrix_at M [k']) lam' ->
  (forall g, inb g ns -> tget mask g = true -> let q := vadd (tget G g) (nth k kpts vzero) in sqrt (dot q q) <= Q) ->
  let d := vsub (nth k' kpts vzero) (nth k kpts vzero) in forall i, (i < n)%nat -> Rabs (lam' i - lam i) <= sqrt (dot d d) * Q + dot d d / 2.
Proof.
  intros Hk Hk' L L' HQ d. set (B := sqrt (dot d d) * Q + dot d d / 2). apply (spec k) in L; [|exact Hk]. apply (spec k') in L'; [|exact Hk'].
  assert (D : forall i, (i < n)%nat -> - B <= T k' i - T k i <= B).
  { intros i Hi. destruct (pos_true mask n1 n2 n3 Sm i Hi) as (Hb & Ht). specialize (HQ _ Hb Ht). cbv zeta in HQ. set (q := vadd (tget G (nth i (mask_positions mask) [])) (nth k kpts vzero)) in HQ.
    assert (E : T k' i - T k i = dot q d + dot d d / 2).
    { unfold T, q, d. fold (p i). destruct (tget G (p i)) as [a b c], (nth k kpts vzero) as [x y z], (nth k' kpts vzero) as [x' y' z']. unfold dot, vadd, vsub. cbn [vx vy vz]. field. }
    assert (0 <= dot d d) by (unfold dot; nra). pose proof (proj1 (Rabs_le_between _ _) (dot_bound q d)). pose proof (sqrt_pos (dot d d)).
    assert (sqrt (dot q q) * sqrt (dot d d) <= sqrt (dot d d) * Q) by (rewrite Rmult_comm; apply Rmult_le_compat_l; assumption). rewrite E. unfold B. split; lra. }
  assert (Sq : forall x, - (B * EigProofs.norm2 n x) <= sumR (seq 0 n) (fun i => (T k' i - T k i) * Cnorm2 (x i)) <= B * EigProofs.norm2 n x).
  { intros x. unfold EigProofs.norm2. rewrite <- Ropp_mult_distr_l_reverse, <- !sumR_scal. split; apply sumR_le; intros i Hi; apply seq_in in Hi; apply Rmult_le_compat_r; try apply Cnorm2_nonneg; apply (D i Hi). }
  intros i Hi. apply Rabs_le. pose proof (weyl n _ _ lam lam' B L L') as W1. pose proof (weyl n _ _ lam' lam B L' L) as W2.
  specialize (W1 ltac:(intros x; rewrite (quad_shift k k'); pose proof (Sq x); lra) i Hi). specialize (W2 ltac:(intros x; rewrite (quad_shift k k'); pose proof (Sq x); lra) i Hi). lra.
Qed.

Lemma bands_concave k k1 k2 lam lam1 lam2 l B : (k < length kpts)%nat -> (k1 < length kpts)%nat -> (k2 < length kpts)%nat -> (B <= n)%nat -> 0 <= l <= 1 ->
  nth k kpts vzero = vadd (vscale l (nth k1 kpts vzero)) (vscale (1 - l) (nth k2 kpts vzero)) ->
  spectrum n (matrix_at M [k]) lam -> spectrum n (matrix_at M [k1]) lam1 -> spectrum n (matrix_at M [k2]) lam2 ->
  let low (mu : nat -> R) j := sumR (seq 0 B) mu - INR B * (dot (nth j kpts vzero) (nth j kpts vzero) / 2) in l * low lam1 k1 + (1 - l) * low lam2 k2 <= low lam k.
Proof.
  intros Hk Hk1 Hk2 HB Hl Ek L L1 L2 low. apply (spec k) in L; [|exact Hk]. apply (spec k1) in L1; [|exact Hk1]. apply (spec k2) in L2; [|exact Hk2].
  destruct (eigen_sum n B _ lam HB L) as (Q & HQ & EQ). pose proof (ky_fan n B _ lam1 Q HB L1 HQ) as F1. pose proof (ky_fan n B _ lam2 Q HB L2 HQ) as F2.
  set (P := fun j x => Re (quad n (H j) x) - dot (nth j kpts vzero) (nth j kpts vzero) / 2 * EigProofs.norm2 n x).
  assert (EP : forall x, l * P k1 x + (1 - l) * P k2 x = P k x).
  { intros x. unfold P. rewrite (quad_shift k k1), (quad_shift k k2).
    assert (Y : l * sumR (seq 0 n) (fun i => (T k1 i - T k i) * Cnorm2 (x i)) + (1 - l) * sumR (seq 0 n) (fun i => (T k2 i - T k i) * Cnorm2 (x i)) =
       (l * (dot (nth k1 kpts vzero) (nth k1 kpts vzero) / 2) + (1 - l) * (dot (nth k2 kpts vzero) (nth k2 kpts vzero) / 2) - dot (nth k kpts vzero) (nth k kpts vzero) / 2) * EigProofs.norm2 n x).
    { unfold EigProofs.norm2. rewrite <- !sumR_scal, <- sumR_plus. apply sumR_ext. intros i _. rewrite <- !Rmult_assoc, <- Rmult_plus_distr_r. f_equal. unfold T. rewrite Ek.
      destruct (tget G (p i)) as [a b c], (nth k1 kpts vzero) as [x1 y1 z1], (nth k2 kpts vzero) as [x2 y2 z2]. unfold dot, vadd, vscale. cbn [vx vy vz]. field. }
    lra. }
  assert (S : forall j, sumR (seq 0 B) (fun b => P j (fun g => Q g b)) = sumR (seq 0 B) (fun b => Re (quad n (H j) (fun g => Q g b))) - INR B * (dot (nth j kpts vzero) (nth j kpts vzero) / 2)).
  { intros j. unfold P. rewrite (sumR_ext _ _ (fun b => Re (quad n (H j) (fun g => Q g b)) + - (dot (nth j kpts vzero) (nth j kpts vzero) / 2))).
    - rewrite sumR_plus, sumR_const, seq_length. ring.
    - intros b Hb. apply seq_in in Hb. rewrite (column_norm n B Q b HQ Hb). ring. }
  assert (Z : l * sumR (seq 0 B) (fun b => P k1 (fun g => Q g b)) + (1 - l) * sumR (seq 0 B) (fun b => P k2 (fun g => Q g b)) = sumR (seq 0 B) (fun b => P k (fun g => Q g b))).
  { rewrite <- !sumR_scal, <- sumR_plus. apply sumR_ext. intros b _. apply EP. }
  rewrite !S, EQ in Z. unfold low. rewrite <- Z. apply Rplus_le_compat; (apply Rmult_le_compat_l; lra).
Qed.
End Bands.
