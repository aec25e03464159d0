(** Variational properties of the plane-wave Hamiltonian: larger bases, larger potentials, time reversal. *)
From Coq Require Import Reals Lra Lia.
From Coquelicot Require Import Coquelicot.
From Coq Require Import Ascii String List Arith ZArith Bool.
From Verif Require Import Base Sums Tensor DFT GridModel PadModel PadProofs Lin3 VecModel VecProofs PwModel PwSpec PwProofs BraketModel EnergyModel HamModel HamProofs3 EigSpec EigProofs EigProofs2 BndSpec EnergyProofs LocProofs SymSpec SymProofs2.
Import ListNotations.
Local Open Scope R_scope.

(** Weyl: a larger quadratic form has larger eigenvalues. *)
Lemma weyl n A B lam mu d : spectrum n A lam -> spectrum n B mu ->
  (forall x, Re (quad n A x) <= Re (quad n B x) + d * norm2 n x) -> forall i, (i < n)%nat -> lam i <= mu i + d.
Proof.
  intros (Ha & V & Vc & Vr & VH) (Hs & U & Uc & Ur & UH) Hq i Hi.
  destruct (combine i 0 n (fun e b => sumC (seq 0 n) (fun g => Cconj (V g e) * U g b)%C)) as (y & (i0 & Hi0 & Hy) & Hz & He); [lia|].
  set (x := mulv n U y).
  assert (N : norm2 n x = norm2 n y) by (apply isometry; exact Uc).
  pose proof (norm2_pos n y i0 Hi0 Hy) as P.
  assert (L : lam i * norm2 n x <= Re (quad n A x)).
  { apply (quad_lower n A V lam); try assumption. intros m Hm _. rewrite <- (He m Hm). unfold x, coord, mulv.
    rewrite (sumC_ext _ _ (fun g => sumC (seq 0 n) (fun b => Cconj (V g m) * U g b * y b))%C).
    - rewrite sumC_swap. apply sumC_ext. intros b _. rewrite sumC_scal_r. reflexivity.
    - intros g _. rewrite <- sumC_scal. apply sumC_ext. intros; ring. }
  assert (Up : Re (quad n B x) <= mu i * norm2 n x).
  { apply (quad_upper n B U mu); try assumption. intros m Hm Hm'. unfold x. rewrite (coord_mulv n U Uc) by exact Hm'. apply Hz. lia. }
  specialize (Hq x). rewrite N in *. apply (Rmult_le_reg_r (norm2 n y)); [exact P|lra].
Qed.

(** The matrix between plane waves at the positions [p] of a potential [V] and kinetic energies [T]. *)
Definition pwm (ns : list nat) (p : nat -> list nat) (T : nat -> R) (V : list nat -> R) (i j : nat) : C :=
  ((if (i =? j)%nat then RtoC (T i) else RtoC 0)
   + RtoC (/ INR (nprod ns)) * sumC (indices ns) (fun x => RtoC (V x) * cis (- (2 * PI * phase ns (zsub (zs (p i)) (zs (p j))) (zs x)))%R))%C.

Section Pwm.
  Variables (ns : list nat) (p : nat -> list nat) (T : nat -> R) (n : nat).
  Hypothesis Hp : forall i, (i < n)%nat -> inb (p i) ns.
  Let plen i : (i < n)%nat -> length (zs (p i)) = length ns.
  Proof. intros Hi. unfold zs. rewrite map_length. apply (inb_length _ _ (Hp i Hi)). Qed.
  (** the wave with coefficients [x] on the grid *)
  Let w (x : nat -> C) (g : list nat) : C := sumC (seq 0 n) (fun j => x j * cis (2 * PI * phase ns (zs (p j)) (zs g))%R)%C.

  Lemma pwm_quad V x : Re (quad n (pwm ns p T V) x) =
    sumR (seq 0 n) (fun i => T i * Cnorm2 (x i)) + / INR (nprod ns) * sumR (indices ns) (fun g => V g * Cnorm2 (w x g)).
  Proof.
    assert (E : quad n (pwm ns p T V) x = (RtoC (sumR (seq 0 n) (fun i => T i * Cnorm2 (x i))%R) + RtoC (/ INR (nprod ns)) * RtoC (sumR (indices ns) (fun g => V g * Cnorm2 (w x g))%R))%C).
    2:{ rewrite E, <- RtoC_mult, <- RtoC_plus. reflexivity. }
    unfold quad.
    rewrite (sumC_ext _ _ (fun i => RtoC (T i * Cnorm2 (x i))%R + RtoC (/ INR (nprod ns)) * sumC (indices ns) (fun g => RtoC (V g) * (Cconj (x i * cis (2 * PI * phase ns (zs (p i)) (zs g))%R) * w x g)))%C).
    - rewrite sumC_plus, sumC_RtoC, sumC_scal. f_equal. f_equal. rewrite sumC_swap, <- sumC_RtoC. apply sumC_ext. intros g _.
      rewrite sumC_scal, sumC_scal_r. rewrite <- Cconj_sum. fold (w x g). rewrite Cconj_mult_self, RtoC_mult. reflexivity.
    - intros i Hi. apply seq_in in Hi. unfold mulv.
      rewrite (sumC_ext _ _ (fun j => (if (i =? j)%nat then RtoC (T i) * x j else RtoC 0) + RtoC (/ INR (nprod ns)) * sumC (indices ns) (fun g => RtoC (V g) * (Cconj (cis (2 * PI * phase ns (zs (p i)) (zs g))%R) * (x j * cis (2 * PI * phase ns (zs (p j)) (zs g))%R))))%C).
      + rewrite sumC_plus, sumC_scal. rewrite (sumC_single _ i) by (try apply seq_NoDup; try (apply seq_in; exact Hi); intros j _ Hj; destruct (Nat.eqb_spec i j); congruence).
        rewrite Nat.eqb_refl, Cmult_plus_distr_l. f_equal.
        * rewrite RtoC_mult, <- Cconj_mult_self. ring.
        * rewrite sumC_swap. rewrite (Cmult_comm (Cconj (x i))), <- Cmult_assoc. f_equal. rewrite <- sumC_scal_r. apply sumC_ext. intros g _.
          rewrite sumC_scal, sumC_scal. unfold w. rewrite Cconj_mult. ring.
      + intros j Hj. apply seq_in in Hj. unfold pwm. rewrite Cmult_plus_distr_r. f_equal.
        * destruct (i =? j)%nat; ring.
        * rewrite <- Cmult_assoc. f_equal. rewrite <- sumC_scal_r. apply sumC_ext. intros g _. rewrite cis_conj.
          replace (- (2 * PI * phase ns (zsub (zs (p i)) (zs (p j))) (zs g))) with (- (2 * PI * phase ns (zs (p i)) (zs g)) + 2 * PI * phase ns (zs (p j)) (zs g)).
          2:{ rewrite phase_sub_l by (rewrite !plen by assumption; reflexivity). ring. }
          rewrite cis_plus. ring.
  Qed.
End Pwm.

Section Pwm2.
  Variables (ns : list nat) (p : nat -> list nat) (T : nat -> R) (n : nat).
  Hypothesis Hp : forall i, (i < n)%nat -> inb (p i) ns.
  Hypothesis Hinj : forall i j, (i < n)%nat -> (j < n)%nat -> p i = p j -> i = j.
  Let w (x : nat -> C) (g : list nat) : C := sumC (seq 0 n) (fun j => x j * cis (2 * PI * phase ns (zs (p j)) (zs g))%R)%C.

  Lemma wave_norm x : sumR (indices ns) (fun g => Cnorm2 (w x g)) = INR (nprod ns) * norm2 n x.
  Proof.
    apply RtoC_inj. rewrite <- sumC_RtoC, RtoC_mult, <- norm2_sum.
    rewrite (sumC_ext _ _ (fun g => sumC (seq 0 n) (fun i => sumC (seq 0 n) (fun j => Cconj (x i) * x j * (cis (2 * PI * phase ns (zs (p j)) (zs g))%R * cis (- (2 * PI * phase ns (zs (p i)) (zs g)))%R))))%C).
    - rewrite sumC_swap, <- sumC_scal. apply sumC_ext. intros i Hi. apply seq_in in Hi. rewrite sumC_swap.
      rewrite (sumC_ext _ _ (fun j => kron i j * (RtoC (INR (nprod ns)) * (Cconj (x i) * x j)))%C).
      + rewrite sum_kron by exact Hi. reflexivity.
      + intros j Hj. apply seq_in in Hj. rewrite sumC_scal, dft_orth by (apply Hp; assumption). unfold kron.
        destruct (list_eq_dec Nat.eq_dec (p j) (p i)) as [E|E]; destruct (Nat.eqb_spec i j) as [E'|E']; try ring.
        * exfalso. apply E'. symmetry. apply Hinj; assumption.
        * exfalso. apply E. rewrite E'. reflexivity.
    - intros g _. rewrite <- Cconj_mult_self. unfold w. rewrite Cconj_sum, sumC_mult. apply sumC_ext. intros i _. apply sumC_ext. intros j _. rewrite Cconj_mult, cis_conj. ring.
  Qed.
  Hypothesis Hns : (0 < nprod ns)%nat.
  Let Npos : 0 < / INR (nprod ns).
  Proof. apply Rinv_0_lt_compat. apply lt_0_INR. exact Hns. Qed.

  Lemma pwm_mono V V' d x : (forall g, inb g ns -> V g <= V' g + d) -> Re (quad n (pwm ns p T V) x) <= Re (quad n (pwm ns p T V') x) + d * norm2 n x.
  Proof.
    intros H. rewrite !(pwm_quad ns p T n Hp).
    assert (E : sumR (indices ns) (fun g => V g * Cnorm2 (w x g)) <= sumR (indices ns) (fun g => V' g * Cnorm2 (w x g)) + d * (INR (nprod ns) * norm2 n x)).
    { rewrite <- wave_norm, <- sumR_scal, <- sumR_plus. apply sumR_le. intros g Hg. apply in_indices in Hg.
      rewrite <- Rmult_plus_distr_r. apply Rmult_le_compat_r; [apply Cnorm2_nonneg|]. apply H. exact Hg. }
    apply (Rmult_le_compat_l (/ INR (nprod ns))) in E; [|lra].
    rewrite Rmult_plus_distr_l in E. unfold w in E.
    replace (/ INR (nprod ns) * (d * (INR (nprod ns) * norm2 n x))) with (d * norm2 n x) in E.
    - lra.
    - field. apply not_0_INR. lia.
  Qed.
  Lemma diag_quad x : Re (quad n (fun i j => if (i =? j)%nat then RtoC (T i) else RtoC 0) x) = sumR (seq 0 n) (fun i => T i * Cnorm2 (x i)).
  Proof.
    assert (E : quad n (fun i j => if (i =? j)%nat then RtoC (T i) else RtoC 0) x = RtoC (sumR (seq 0 n) (fun i => T i * Cnorm2 (x i)))).
    2:{ rewrite E. reflexivity. }
    unfold quad, mulv. rewrite <- sumC_RtoC. apply sumC_ext. intros i Hi.
    rewrite (sumC_single _ i); [|apply seq_NoDup|exact Hi|intros j _ Hj; destruct (Nat.eqb_spec i j); [congruence|ring]].
    rewrite Nat.eqb_refl, RtoC_mult, <- Cconj_mult_self. ring.
  Qed.
  Lemma pwm_diag V lo hi x : (forall g, inb g ns -> lo <= V g <= hi) ->
    let D := sumR (seq 0 n) (fun i => T i * Cnorm2 (x i)) in D + lo * norm2 n x <= Re (quad n (pwm ns p T V) x) <= D + hi * norm2 n x.
  Proof.
    intros H D. rewrite (pwm_quad ns p T n Hp). fold D.
    assert (E1 : lo * (INR (nprod ns) * norm2 n x) <= sumR (indices ns) (fun g => V g * Cnorm2 (w x g)) <= hi * (INR (nprod ns) * norm2 n x)).
    { rewrite <- wave_norm, <- !sumR_scal. split; apply sumR_le; intros g Hg; apply in_indices in Hg; apply Rmult_le_compat_r; try apply Cnorm2_nonneg; apply H; exact Hg. }
    assert (N0 : INR (nprod ns) <> 0) by (apply not_0_INR; lia).
    assert (N1 : forall a, / INR (nprod ns) * (a * (INR (nprod ns) * norm2 n x)) = a * norm2 n x) by (intros; field; exact N0).
    destruct E1 as [E1 E2]. apply (Rmult_le_compat_l (/ INR (nprod ns))) in E1; [|lra]. apply (Rmult_le_compat_l (/ INR (nprod ns))) in E2; [|lra].
    rewrite N1 in E1, E2. unfold w in E1, E2. lra.
  Qed.
End Pwm2.

(** The eigenvalues of a diagonal matrix. *)
Lemma diag_spectrum n (T t : nat -> R) : ascending n t -> Permutation.Permutation (map t (seq 0 n)) (map T (seq 0 n)) ->
  spectrum n (fun i j => if (i =? j)%nat then RtoC (T i) else RtoC 0) t.
Proof.
  intros Ha HP. split; [exact Ha|]. destruct (Permutation.Permutation_map_inv _ _ HP) as (l & El & HP').
  assert (Ll : length l = n) by (rewrite <- (Permutation.Permutation_length HP'), seq_length; reflexivity).
  assert (Nd : NoDup l) by (apply (Permutation.Permutation_NoDup HP'), seq_NoDup).
  assert (Et : forall m, (m < n)%nat -> t m = T (nth m l 0%nat)).
  { intros m Hm. rewrite <- (map_nth T), <- El. rewrite (nth_indep _ _ (t 0%nat)) by (rewrite map_length, seq_length; exact Hm). rewrite map_nth, seq_nth by exact Hm. reflexivity. }
  assert (Hin : forall i, (i < n)%nat -> exists m, (m < n)%nat /\ nth m l 0%nat = i).
  { intros i Hi. assert (In i l) by (apply (Permutation.Permutation_in _ HP'), seq_in; exact Hi). destruct (In_nth _ _ 0%nat H) as (m & Hm & E). exists m. split; [lia|exact E]. }
  exists (fun i m => kron i (nth m l 0%nat)). split; [|split].
  - intros i j Hi Hj. rewrite (sumC_ext _ _ (fun g => kron (nth i l 0%nat) g * kron g (nth j l 0%nat))%C).
    + rewrite sum_kron.
      * unfold kron. destruct (Nat.eqb_spec i j) as [->|E]; [rewrite Nat.eqb_refl; reflexivity|]. destruct (Nat.eqb_spec (nth i l 0%nat) (nth j l 0%nat)) as [E'|]; [|reflexivity].
        exfalso. apply E. apply (proj1 (NoDup_nth l 0%nat)) in E'; lia || assumption.
      * assert (In (nth i l 0%nat) l) by (apply nth_In; lia). apply seq_in. apply (Permutation.Permutation_in _ (Permutation.Permutation_sym HP')). exact H.
    + intros g _. rewrite kron_conj, kron_sym. reflexivity.
  - intros i j Hi Hj. destruct (Hin i Hi) as (m & Hm & E). rewrite (sumC_single _ m); [|apply seq_NoDup|apply seq_in; exact Hm|].
    + rewrite E, kron_conj, kron_same, kron_sym. ring.
    + intros m' Hm' Hne. apply seq_in in Hm'. rewrite (kron_diff i); [ring|]. intros E'. apply Hne. apply (proj1 (NoDup_nth l 0%nat)); [exact Nd|lia|lia|congruence].
  - intros i j Hi Hj. destruct (Hin i Hi) as (m & Hm & E). rewrite (sumC_single _ m); [|apply seq_NoDup|apply seq_in; exact Hm|].
    + rewrite E, kron_conj, kron_same, (Et m Hm), E. rewrite kron_sym. unfold kron. destruct (i =? j)%nat; ring.
    + intros m' Hm' Hne. apply seq_in in Hm'. rewrite (kron_diff i); [ring|]. intros E'. apply Hne. apply (proj1 (NoDup_nth l 0%nat)); [exact Nd|lia|lia|congruence].
Qed.

(** ** The positions of a mask. *)
Section Positions.
  Variables (mask : tensor bool) (n1 n2 n3 : nat).
  Let ns := [n1; n2; n3].
  Hypothesis Sm : tshape mask = ns.
  Let n := length (mask_positions mask).
  Let p i := nth i (mask_positions mask) [].
  Lemma pos_true i : (i < n)%nat -> inb (p i) ns /\ tget mask (p i) = true.
  Proof. intros Hi. rewrite <- Sm. apply mask_positions_in. apply nth_In. exact Hi. Qed.
  Lemma pos_inj i j : (i < n)%nat -> (j < n)%nat -> p i = p j -> i = j.
  Proof. intros Hi Hj E. apply (proj1 (NoDup_nth (mask_positions mask) []) (mask_positions_NoDup mask)); assumption. Qed.
  Lemma pos_find g : inb g ns -> tget mask g = true -> exists i, (i < n)%nat /\ p i = g.
  Proof. intros Hg E. rewrite <- Sm in Hg. destruct (In_nth (mask_positions mask) g []) as (i & Hi & Ei); [apply mask_positions_in; auto|]. exists i. auto. Qed.
End Positions.

(** Eigenvalues of the submatrix on selected rows and columns. *)
Lemma submatrix_separated n B (A S : nat -> nat -> C) (s : nat -> nat) lam mu :
  (forall i, (i < B)%nat -> (s i < n)%nat) -> (forall i j, (i < B)%nat -> (j < B)%nat -> s i = s j -> i = j) ->
  (forall i j, (i < B)%nat -> (j < B)%nat -> S i j = A (s i) (s j)) ->
  spectrum n A lam -> spectrum B S mu -> (B <= n)%nat /\ forall i, (i < B)%nat -> lam i <= mu i <= lam (n - B + i)%nat.
Proof.
  intros Hs Hi HS HA HB. set (Q := fun g i => kron g (s i)).
  assert (Qc : orthonormal_columns n B Q).
  { intros i j Hi' Hj. unfold Q. rewrite (sumC_ext _ _ (fun g => kron (s i) g * kron g (s j))%C) by (intros; rewrite kron_conj, kron_sym; reflexivity).
    rewrite sum_kron by (apply Hs; exact Hi'). unfold kron. destruct (Nat.eqb_spec i j) as [->|E]; [rewrite Nat.eqb_refl; reflexivity|].
    destruct (Nat.eqb_spec (s i) (s j)) as [E'|]; [exfalso; apply E; apply Hi; assumption|reflexivity]. }
  assert (E : forall i j, (i < B)%nat -> (j < B)%nat -> S i j = compress n A Q i j).
  { intros i j Hi' Hj. rewrite HS by assumption. unfold compress, Q.
    rewrite (sumC_single _ (s i)); [|apply seq_NoDup|apply seq_in, Hs; exact Hi'|].
    - rewrite (sumC_single _ (s j)); [|apply seq_NoDup|apply seq_in, Hs; exact Hj|].
      + rewrite kron_conj, !kron_same. ring.
      + intros g _ Hg. rewrite (kron_diff g) by exact Hg. ring.
    - intros g _ Hg. apply sumC_zero. intros g' _. rewrite kron_conj, (kron_diff g) by exact Hg. ring. }
  split; [exact (columns_le n B Q Qc)|]. intros i Hi'. split.
  - apply (separation_lower n B A Q S lam mu); assumption.
  - apply (separation_upper n B A Q S lam mu); assumption.
Qed.

(** A renumbering combined with complex conjugation keeps the eigenvalues. *)
Lemma spectrum_conj_perm n (A B : nat -> nat -> C) (s : nat -> nat) lam :
  (forall i, (i < n)%nat -> (s i < n)%nat) -> (forall i j, (i < n)%nat -> (j < n)%nat -> s i = s j -> i = j) ->
  (forall i j, (i < n)%nat -> (j < n)%nat -> B i j = Cconj (A (s i) (s j))) -> spectrum n A lam -> spectrum n B lam.
Proof.
  intros Hs Hi HB (Ha & V & Vc & Vr & VA). split; [exact Ha|]. exists (fun i m => Cconj (V (s i) m)). split; [|split].
  - intros i j Hi' Hj. rewrite (sumC_reindex (seq 0 n) s (fun g => Cconj (Cconj (V g i)) * Cconj (V g j))%C).
    + transitivity (Cconj (sumC (seq 0 n) (fun g => Cconj (V g i) * V g j)%C)); [rewrite Cconj_sum; apply sumC_ext; intros; rewrite Cconj_mult; reflexivity|].
      rewrite Vc by assumption. apply kron_conj.
    + apply seq_NoDup.
    + intros x Hx. apply seq_in. apply Hs, seq_in, Hx.
    + intros x y Hx Hy. apply Hi; apply seq_in; assumption.
  - intros i j Hi' Hj. transitivity (Cconj (sumC (seq 0 n) (fun m => V (s i) m * Cconj (V (s j) m))%C)); [rewrite Cconj_sum; apply sumC_ext; intros; rewrite Cconj_mult; reflexivity|].
    rewrite Vr by (apply Hs; assumption). rewrite kron_conj. unfold kron. destruct (Nat.eqb_spec i j) as [->|E]; [rewrite Nat.eqb_refl; reflexivity|].
    destruct (Nat.eqb_spec (s i) (s j)) as [E'|]; [exfalso; apply E, Hi; assumption|reflexivity].
  - intros i j Hi' Hj. rewrite HB, VA by (try apply Hs; assumption). rewrite Cconj_sum. apply sumC_ext. intros m _. rewrite !Cconj_mult, Cconj_R. reflexivity.
Qed.

Lemma pwm_conj ns p T V i j : Cconj (pwm ns p T V i j) = ((if (i =? j)%nat then RtoC (T i) else RtoC 0) + RtoC (/ INR (nprod ns)) * sumC (indices ns) (fun x => RtoC (V x) * cis (2 * PI * phase ns (zsub (zs (p i)) (zs (p j))) (zs x))%R))%C.
Proof.
  unfold pwm. rewrite Cconj_plus, Cconj_mult, Cconj_R, Cconj_sum. f_equal; [destruct (i =? j)%nat; apply Cconj_R|]. f_equal. apply sumC_ext. intros x _.
  rewrite Cconj_mult, Cconj_R, cis_conj, Ropp_involutive. reflexivity.
Qed.
(** The plane-wave matrix of hamiltonian_matrix_basis. *)
Lemma basis_pwm xcd mask pos ch dens G kpts vol xt ks n1 n2 n3 v M k : let ns := [n1; n2; n3] in let p i := nth i (mask_positions mask) [] in
  tshape mask = ns -> tshape G = ns -> effective_sum xcd dens pos ch G vol xt ks = Ok v -> tshape v = 1%nat :: ns -> 0 < vol ->
  hamiltonian_matrix_basis xcd mask pos ch dens G kpts vol xt ks = Ok M -> (k < length kpts)%nat ->
  forall i j, (i < length (mask_positions mask))%nat -> (j < length (mask_positions mask))%nat ->
    matrix_at M [k] i j = pwm ns p (fun i => let q := vadd (tget G (p i)) (nth k kpts vzero) in dot q q / 2) (fun x => Re (tget v (0%nat :: x))) i j.
Proof.
  intros ns p Hm HG Hv Sv Hvol HM Hk i j Hi Hj. destruct (basis_one xcd mask pos ch dens G kpts vol xt ks n1 n2 n3 v Hm HG Hv Sv Hvol) as (M' & HM' & _ & V).
  rewrite HM in HM'. injection HM' as <-. unfold matrix_at. cbn [app]. rewrite V by assumption. reflexivity.
Qed.

Lemma bigger_basis xcd m1 m2 pos ch dens G kpts vol xt ks n1 n2 n3 v M1 M2 k lam1 lam2 : let ns := [n1; n2; n3] in
  let N1 := length (mask_positions m1) in let N2 := length (mask_positions m2) in
  tshape m1 = ns -> tshape m2 = ns -> (forall g, inb g ns -> tget m1 g = true -> tget m2 g = true) -> tshape G = ns -> 0 < vol ->
  effective_sum xcd dens pos ch G vol xt ks = Ok v -> tshape v = 1%nat :: ns -> (k < length kpts)%nat ->
  hamiltonian_matrix_basis xcd m1 pos ch dens G kpts vol xt ks = Ok M1 -> hamiltonian_matrix_basis xcd m2 pos ch dens G kpts vol xt ks = Ok M2 ->
  spectrum N1 (matrix_at M1 [k]) lam1 -> spectrum N2 (matrix_at M2 [k]) lam2 ->
  (N1 <= N2)%nat /\ forall i, (i < N1)%nat -> lam2 i <= lam1 i <= lam2 (N2 - N1 + i)%nat.
Proof.
  intros ns N1 N2 S1 S2 Hsub HG Hvol Hv Sv Hk H1 H2 L1 L2.
  set (p1 := fun i => nth i (mask_positions m1) []). set (p2 := fun i => nth i (mask_positions m2) []).
  set (s := fun i => match find_index (p1 i) (mask_positions m2) with Some j => j | None => 0%nat end).
  assert (Es : forall i, (i < N1)%nat -> (s i < N2)%nat /\ p2 (s i) = p1 i).
  { intros i Hi. destruct (pos_true m1 n1 n2 n3 S1 i Hi) as [Hb Ht]. destruct (pos_find m2 n1 n2 n3 S2 (p1 i) Hb (Hsub _ Hb Ht)) as (j & Hj & Ej).
    unfold s. rewrite <- Ej, find_index_nth; [auto|apply mask_positions_NoDup|exact Hj]. }
  assert (Inj : forall i j, (i < N1)%nat -> (j < N1)%nat -> s i = s j -> i = j).
  { intros i j Hi Hj E. apply (pos_inj m1 i j Hi Hj). fold (p1 i) (p1 j). rewrite <- (proj2 (Es i Hi)), <- (proj2 (Es j Hj)), E. reflexivity. }
  apply (submatrix_separated N2 N1 (matrix_at M2 [k]) (matrix_at M1 [k]) s); try assumption; [intros i Hi; apply Es; exact Hi|].
  intros i j Hi Hj. destruct (Es i Hi) as [Hi' Ei]. destruct (Es j Hj) as [Hj' Ej].
  rewrite (basis_pwm xcd m1 pos ch dens G kpts vol xt ks n1 n2 n3 v M1 k) by assumption.
  rewrite (basis_pwm xcd m2 pos ch dens G kpts vol xt ks n1 n2 n3 v M2 k) by assumption.
  unfold pwm. fold (p1 i) (p1 j) (p2 (s i)) (p2 (s j)). rewrite Ei, Ej. f_equal.
  destruct (Nat.eqb_spec i j) as [->|E]; [rewrite Nat.eqb_refl; reflexivity|]. destruct (Nat.eqb_spec (s i) (s j)) as [E'|]; [exfalso; apply E, Inj; assumption|reflexivity].
Qed.

Lemma inb_size ns g : inb g ns -> (0 < nprod ns)%nat.
Proof. induction 1 as [|a n g ns Ha H IH]; [cbn; lia|]. cbn [nprod fold_right]. change (0 < n * nprod ns)%nat. nia. Qed.

Lemma potential_shift xcd xcd' mask pos pos' ch ch' dens dens' G kpts vol vol' xt xt' ks ks' n1 n2 n3 v v' M M' k lam lam' d : let ns := [n1; n2; n3] in
  let n := length (mask_positions mask) in
  tshape mask = ns -> tshape G = ns -> 0 < vol -> 0 < vol' -> (k < length kpts)%nat ->
  effective_sum xcd dens pos ch G vol xt ks = Ok v -> tshape v = 1%nat :: ns -> effective_sum xcd' dens' pos' ch' G vol' xt' ks' = Ok v' -> tshape v' = 1%nat :: ns ->
  (forall x, inb x ns -> Re (tget v (0%nat :: x)) <= Re (tget v' (0%nat :: x)) + d) ->
  hamiltonian_matrix_basis xcd mask pos ch dens G kpts vol xt ks = Ok M -> hamiltonian_matrix_basis xcd' mask pos' ch' dens' G kpts vol' xt' ks' = Ok M' ->
  spectrum n (matrix_at M [k]) lam -> spectrum n (matrix_at M' [k]) lam' -> forall i, (i < n)%nat -> lam i <= lam' i + d.
Proof.
  intros ns n Sm HG Hvol Hvol' Hk Hv Sv Hv' Sv' Hle HM HM' L L'. set (p := fun i => nth i (mask_positions mask) []).
  set (T := fun i => let q := vadd (tget G (p i)) (nth k kpts vzero) in dot q q / 2).
  intros i Hi.
  assert (Npos : (0 < nprod ns)%nat) by (destruct (pos_true mask n1 n2 n3 Sm i Hi) as [Hb _]; exact (inb_size _ _ Hb)).
  revert i Hi. apply (weyl n (pwm ns p T (fun x => Re (tget v (0%nat :: x)))) (pwm ns p T (fun x => Re (tget v' (0%nat :: x))))).
  - eapply spectrum_ext; [|exact L]. intros i j Hi Hj. apply (basis_pwm xcd mask pos ch dens G kpts vol xt ks n1 n2 n3 v M k); assumption.
  - eapply spectrum_ext; [|exact L']. intros i j Hi Hj. apply (basis_pwm xcd' mask pos' ch' dens' G kpts vol' xt' ks' n1 n2 n3 v' M' k); assumption.
  - intros x. apply pwm_mono; [| |exact Npos|exact Hle].
    + intros i Hi. apply (pos_true mask n1 n2 n3 Sm i Hi).
    + intros i j Hi Hj. apply (pos_inj mask); assumption.
Qed.

Lemma potential_bounds xcd mask pos ch dens G kpts vol xt ks n1 n2 n3 v M k lam lo hi t : let ns := [n1; n2; n3] in
  let n := length (mask_positions mask) in
  tshape mask = ns -> tshape G = ns -> 0 < vol -> (k < length kpts)%nat -> effective_sum xcd dens pos ch G vol xt ks = Ok v -> tshape v = 1%nat :: ns ->
  (forall x, inb x ns -> lo <= Re (tget v (0%nat :: x)) <= hi) -> hamiltonian_matrix_basis xcd mask pos ch dens G kpts vol xt ks = Ok M -> spectrum n (matrix_at M [k]) lam ->
  ascending n t -> Permutation.Permutation (map t (seq 0 n)) (map (fun g => let q := vadd (tget G g) (nth k kpts vzero) in dot q q / 2) (mask_positions mask)) ->
  forall i, (i < n)%nat -> t i + lo <= lam i <= t i + hi.
Proof.
  intros ns n Sm HG Hvol Hk Hv Sv Hb HM L Ha HP i Hi. set (p := fun i => nth i (mask_positions mask) []).
  set (T := fun i => let q := vadd (tget G (p i)) (nth k kpts vzero) in dot q q / 2). set (V := fun x => Re (tget v (0%nat :: x))).
  assert (Npos : (0 < nprod ns)%nat) by (destruct (pos_true mask n1 n2 n3 Sm i Hi) as [Hb' _]; exact (inb_size _ _ Hb')).
  assert (D : spectrum n (fun i j => if (i =? j)%nat then RtoC (T i) else RtoC 0) t).
  { apply diag_spectrum; [exact Ha|]. eapply Permutation.Permutation_trans; [exact HP|]. unfold T, p.
    rewrite <- (map_map (fun i => nth i (mask_positions mask) []) (fun g => let q := vadd (tget G g) (nth k kpts vzero) in dot q q / 2)).
    unfold n. rewrite LocProofs.map_nth_seq. apply Permutation.Permutation_refl. }
  assert (L' : spectrum n (pwm ns p T V) lam) by (eapply spectrum_ext; [|exact L]; intros; apply (basis_pwm xcd mask pos ch dens G kpts vol xt ks n1 n2 n3 v M k); assumption).
  assert (Q : forall x, let E := sumR (seq 0 n) (fun i => T i * Cnorm2 (x i)) in E + lo * EigProofs.norm2 n x <= Re (quad n (pwm ns p T V) x) <= E + hi * EigProofs.norm2 n x).
  { intros x. apply pwm_diag; [| |exact Npos|exact Hb].
    - intros j Hj. apply (pos_true mask n1 n2 n3 Sm j Hj).
    - intros a b Ha' Hb'. apply (pos_inj mask); assumption. }
  split.
  - pose proof (weyl n _ _ t lam (- lo) D L') as W. specialize (W ltac:(intros x; rewrite diag_quad; pose proof (Q x) as Q'; cbv zeta in Q'; lra) i Hi). lra.
  - apply (weyl n _ _ lam t hi L' D); [|exact Hi]. intros x. rewrite diag_quad. pose proof (Q x) as Q'. cbv zeta in Q'. lra.
Qed.

Lemma bands_reversed A xcd mask pos ch dens G kpts kpts' vol xt ks n1 n2 n3 v M M' k k' lam lam' : let ns := [n1; n2; n3] in
  let n := length (mask_positions mask) in
  g_vectors A ns = Ok G -> tshape mask = ns -> (forall g, inb g ns -> tget mask g = true -> ~ unpaired ns g /\ tget mask (neg_index ns g) = true) ->
  0 < vol -> (k < length kpts)%nat -> (k' < length kpts')%nat -> nth k' kpts' vzero = vneg (nth k kpts vzero) ->
  effective_sum xcd dens pos ch G vol xt ks = Ok v -> tshape v = 1%nat :: ns ->
  hamiltonian_matrix_basis xcd mask pos ch dens G kpts vol xt ks = Ok M -> hamiltonian_matrix_basis xcd mask pos ch dens G kpts' vol xt ks = Ok M' ->
  spectrum n (matrix_at M [k]) lam -> spectrum n (matrix_at M' [k']) lam' -> forall i, (i < n)%nat -> lam i = lam' i.
Proof.
  intros ns n Hgv Sm Hneg Hvol Hk Hk' Hkk Hv Sv HM HM' L L'. set (p := fun i => nth i (mask_positions mask) []).
  assert (SG : tshape G = ns) by (unfold g_vectors in Hgv; exact (proj1 (vector_grid_get _ _ _ _ _ _ Hgv))).
  set (s := fun i => match find_index (neg_index ns (p i)) (mask_positions mask) with Some j => j | None => 0%nat end).
  assert (Es : forall i, (i < n)%nat -> (s i < n)%nat /\ p (s i) = neg_index ns (p i) /\ inb (p i) ns /\ ~ unpaired ns (p i)).
  { intros i Hi. destruct (pos_true mask n1 n2 n3 Sm i Hi) as [Hb Ht]. destruct (Hneg _ Hb Ht) as [Hu Hn].
    destruct (pos_find mask n1 n2 n3 Sm (neg_index ns (p i)) (neg_index_inb _ _ Hb) Hn) as (j & Hj & Ej).
    unfold s. rewrite <- Ej, find_index_nth; [auto|apply mask_positions_NoDup|exact Hj]. }
  assert (Inj : forall i j, (i < n)%nat -> (j < n)%nat -> s i = s j -> i = j).
  { intros i j Hi Hj E. destruct (Es i Hi) as (_ & Ei & Bi & _). destruct (Es j Hj) as (_ & Ej & Bj & _). apply (pos_inj mask i j Hi Hj). fold (p i) (p j).
    rewrite <- (neg_index_inv ns (p i) Bi), <- (neg_index_inv ns (p j) Bj), <- Ei, <- Ej, E. reflexivity. }
  apply (spectrum_unique n (matrix_at M' [k'])); [|exact L'].
  apply (spectrum_conj_perm n (matrix_at M [k]) (matrix_at M' [k']) s); try assumption; [intros i Hi; apply Es; exact Hi|].
  intros i j Hi Hj. destruct (Es i Hi) as (Hi' & Ei & Bi & Ui). destruct (Es j Hj) as (Hj' & Ej & Bj & Uj).
  rewrite (basis_pwm xcd mask pos ch dens G kpts vol xt ks n1 n2 n3 v M k) by assumption.
  rewrite (basis_pwm xcd mask pos ch dens G kpts' vol xt ks n1 n2 n3 v M' k') by assumption.
  rewrite pwm_conj. unfold pwm. cbv beta zeta. fold (p i) (p j) (p (s i)) (p (s j)). rewrite Ei, Ej. f_equal.
  - change ns with [n1; n2; n3]. rewrite (g_neg' A n1 n2 n3 G (p i)) by assumption. rewrite Hkk.
    assert (Eq : (s i =? s j)%nat = (i =? j)%nat).
    { destruct (Nat.eqb_spec i j) as [->|E]; [apply Nat.eqb_refl|]. apply Nat.eqb_neq. intros E'. apply E, Inj; assumption. }
    rewrite Eq. destruct (i =? j)%nat; [|reflexivity]. f_equal. destruct (tget G (p i)) as [a b c], (nth k kpts vzero) as [a' b' c']. unfold dot, vadd, vneg. cbn. field.
  - f_equal. apply sumC_ext. intros x Hx. apply in_indices in Hx. f_equal.
    assert (Ln : length (zs (neg_index ns (p i))) = length (zs (neg_index ns (p j)))) by (unfold zs; rewrite !map_length, (inb_length _ _ (neg_index_inb _ _ Bi)), (inb_length _ _ (neg_index_inb _ _ Bj)); reflexivity).
    assert (Lp : length (zs (p i)) = length (zs (p j))) by (unfold zs; rewrite !map_length, (inb_length _ _ Bi), (inb_length _ _ Bj); reflexivity).
    change [n1; n2; n3] with ns. rewrite !phase_sub_l by assumption.
    assert (Z : forall g, inb g ns -> cis (2 * PI * phase ns (zs (neg_index ns g)) (zs x))%R = cis (- (2 * PI * phase ns (zs g) (zs x)))%R).
    { intros g Hg. rewrite (cis_phase_congr ns (zs (neg_index ns g)) (zopp (zs g))).
      - rewrite phase_opp_l. f_equal. ring.
      - apply (inb_pos _ _ Hg).
      - apply congr_neg. exact Hg.
      - unfold zs. rewrite map_length. apply inb_length. exact Hx. }
    transitivity (cis (2 * PI * phase ns (zs (neg_index ns (p i))) (zs x))%R * Cconj (cis (2 * PI * phase ns (zs (neg_index ns (p j))) (zs x))%R))%C.
    + rewrite !Z by assumption. rewrite cis_conj, <- cis_plus. f_equal. ring.
    + rewrite cis_conj, <- cis_plus. f_equal. ring.
Qed.

Lemma pwm_hermitian ns p T V n : (forall i, (i < n)%nat -> inb (p i) ns) -> hermitian n (pwm ns p T V).
Proof.
  intros Hp i j Hi Hj. rewrite pwm_conj. unfold pwm. f_equal.
  - rewrite (Nat.eqb_sym j i). destruct (Nat.eqb_spec i j) as [->|]; reflexivity.
  - f_equal. apply sumC_ext. intros x _. f_equal. f_equal. rewrite !phase_sub_l; [ring|..]; unfold zs; rewrite !map_length, (inb_length _ _ (Hp i Hi)), (inb_length _ _ (Hp j Hj)); reflexivity.
Qed.
(** The matrix and its eigenvalues exist. *)
Lemma basis_spectrum xcd mask pos ch dens G kpts vol xt ks n1 n2 n3 v k : let ns := [n1; n2; n3] in let n := length (mask_positions mask) in
  tshape mask = ns -> tshape G = ns -> effective_sum xcd dens pos ch G vol xt ks = Ok v -> tshape v = 1%nat :: ns -> 0 < vol -> (k < length kpts)%nat ->
  exists M lam, hamiltonian_matrix_basis xcd mask pos ch dens G kpts vol xt ks = Ok M /\ spectrum n (matrix_at M [k]) lam.
Proof.
  intros ns n Sm SG Hv Sv Hvol Hk. destruct (basis_one xcd mask pos ch dens G kpts vol xt ks n1 n2 n3 v Sm SG Hv Sv Hvol) as (M & HM & _).
  set (p := fun i => nth i (mask_positions mask) []). set (T := fun i => let q := vadd (tget G (p i)) (nth k kpts vzero) in dot q q / 2).
  destruct (spectrum_exists n (pwm ns p T (fun x => Re (tget v (0%nat :: x))))) as [lam L].
  - apply pwm_hermitian. intros i Hi. exact (proj1 (pos_true mask n1 n2 n3 Sm i Hi)).
  - exists M, lam. split; [exact HM|]. eapply spectrum_ext; [|exact L]. intros i j Hi Hj. symmetry. apply (basis_pwm xcd mask pos ch dens G kpts vol xt ks n1 n2 n3 v M k); assumption.
Qed.

Lemma cutoff_bands A E1 E2 xcd m1 m2 pos ch dens G kpts vol xt ks n1 n2 n3 v M1 M2 k lam1 lam2 : let ns := [n1; n2; n3] in
  let N1 := length (mask_positions m1) in let N2 := length (mask_positions m2) in
  E1 <= E2 -> spherical_mask A ns E1 = Ok m1 -> spherical_mask A ns E2 = Ok m2 -> g_vectors A ns = Ok G -> 0 < vol ->
  effective_sum xcd dens pos ch G vol xt ks = Ok v -> tshape v = 1%nat :: ns -> (k < length kpts)%nat ->
  hamiltonian_matrix_basis xcd m1 pos ch dens G kpts vol xt ks = Ok M1 -> hamiltonian_matrix_basis xcd m2 pos ch dens G kpts vol xt ks = Ok M2 ->
  spectrum N1 (matrix_at M1 [k]) lam1 -> spectrum N2 (matrix_at M2 [k]) lam2 ->
  (N1 <= N2)%nat /\ forall i, (i < N1)%nat -> lam2 i <= lam1 i <= lam2 (N2 - N1 + i)%nat.
Proof.
  intros ns N1 N2 HE H1 H2 Hg Hvol Hv Sv Hk HM1 HM2 L1 L2.
  destruct (spherical_mask_spec _ _ _ _ H1) as (_ & _ & S1 & _). destruct (spherical_mask_spec _ _ _ _ H2) as (_ & _ & S2 & _).
  assert (SG : tshape G = ns) by (unfold g_vectors in Hg; exact (proj1 (vector_grid_get _ _ _ _ _ _ Hg))).
  apply (bigger_basis xcd m1 m2 pos ch dens G kpts vol xt ks n1 n2 n3 v M1 M2 k); try assumption.
  intros g _ Hm. exact (spherical_mask_mono A ns E1 E2 m1 m2 HE H1 H2 g Hm).
Qed.
Lemma potential_close xcd xcd' mask pos pos' ch ch' dens dens' G kpts vol vol' xt xt' ks ks' n1 n2 n3 v v' M M' k lam lam' d : let ns := [n1; n2; n3] in
  let n := length (mask_positions mask) in
  tshape mask = ns -> tshape G = ns -> 0 < vol -> 0 < vol' -> (k < length kpts)%nat ->
  effective_sum xcd dens pos ch G vol xt ks = Ok v -> tshape v = 1%nat :: ns -> effective_sum xcd' dens' pos' ch' G vol' xt' ks' = Ok v' -> tshape v' = 1%nat :: ns ->
  (forall x, inb x ns -> Rabs (Re (tget v (0%nat :: x)) - Re (tget v' (0%nat :: x))) <= d) ->
  hamiltonian_matrix_basis xcd mask pos ch dens G kpts vol xt ks = Ok M -> hamiltonian_matrix_basis xcd' mask pos' ch' dens' G kpts vol' xt' ks' = Ok M' ->
  spectrum n (matrix_at M [k]) lam -> spectrum n (matrix_at M' [k]) lam' -> forall i, (i < n)%nat -> Rabs (lam i - lam' i) <= d.
Proof.
  intros ns n Sm SG Hvol Hvol' Hk Hv Sv Hv' Sv' Hd HM HM' L L' i Hi. apply Rabs_le.
  assert (lam i <= lam' i + d).
  { apply (potential_shift xcd xcd' mask pos pos' ch ch' dens dens' G kpts vol vol' xt xt' ks ks' n1 n2 n3 v v' M M' k); try assumption.
    intros x Hx. specialize (Hd x Hx). apply Rabs_le_between in Hd. lra. }
  assert (lam' i <= lam i + d).
  { apply (potential_shift xcd' xcd mask pos' pos ch' ch dens' dens G kpts vol' vol xt' xt ks' ks n1 n2 n3 v' v M' M k); try assumption.
    intros x Hx. specialize (Hd x Hx). apply Rabs_le_between in Hd. lra. }
  lra.
Qed.
Lemma bands_reversed_odd A E xcd mask pos ch dens G kpts kpts' vol xt ks n1 n2 n3 v M M' k k' lam lam' : let ns := [n1; n2; n3] in
  let n := length (mask_positions mask) in
  Nat.odd n1 = true -> Nat.odd n2 = true -> Nat.odd n3 = true -> g_vectors A ns = Ok G -> spherical_mask A ns E = Ok mask ->
  0 < vol -> (k < length kpts)%nat -> (k' < length kpts')%nat -> nth k' kpts' vzero = vneg (nth k kpts vzero) ->
  effective_sum xcd dens pos ch G vol xt ks = Ok v -> tshape v = 1%nat :: ns ->
  hamiltonian_matrix_basis xcd mask pos ch dens G kpts vol xt ks = Ok M -> hamiltonian_matrix_basis xcd mask pos ch dens G kpts' vol xt ks = Ok M' ->
  spectrum n (matrix_at M [k]) lam -> spectrum n (matrix_at M' [k']) lam' -> forall i, (i < n)%nat -> lam i = lam' i.
Proof.
  intros ns n O1 O2 O3 Hg Hm Hvol Hk Hk' Hkk Hv Sv HM HM' L L'. destruct (spherical_mask_spec _ _ _ _ Hm) as (G' & Hg' & Sm & Sp). fold ns in Hg'. rewrite Hg in Hg'. injection Hg' as <-.
  apply (bands_reversed A xcd mask pos ch dens G kpts kpts' vol xt ks n1 n2 n3 v M M' k k'); try assumption.
  intros g Hb Ht. assert (U : ~ unpaired ns g) by (apply odd_paired; repeat constructor; assumption). split; [exact U|].
  apply Sp. apply Sp in Ht. unfold ns. rewrite (g_neg' A n1 n2 n3 G g) by assumption.
  replace (Lin3.norm2 (vneg (tget G g))) with (Lin3.norm2 (tget G g)); [exact Ht|]. destruct (tget G g). unfold Lin3.norm2, dot, vneg. cbn. ring.
Qed.

Lemma sorted_energies {X} (e : X -> R) (l : list X) : exists t, ascending (length l) t /\ Permutation.Permutation (map t (seq 0 (length l))) (map e l).
Proof.
  destruct l as [|x0 l0]; [exists (fun _ => 0); split; [intros i j _ Hj; cbn in Hj; lia|apply Permutation.Permutation_refl]|].
  set (l := x0 :: l0). set (n := length l). set (f := fun i => e (nth i l x0)). set (s := sort_by f (seq 0 n)).
  assert (P : Permutation.Permutation (seq 0 n) s) by apply sort_perm.
  assert (Ls : length s = n) by (rewrite <- (Permutation.Permutation_length P); apply seq_length).
  exists (fun i => f (nth i s 0%nat)). split.
  - intros i j Hij Hj. apply sorted_nth; [apply sort_sorted|exact Hij|lia].
  - rewrite <- (map_map (fun i => nth i s 0%nat) f). rewrite <- Ls, LocProofs.map_nth_seq.
    eapply Permutation.Permutation_trans; [apply Permutation.Permutation_map, Permutation.Permutation_sym, P|]. unfold f.
    rewrite <- (map_map (fun i => nth i l x0) e). unfold n. rewrite LocProofs.map_nth_seq. apply Permutation.Permutation_refl.
Qed.
