(** Proofs about the nonlocal pseudopotential operator: comparison with the textbook matrix, translations, angular sums. *)
From Coq Require Import List Arith ZArith Reals Bool Lra Lia Permutation Sorted.
From Coquelicot Require Import Complex.
From Verif Require Import Base Sums Tensor DFT GridModel GridProofs Lin3 VecModel VecProofs PwModel PwSpec PwProofs BraketModel BraketSpec BraketProofs EnergyModel EnergySpec EnergyProofs ExtProofs SbtModel LocModel LocProofs NlocModel NlocSpec NlocProofs NlocProofs2.
From Verif Require SphModel SphSpec SphProofs.
From Coq Require Import List.
Import ListNotations.
Local Open Scope C_scope.

Lemma spectral_columns eigh atoms : spectral_atoms eigh atoms -> columns eigh atoms.
Proof. apply Forall_impl. intros a H. apply H. Qed.

Section N.
Variable jn : Z -> R -> R.
Variable spline : list R -> list R -> R -> R.
Variable Y : Z -> Z -> R -> R -> C.
Variable eigh : list (list R) -> list R * list (list R).
Notation nlof := (nonlocal_of jn spline Y eigh).

(** *** agreement *)
Lemma diagonal_agrees atoms G kpts rs betas m c vol H : spectral_atoms eigh atoms -> Forall (fun a => ascending_diagonal (length (p_l a)) (p_D a)) atoms ->
  nlof atoms G kpts rs betas m c vol = Ok H -> forall s k b1 b2, tget H [s; k; b1; b2] = textbook (-1) Y atoms G kpts c vol s k b1 b2.
Proof.
  intros Hs Hd E s k b1 b2. destruct (nonlocal_formula jn spline Y eigh atoms G kpts rs betas m c vol H (spectral_columns _ _ Hs) E) as (sp & B & _ & _ & F). rewrite F. unfold formula, textbook. f_equal.
  apply sumC_ext. intros a Ha. unfold spectral_atoms in Hs. rewrite Forall_forall in Hs, Hd. specialize (Hs a Ha). destruct (Hd a Ha) as (D0 & D1 & D2).
  rewrite (diagonal_eigenvalues _ _ _ _ Hs D0 D2). apply sumC_ext. intros i Hi. apply in_seq in Hi.
  rewrite (sumC_single _ i); [|apply seq_NoDup|apply in_seq; lia|].
  - rewrite (nth_indep _ 0%R (mat (p_D a) 0 0)) by (rewrite map_length, seq_length; lia). rewrite (map_nth (fun i => mat (p_D a) i i)), seq_nth, Nat.add_0_l by lia. rewrite Rabs_right by (apply Rle_ge, D1; lia). reflexivity.
  - intros j Hj N. apply in_seq in Hj. rewrite D0 by (try lia; congruence). ring.
Qed.
Lemma scal_eq vol (x y : C) : vol <> 0%R -> (RtoC ((4 * PI) ^ 2 / vol) * x = RtoC ((4 * PI) ^ 2 / vol) * y <-> x = y).
Proof.
  intros Hv. split; [|intros ->; reflexivity]. intros H. assert (N : RtoC ((4 * PI) ^ 2 / vol) <> RtoC 0).
  { intros E. apply (f_equal Re) in E. unfold RtoC in E. cbn [Re fst] in E. assert (0 < (4 * PI) ^ 2)%R by (pose proof PI_RGT_0; apply pow_lt; lra). unfold Rdiv in E. apply Rmult_integral in E. destruct E as [E|E]; [lra|]. apply Rinv_neq_0_compat in Hv. contradiction. }
  replace x with (/ RtoC ((4 * PI) ^ 2 / vol) * (RtoC ((4 * PI) ^ 2 / vol) * x)) by (field; exact N). rewrite H. field. exact N.
Qed.
Lemma one_sum {A} (a : A) (f : A -> C) : sumC [a] f = f a.
Proof. unfold sumC. cbn [map fold_right]. ring. Qed.
Lemma one_value d b V1 : spectral 1 [[d]] V1 b -> V1 = [d].
Proof. intros H. rewrite (diagonal_eigenvalues 1 [[d]] V1 b H); [reflexivity| |]; intros; try lia. Qed.
Lemma negative_channel p l d b G kpts rs betas m c vol H : vol <> 0%R -> let a := mkProj p [l] [[d]] b in spectral_atoms eigh [a] -> nlof [a] G kpts rs betas m c vol = Ok H ->
  forall s k b1 b2, tget H [s; k; b1; b2] = textbook (-1) Y [a] G kpts c vol s k b1 b2 <-> (0 <= d)%R \/ overlap (-1) Y G kpts a c s k b1 b2 0 0 = RtoC 0.
Proof.
  intros Hv a Hs E s k b1 b2. destruct (nonlocal_formula jn spline Y eigh [a] G kpts rs betas m c vol H (spectral_columns _ _ Hs) E) as (sp & B & _ & _ & F). rewrite F. unfold formula, textbook. rewrite scal_eq by exact Hv.
  inversion Hs as [|a' l' Ha _]; subst a' l'. cbn [a p_l p_D length] in Ha. rewrite !one_sum. cbn [a p_l p_D length]. rewrite (one_value d _ _ Ha). cbn [seq]. rewrite !one_sum. unfold mat. cbn [nth]. fold a.
  set (o := overlap (-1) Y G kpts a c s k b1 b2 0 0).
  split.
  - intros Q. destruct (Rle_dec 0 d) as [L|L]; [left; exact L|right]. rewrite Rabs_left in Q by lra.
    assert (Q' : RtoC (2 * d) * o = RtoC 0).
    { replace (RtoC (2 * d)) with (RtoC d - RtoC (- d)) by (rewrite <- RtoC_minus; f_equal; ring). transitivity (RtoC d * o - RtoC (- d) * o); [ring|].
      rewrite <- Q. ring. }
    assert (N : RtoC (2 * d) <> RtoC 0) by (intros X; apply (f_equal Re) in X; unfold RtoC in X; cbn [Re fst] in X; lra).
    replace o with (/ RtoC (2 * d) * (RtoC (2 * d) * o)) by (field; exact N). rewrite Q'. ring.
  - intros [L| ->]; [rewrite Rabs_right by lra|]; ring.
Qed.
Lemma two_sum (f : nat -> C) : sumC (seq 0 2) f = f 0%nat + f 1%nat.
Proof. unfold sumC. cbn [seq map fold_right]. ring. Qed.
Lemma two_sumR (f : nat -> R) : sumR (seq 0 2) f = (f 0%nat + f 1%nat)%R.
Proof. unfold sumR. cbn [seq map fold_right]. ring. Qed.
(** two projectors whose diagonal D is not ascending *)
Lemma two_values d0 d1 lam V : (d1 < d0)%R -> spectral 2 [[d0; 0%R]; [0%R; d1]] lam V -> lam = [d1; d0].
Proof.
  intros L H. apply sorted_unique; [apply H|repeat constructor; lra|].
  apply (perm_trans (same_counts 2 _ lam V H ltac:(intros [|[|i]] [|[|j]] Hi Hj N; cbn; try lia; try reflexivity))). cbn. apply perm_swap.
Qed.
Lemma descending_order p l0 l1 d0 d1 b G kpts rs betas m c vol H : vol <> 0%R -> (0 <= d1 < d0)%R -> let a := mkProj p [l0; l1] [[d0; 0%R]; [0%R; d1]] b in spectral_atoms eigh [a] ->
  nlof [a] G kpts rs betas m c vol = Ok H ->
  forall s k b1 b2, tget H [s; k; b1; b2] = textbook (-1) Y [a] G kpts c vol s k b1 b2 <-> overlap (-1) Y G kpts a c s k b1 b2 0 0 = overlap (-1) Y G kpts a c s k b1 b2 1 1.
Proof.
  intros Hv L a Hs E s k b1 b2. destruct (nonlocal_formula jn spline Y eigh [a] G kpts rs betas m c vol H (spectral_columns _ _ Hs) E) as (sp & B & _ & _ & F). rewrite F. unfold formula, textbook. rewrite scal_eq by exact Hv.
  inversion Hs as [|a' l' Ha _]; subst a' l'. cbn [a p_l p_D length] in Ha. rewrite !one_sum. cbn [a p_l p_D length]. rewrite (two_values d0 d1 _ _ (proj2 L) Ha). fold a. rewrite !two_sum. cbn [nth mat]. unfold mat. cbn [nth].
  set (o0 := overlap _ _ _ _ _ _ _ _ _ _ 0 0). set (o1 := overlap _ _ _ _ _ _ _ _ _ _ 1 1). rewrite !Rabs_right by lra. split.
  - intros Q. assert (Q' : RtoC (d0 - d1) * (o0 - o1) = RtoC 0).
    { rewrite RtoC_minus. transitivity ((RtoC d0 * o0 + RtoC d1 * o1) - (RtoC d1 * o0 + RtoC d0 * o1)); [ring|]. rewrite Q. ring. }
    assert (N : RtoC (d0 - d1) <> RtoC 0) by (intros X; apply (f_equal Re) in X; unfold RtoC in X; cbn [Re fst] in X; lra).
    replace o0 with (/ RtoC (d0 - d1) * (RtoC (d0 - d1) * (o0 - o1)) + o1) by (field; exact N). rewrite Q'. ring.
  - intros ->. ring.
Qed.
(** two coupled projectors *)
Lemma coupled_values d lam V : spectral 2 [[0%R; d]; [d; 0%R]] lam V -> forall j, (j < 2)%nat -> Rabs (nth j lam 0%R) = Rabs d.
Proof.
  intros (Hl & Hs & Hc & Hr & HD) j Hj. set (D := [[0%R; d]; [d; 0%R]]) in *.
  assert (K : forall i, (i < 2)%nat -> (mat V i j * nth j lam 0 = mat D i 0 * mat V 0 j + mat D i 1 * mat V 1 j)%R).
  { intros i Hi. rewrite <- (two_sumR (fun i' => mat D i i' * mat V i' j)%R).
    rewrite (sumR_ext _ _ (fun i' => sumR (seq 0 2) (fun j' => mat V i j' * nth j' lam 0 * (mat V i' j' * mat V i' j))%R)).
    - rewrite sumR_swap. rewrite (sumR_ext _ _ (fun j' => mat V i j' * nth j' lam 0 * (if (j' =? j)%nat then 1 else 0))%R).
      + rewrite (sumR_single _ j); [|apply seq_NoDup|apply in_seq; lia|]; [rewrite Nat.eqb_refl; ring|]. intros j' _ N. apply Nat.eqb_neq in N. rewrite N. ring.
      + intros j' Hj'. apply in_seq in Hj'. rewrite sumR_scal. f_equal. apply Hc; lia.
    - intros i' Hi'. apply in_seq in Hi'. rewrite (HD i i') by lia. rewrite <- sumR_scal_r. apply sumR_ext. intros; ring. }
  pose proof (K 0%nat ltac:(lia)) as K0. pose proof (K 1%nat ltac:(lia)) as K1. pose proof (Hc j j Hj Hj) as N. rewrite Nat.eqb_refl, two_sumR in N.
  unfold D in K0, K1. unfold mat at 2 4 in K0. unfold mat at 2 4 in K1. cbn [nth] in K0, K1. set (x := nth j lam 0%R) in *. set (u := mat V 0 j) in *. set (w := mat V 1 j) in *.
  assert (S2 : (x * x = d * d)%R) by (transitivity ((u * x) * (u * x) + (w * x) * (w * x))%R; [transitivity (x * x * (u * u + w * w))%R; [rewrite N; ring|ring]|]; rewrite K0, K1; transitivity (d * d * (u * u + w * w))%R; [ring|rewrite N; ring]). rewrite <- sqrt_Rsqr_abs, <- (sqrt_Rsqr_abs d). f_equal. exact S2.
Qed.
Lemma coupled_channels p l0 l1 d b G kpts rs betas m c vol H : vol <> 0%R -> (0 < d)%R -> let a := mkProj p [l0; l1] [[0%R; d]; [d; 0%R]] b in spectral_atoms eigh [a] ->
  nlof [a] G kpts rs betas m c vol = Ok H ->
  forall s k b1 b2, let o := overlap (-1) Y G kpts a c s k b1 b2 in tget H [s; k; b1; b2] = textbook (-1) Y [a] G kpts c vol s k b1 b2 <-> o 0%nat 0%nat + o 1%nat 1%nat = o 0%nat 1%nat + o 1%nat 0%nat.
Proof.
  intros Hv L a Hs E s k b1 b2 o. destruct (nonlocal_formula jn spline Y eigh [a] G kpts rs betas m c vol H (spectral_columns _ _ Hs) E) as (sp & B & _ & _ & F). rewrite F. unfold formula, textbook. rewrite scal_eq by exact Hv.
  inversion Hs as [|a' l' Ha _]; subst a' l'. cbn [a p_l p_D length] in Ha. rewrite !one_sum. cbn [a p_l p_D length]. rewrite !two_sum. rewrite !(coupled_values d _ _ Ha) by lia. unfold mat. cbn [nth]. fold a. fold o.
  rewrite Rabs_right by lra. assert (N : RtoC d <> RtoC 0) by (intros X; apply (f_equal Re) in X; unfold RtoC in X; cbn [Re fst] in X; lra). split.
  - intros Q. transitivity (/ RtoC d * (RtoC d * o 0%nat 0%nat + RtoC d * o 1%nat 1%nat)); [field; exact N|]. rewrite Q. field. exact N.
  - intros Q. rewrite <- Cmult_plus_distr_l, Q. ring.
Qed.

(** *** translations *)
Lemma projection_moved G kpts a c t b0 b2 k j m : projection (-1) Y G kpts (p_moved a t) c [b0; k; b2] k j m = projection (-1) Y G kpts a (orbitals_moved G kpts c t) [b0; k; b2] k j m.
Proof.
  unfold projection. apply sumC_ext. intros x _. cbn [p_moved p_pos p_beta p_l]. cbn zeta. cbn [orbitals_moved tget nth app skipn]. rewrite dot_add_r. set (q := vadd _ _).
  replace (-1 * (dot q (p_pos a) + dot q t))%R with (-1 * dot q (p_pos a) + - dot q t)%R by ring. rewrite cis_plus. ring.
Qed.
Lemma projection_textbook G kpts a c t b0 b2 k j m : projection 1 Y G kpts (p_moved a t) (orbitals_moved G kpts c t) [b0; k; b2] k j m = projection 1 Y G kpts a c [b0; k; b2] k j m.
Proof.
  unfold projection. apply sumC_ext. intros x _. cbn [p_moved p_pos p_beta p_l]. cbn zeta. cbn [orbitals_moved tget nth app skipn]. rewrite dot_add_r. set (q := vadd _ _).
  transitivity (tget c (b0 :: k :: b2 :: x) * (RtoC (tget (p_beta a) (k :: j :: x)) * harmonic Y (nth j (p_l a) 0%nat) q m * (cis (- dot q t) * cis (1 * (dot q (p_pos a) + dot q t))))); [ring|].
  rewrite <- cis_plus. replace (- dot q t + 1 * (dot q (p_pos a) + dot q t))%R with (1 * dot q (p_pos a))%R by ring. reflexivity.
Qed.
Lemma textbook_translation atoms G kpts c t vol s k b1 b2 : textbook 1 Y (map (fun a => p_moved a t) atoms) G kpts (orbitals_moved G kpts c t) vol s k b1 b2 = textbook 1 Y atoms G kpts c vol s k b1 b2.
Proof.
  unfold textbook. f_equal. rewrite sumC_map. apply sumC_ext. intros a _. cbn [p_moved p_l p_D]. apply sumC_ext. intros i _. apply sumC_ext. intros j _. f_equal. unfold overlap. cbn [p_l p_moved]. apply sumC_ext. intros m _. rewrite !projection_textbook. reflexivity.
Qed.
Lemma formula_ext atoms atoms' G kpts c c' vol s k b1 b2 (R : proj_atom -> proj_atom -> Prop) : Forall2 R atoms atoms' ->
  (forall a a', R a a' -> p_l a = p_l a' /\ p_D a = p_D a' /\ forall j, overlap (-1) Y G kpts a c s k b1 b2 j j = overlap (-1) Y G kpts a' c' s k b1 b2 j j) ->
  formula Y eigh atoms G kpts c vol s k b1 b2 = formula Y eigh atoms' G kpts c' vol s k b1 b2.
Proof.
  intros F HR. unfold formula. f_equal. induction F as [|a a' l l' Ha F IH]; [reflexivity|].
  change (sumC (a :: l) ?g) with (g a + sumC l g). change (sumC (a' :: l') ?g) with (g a' + sumC l' g). cbv beta. rewrite IH. f_equal. destruct (HR a a' Ha) as (E1 & E2 & E3). rewrite E1, E2. apply sumC_ext. intros j _. rewrite E3. reflexivity.
Qed.
Lemma moved_fits G kpts a t : fits G kpts (p_moved a t) <-> fits G kpts a.
Proof. reflexivity. Qed.
Lemma moved_call atoms ts G kpts rs betas m c vol H : length ts = length atoms -> nlof atoms G kpts rs betas m c vol = Ok H ->
  exists H', nlof (map (fun p => p_moved (fst p) (snd p)) (combine atoms ts)) G kpts rs betas m c vol = Ok H'.
Proof.
  intros Hl E. apply nonlocal_returns. destruct (proj1 (nonlocal_returns jn spline Y eigh atoms G kpts rs betas m c vol) (ex_intro _ H E)) as (H1 & H2 & H3 & H4 & H5 & H6).
  assert (L : map p_l (map (fun p => p_moved (fst p) (snd p)) (combine atoms ts)) = map p_l atoms).
  { rewrite map_map. cbn [p_moved p_l]. clear -Hl. revert ts Hl. induction atoms as [|a l IH]; intros [|t ts] Hl; try discriminate; [reflexivity|]. cbn [combine map]. f_equal. apply IH. injection Hl as Hl. exact Hl. }
  rewrite map_length, combine_length, Hl, Nat.min_id, L. repeat (split; [assumption|]). split; [|split; assumption].
  apply Forall_map, Forall_forall. intros [a t] Hin. apply in_combine_l in Hin. rewrite Forall_forall in H4. apply (H4 a Hin).
Qed.
Lemma columns_moved atoms ts : length ts = length atoms -> columns eigh atoms -> columns eigh (map (fun p => p_moved (fst p) (snd p)) (combine atoms ts)).
Proof. intros _ Hc. apply Forall_map, Forall_forall. intros [a t] Hin. apply in_combine_l in Hin. unfold columns in Hc. rewrite Forall_forall in Hc. apply (Hc a Hin). Qed.
Lemma moved_F2 atoms ts (Q : v3 -> Prop) : length ts = length atoms -> Forall Q ts -> Forall2 (fun a a' => exists t, Q t /\ a' = p_moved a t) atoms (map (fun p => p_moved (fst p) (snd p)) (combine atoms ts)).
Proof. revert ts. induction atoms as [|a l IH]; intros [|t ts] Hl HQ; try discriminate; [constructor|]. inversion HQ; subst. cbn [combine map]. constructor; [exists t; split; [assumption|reflexivity]|]. apply IH; [injection Hl as Hl; exact Hl|assumption]. Qed.
Lemma lattice_invariant A n1 n2 n3 atoms ts G kpts rs betas m c vol H : m3det A <> 0%R -> g_vectors A [n1; n2; n3] = Ok G -> columns eigh atoms -> length ts = length atoms -> Forall (in_lattice A) ts ->
  nlof atoms G kpts rs betas m c vol = Ok H ->
  exists H', nlof (map (fun p => p_moved (fst p) (snd p)) (combine atoms ts)) G kpts rs betas m c vol = Ok H' /\ tshape H' = tshape H /\ forall s k b1 b2, tget H' [s; k; b1; b2] = tget H [s; k; b1; b2].
Proof.
  intros HA HG Hc Hl HL E. destruct (moved_call atoms ts G kpts rs betas m c vol H Hl E) as (H' & E'). exists H'. split; [exact E'|].
  destruct (nonlocal_formula _ _ _ _ _ _ _ _ _ _ _ _ _ Hc E) as (sp & B & Sc & SH & F). destruct (nonlocal_formula _ _ _ _ _ _ _ _ _ _ _ _ _ (columns_moved _ _ Hl Hc) E') as (sp' & B' & Sc' & SH' & F').
  rewrite Sc in Sc'. injection Sc' as <- <-. split; [congruence|]. intros s k b1 b2. rewrite F, F'. symmetry.
  apply (formula_ext _ _ _ _ _ _ _ _ _ _ _ _ (moved_F2 atoms ts (in_lattice A) Hl HL)). intros a a' (t & Ht & ->). split; [reflexivity|]. split; [reflexivity|]. intros j.
  assert (P : forall b mm, projection (-1) Y G kpts (p_moved a t) c [s; k; b] k j mm = cis (- dot (nth k kpts vzero) t) * projection (-1) Y G kpts a c [s; k; b] k j mm).
  { intros b mm. unfold projection. rewrite <- sumC_scal. destruct (g_vectors_dual A n1 n2 n3 G HA HG) as (SG & _). apply sumC_ext. intros x Hx. apply in_indices in Hx. rewrite SG in Hx.
    cbn [p_moved p_pos p_beta p_l]. cbn zeta. rewrite dot_add_r. set (kk := nth k kpts vzero). rewrite (dot_add_l kk (tget G x) t). destruct (g_lattice A n1 n2 n3 G x t HA HG Hx Ht) as (z & ->).
    replace (-1 * (dot (vadd kk (tget G x)) (p_pos a) + (dot kk t + 2 * PI * IZR z)))%R with (-1 * dot (vadd kk (tget G x)) (p_pos a) + (- dot kk t + 2 * PI * IZR (- z)))%R by (rewrite opp_IZR; ring).
    rewrite !cis_plus, cis_2piZ. ring. }
  unfold overlap. cbn [p_moved p_l]. apply sumC_ext. intros mm _. rewrite !P, Cconj_mult. set (u := cis _). set (p1 := Cconj (projection _ _ _ _ _ _ _ _ _ _)). set (p2 := projection _ _ _ _ _ _ _ _ _ _).
  transitivity (Cconj u * u * (p1 * p2)); [unfold u; rewrite cis_unit; ring|ring].
Qed.
Lemma moved_is_orbitals_moved atoms t G kpts rs betas m c vol H : columns eigh atoms -> nlof atoms G kpts rs betas m (orbitals_moved G kpts c t) vol = Ok H ->
  exists H', nlof (map (fun a => p_moved a t) atoms) G kpts rs betas m c vol = Ok H' /\ tshape H' = tshape H /\ forall s k b1 b2, tget H' [s; k; b1; b2] = tget H [s; k; b1; b2].
Proof.
  intros Hc E. assert (E0 : exists H0, nlof atoms G kpts rs betas m c vol = Ok H0).
  { apply nonlocal_returns. apply (proj1 (nonlocal_returns jn spline Y eigh atoms G kpts rs betas m (orbitals_moved G kpts c t) vol)). exists H. exact E. }
  destruct E0 as (H0 & E0). pose (ts := map (fun _ : proj_atom => t) atoms). assert (Hl : length ts = length atoms) by apply map_length.
  assert (M : map (fun p => p_moved (fst p) (snd p)) (combine atoms ts) = map (fun a => p_moved a t) atoms).
  { unfold ts. clear. induction atoms as [|a l IH]; [reflexivity|]. cbn [map combine]. f_equal. exact IH. }
  destruct (moved_call atoms ts G kpts rs betas m c vol H0 Hl E0) as (H' & E'). pose proof (columns_moved atoms ts Hl Hc) as Hc'. pose proof (moved_F2 atoms ts (fun x => x = t) Hl) as F2. rewrite M in E', Hc', F2. exists H'. split; [exact E'|].
  destruct (nonlocal_formula _ _ _ _ _ _ _ _ _ _ _ _ _ Hc E) as (sp & B & Sc & SH & F). destruct (nonlocal_formula _ _ _ _ _ _ _ _ _ _ _ _ _ Hc' E') as (sp' & B' & Sc' & SH' & F').
  cbn [orbitals_moved tshape] in Sc. rewrite Sc in Sc'. injection Sc' as <- <-. split; [congruence|]. intros s k b1 b2. rewrite F, F'. symmetry.
  apply (formula_ext _ _ _ _ _ _ _ _ _ _ _ _ (F2 ltac:(apply Forall_forall; intros x Hx; apply in_map_iff in Hx; destruct Hx as (? & <- & _); reflexivity))).
  intros a a' (t' & -> & ->). split; [reflexivity|]. split; [reflexivity|]. intros j. unfold overlap. cbn [p_moved p_l]. apply sumC_ext. intros mm _. rewrite !projection_moved. reflexivity.
Qed.
Lemma projection_reflected G kpts a c b k j m : projection (-1) Y G kpts a c b k j m = projection 1 Y G kpts (reflected a) c b k j m.
Proof.
  unfold projection. apply sumC_ext. intros x _. cbn [reflected p_pos p_l p_beta]. cbn zeta. rewrite dot_neg_r. set (q := vadd _ _). replace (1 * - dot q (p_pos a))%R with (-1 * dot q (p_pos a))%R by ring. reflexivity.
Qed.
Lemma textbook_reflected atoms G kpts c vol s k b1 b2 : textbook (-1) Y atoms G kpts c vol s k b1 b2 = textbook 1 Y (map reflected atoms) G kpts c vol s k b1 b2.
Proof.
  unfold textbook. f_equal. rewrite sumC_map. apply sumC_ext. intros a _. cbn [reflected p_l p_D]. apply sumC_ext. intros i _. apply sumC_ext. intros j _. f_equal. unfold overlap. cbn [p_l reflected]. apply sumC_ext. intros m _. rewrite !projection_reflected. reflexivity.
Qed.

(** *** order of the atoms, sum over atoms *)
Lemma atoms_perm atoms atoms' G kpts rs betas m c vol H : columns eigh atoms -> nlof atoms G kpts rs betas m c vol = Ok H -> Permutation atoms atoms' ->
  exists H', nlof atoms' G kpts rs betas m c vol = Ok H' /\ tshape H' = tshape H /\ forall s k b1 b2, tget H' [s; k; b1; b2] = tget H [s; k; b1; b2].
Proof.
  intros Hc E P. assert (E' : exists H', nlof atoms' G kpts rs betas m c vol = Ok H').
  { apply nonlocal_returns. destruct (proj1 (nonlocal_returns jn spline Y eigh atoms G kpts rs betas m c vol) (ex_intro _ H E)) as (H1 & H2 & H3 & H4 & H5).
    rewrite <- (Permutation_length P). split; [exact H1|]. split; [exact H2|]. split; [|split; [rewrite <- P; exact H4|exact H5]].
    intros X. apply H3. apply Permutation_nil. rewrite <- X. rewrite <- !flat_map_concat_map. symmetry. apply Permutation_flat_map, P. }
  destruct E' as (H' & E'). assert (Hc' : columns eigh atoms') by (unfold columns; rewrite <- P; exact Hc). exists H'. split; [exact E'|].
  destruct (nonlocal_formula _ _ _ _ _ _ _ _ _ _ _ _ _ Hc E) as (sp & B & Sc & SH & F). destruct (nonlocal_formula _ _ _ _ _ _ _ _ _ _ _ _ _ Hc' E') as (sp' & B' & Sc' & SH' & F').
  rewrite Sc in Sc'. injection Sc' as <- <-. split; [congruence|]. intros s k b1 b2. rewrite F, F'. unfold formula. f_equal. apply sumC_perm. symmetry. exact P.
Qed.
Lemma atoms_app l1 l2 G kpts rs be1 be2 m c vol H1 H2 : columns eigh l1 -> columns eigh l2 -> nlof l1 G kpts rs be1 m c vol = Ok H1 -> nlof l2 G kpts rs be2 m c vol = Ok H2 ->
  exists H, nlof (l1 ++ l2) G kpts rs (be1 ++ be2) m c vol = Ok H /\ tshape H = tshape H1 /\ forall s k b1 b2, tget H [s; k; b1; b2] = tget H1 [s; k; b1; b2] + tget H2 [s; k; b1; b2].
Proof.
  intros C1 C2 E1 E2. assert (E : exists H, nlof (l1 ++ l2) G kpts rs (be1 ++ be2) m c vol = Ok H).
  { apply nonlocal_returns. destruct (proj1 (nonlocal_returns jn spline Y eigh l1 G kpts rs be1 m c vol) (ex_intro _ H1 E1)) as (A1 & A2 & A3 & A4 & A5).
    destruct (proj1 (nonlocal_returns jn spline Y eigh l2 G kpts rs be2 m c vol) (ex_intro _ H2 E2)) as (B1 & B2 & B3 & B4 & B5).
    rewrite !app_length, A1, B1. split; [reflexivity|]. split; [exact A2|]. split; [rewrite map_app, concat_app; intros X; apply app_eq_nil in X; tauto|]. split; [apply Forall_app; tauto|exact A5]. }
  destruct E as (H & E). exists H. split; [exact E|].
  destruct (nonlocal_formula _ _ _ _ _ _ _ _ _ _ _ _ _ C1 E1) as (sp & B & Sc & SH & F). destruct (nonlocal_formula _ _ _ _ _ _ _ _ _ _ _ _ _ C2 E2) as (sp' & B' & Sc' & SH' & F').
  destruct (nonlocal_formula _ _ _ _ _ _ _ _ _ _ _ _ _ (proj2 (Forall_app _ _ _) (conj C1 C2)) E) as (sq & B'' & Sc'' & SH'' & F'').
  rewrite Sc in Sc''. injection Sc'' as <- <-. split; [congruence|]. intros s k b1 b2. rewrite F, F', F''. unfold formula. rewrite sumC_app. ring.
Qed.

(** *** the sum over m *)
Lemma overlap_legendre G kpts a c s k b1 b2 j : let l := nth j (p_l a) 0%nat in SphSpec.conjugation_symmetry Y l -> SphSpec.addition_theorem Y l ->
  (l = 0%nat \/ forall x, inb x (tshape G) -> vadd (nth k kpts vzero) (tget G x) <> vzero \/ tget (p_beta a) (k :: j :: x) = 0%R) ->
  overlap (-1) Y G kpts a c s k b1 b2 j j = legendre_overlap (-1) G kpts a c s k b1 b2 j.
Proof.
  intros l Hs Ha Hz. unfold overlap, legendre_overlap, projection. fold l. cbn zeta. set (q x := vadd (nth k kpts vzero) (tget G x)).
  set (T b x := tget c ([s; k; b] ++ x) * (RtoC (tget (p_beta a) (k :: j :: x)) * cis (-1 * dot (q x) (p_pos a)))).
  transitivity (sumC (seq 0 (2 * l + 1)) (fun m => sumC (indices (tshape G)) (fun x => sumC (indices (tshape G)) (fun x' => Cconj (T b1 x) * T b2 x' * (Cconj (harmonic Y l (q x) m) * harmonic Y l (q x') m))))).
  { apply sumC_ext. intros m _. rewrite Cconj_sum, <- sumC_scal_r. apply sumC_ext. intros x _. rewrite <- sumC_scal. apply sumC_ext. intros x' _. unfold T, q. rewrite !Cconj_mult. ring. }
  rewrite sumC_swap. apply sumC_ext. intros x Hx. rewrite sumC_swap. apply sumC_ext. intros x' Hx'. apply in_indices in Hx, Hx'. rewrite sumC_scal.
  assert (Kz : (l = 0%nat \/ (q x <> vzero /\ q x' <> vzero)) \/ (T b1 x = RtoC 0 \/ T b2 x' = RtoC 0)).
  { destruct Hz as [Hz|Hz]; [left; left; exact Hz|]. destruct (Hz x Hx) as [N|Z]; [|right; left; unfold T; rewrite Z; ring]. destruct (Hz x' Hx') as [N'|Z]; [|right; right; unfold T; rewrite Z; ring]. left; right; split; assumption. }
  match goal with |- _ = ?r => change r with (Cconj (T b1 x) * T b2 x' * RtoC ((2 * INR l + 1) / (4 * PI) * SphSpec.legendre l (dot (q x) (q x') / (norm (q x) * norm (q x'))))) end.
  destruct Kz as [Kz|[-> | ->]]; [|rewrite Cconj_R; ring|ring]. f_equal. unfold harmonic, y_lm.
  set (u := (vx (q x), vy (q x), vz (q x))). set (u' := (vx (q x'), vy (q x'), vz (q x'))). rewrite SphProofs.padded_kernel by (try exact Hs; lia). rewrite Ha by apply SphProofs.polar_range.
  destruct Kz as [Kz|[N N']].
  - rewrite Kz. unfold SphSpec.legendre. cbn [SphSpec.legendre_pair fst]. reflexivity.
  - assert (O : forall v, v <> vzero -> (vx v, vy v, vz v) <> SphSpec.origin) by (intros v Hv X; apply Hv; unfold SphSpec.origin in X; destruct v; cbn in X; injection X as -> -> ->; reflexivity).
    assert (Nm : forall v, SphModel.norm3 (vx v, vy v, vz v) = norm v) by (intros v; unfold SphModel.norm3, norm, norm2, dot, SphModel.vx, SphModel.vy, SphModel.vz; cbn [fst snd]; f_equal; ring).
    rewrite SphProofs.unit_dot by (apply O; assumption). unfold SphProofs.cos_between. unfold u, u'. rewrite !Nm. unfold SphSpec.dot, SphModel.vx, SphModel.vy, SphModel.vz. cbn [fst snd]. reflexivity.
Qed.
Lemma nonlocal_legendre atoms G kpts rs betas m c vol H : columns eigh atoms ->
  (forall l, In l (concat (map p_l atoms)) -> SphSpec.conjugation_symmetry Y l /\ SphSpec.addition_theorem Y l) ->
  (forall a k j x, In a atoms -> (k < length kpts)%nat -> (j < length (p_l a))%nat -> inb x (tshape G) -> nth j (p_l a) 0%nat = 0%nat \/ vadd (nth k kpts vzero) (tget G x) <> vzero \/ tget (p_beta a) (k :: j :: x) = 0%R) ->
  nlof atoms G kpts rs betas m c vol = Ok H -> forall s k b1 b2, (k < length kpts)%nat ->
  tget H [s; k; b1; b2] = RtoC ((4 * PI) ^ 2 / vol) * sumC atoms (fun a => sumC (seq 0 (length (p_l a))) (fun j => RtoC (Rabs (nth j (fst (eigh (p_D a))) 0%R)) * legendre_overlap (-1) G kpts a c s k b1 b2 j)).
Proof.
  intros Hc HY Hz E s k b1 b2 Hk. destruct (nonlocal_formula _ _ _ _ _ _ _ _ _ _ _ _ _ Hc E) as (sp & B & _ & _ & F). rewrite F. unfold formula. f_equal. apply sumC_ext. intros a Ha. apply sumC_ext. intros j Hj. apply in_seq in Hj. f_equal.
  destruct (HY (nth j (p_l a) 0%nat)) as (Y1 & Y2); [apply in_concat; exists (p_l a); split; [apply in_map, Ha|apply nth_In; lia]|].
  apply overlap_legendre; [assumption|assumption|]. destruct (Nat.eq_dec (nth j (p_l a) 0%nat) 0) as [Z|Z]; [left; exact Z|right]. intros x Hx. destruct (Hz a k j x Ha Hk ltac:(lia) Hx) as [X|X]; [contradiction|exact X].
Qed.
End N.
