(** Instances of the nonlocal pseudopotential theorems, and counterexamples. *)
From Coq Require Import List Arith ZArith Reals Bool Lra Lia Permutation Sorted String.
From Coquelicot Require Import Complex.
From Verif Require Import Base Sums Tensor DFT GridModel GridProofs Lin3 VecModel VecProofs PwModel PwSpec PwProofs BraketModel BraketSpec BraketProofs EnergyModel EnergySpec EnergyProofs ExtProofs SbtModel LocModel LocProofs LocProofs2 NlocModel NlocSpec NlocProofs NlocProofs2 NlocProofs3 NlocProofs4 NlocProofs5.
From Verif Require SphModel SphSpec SphProofs.
From Coq Require Import List.
Import ListNotations.
Local Open Scope C_scope.

(** one projector on every atom, harmonics constant *)
Definition ex_Y : Z -> Z -> R -> R -> C := fun _ _ _ _ => RtoC 1.
Definition ex_eigh (D : list (list R)) : list R * list (list R) := ([mat D 0 0], [[1%R]]).
Definition ex_jn : Z -> R -> R := fun _ _ => 1%R.
Definition ex_spline : list R -> list R -> R -> R := fun _ _ g => (1 + g)%R.
Definition ex_pa (d : R) (p : v3) : proj_atom := mkProj p [0%nat] [[d]] (mkT [1; 1; 1; 1; 3]%nat (fun _ => 1%R)).
Definition ex_c : tensor C := mkT [1; 1; 1; 1; 1; 3]%nat (fun i => if (nth 5 i 0 =? 2)%nat then RtoC 0 else RtoC 1).
Definition ex_call eigh atoms G := nonlocal_of ex_jn ex_spline ex_Y eigh atoms G [vzero] [] (map (fun _ => []) atoms) NlSbt.

Lemma ex_spectral d p : spectral_atoms ex_eigh [ex_pa d p].
Proof.
  constructor; [|constructor]. cbn [ex_pa p_l p_D length ex_eigh fst snd mat nth]. split; [reflexivity|]. split; [repeat constructor|]. unfold orthogonal_columns, orthogonal_rows, mat, sumR.
  split; [|split]; intros i j Hi Hj; replace i with 0%nat by lia; replace j with 0%nat by lia; cbn; ring.
Qed.
Lemma ex_fits G d p : tshape G = [1; 1; 3]%nat -> fits G [vzero] (ex_pa d p).
Proof. intros SG. split; [reflexivity|]. split; [repeat constructor|]. rewrite SG. reflexivity. Qed.
Lemma ex_returns G atoms c : tshape G = [1; 1; 3]%nat -> tshape c = [1; 1; 1; 1; 1; 3]%nat -> atoms <> [] -> Forall (fun a => exists d p, a = ex_pa d p) atoms -> forall eigh vol, exists H, ex_call eigh atoms G c vol = Ok H.
Proof.
  intros SG Sc Ne F eigh vol. apply nonlocal_returns. split; [apply map_length|]. split; [discriminate|]. split; [|split; [|split]].
  - destruct F as [|a l (d & p & ->) F]; [contradiction|]. discriminate.
  - revert F. apply Forall_impl. intros a (d & p & ->). apply ex_fits, SG.
  - unfold ndim. rewrite SG. reflexivity.
  - exists 1%nat, 1%nat. rewrite SG. exact Sc.
Qed.
Lemma ex_projection G d p c sign : tshape G = [1; 1; 3]%nat -> projection sign ex_Y G [vzero] (ex_pa d p) c [0; 0; 0]%nat 0 0 0 =
  tget c [0; 0; 0; 0; 0; 0]%nat * cis (sign * dot (tget G [0; 0; 0]%nat) p) + tget c [0; 0; 0; 0; 0; 1]%nat * cis (sign * dot (tget G [0; 0; 1]%nat) p) + tget c [0; 0; 0; 0; 0; 2]%nat * cis (sign * dot (tget G [0; 0; 2]%nat) p).
Proof.
  intros SG. unfold projection. rewrite SG. cbn [indices seq flat_map map app]. unfold sumC. cbn [map fold_right nth ex_pa p_beta p_l p_pos tget app].
  assert (V0 : forall v, vadd vzero v = v) by (intros [x y z]; unfold vadd, vzero; cbn; f_equal; ring). rewrite !V0.
  assert (Hh : forall q, harmonic ex_Y 0 q 0 = RtoC 1) by reflexivity. rewrite !Hh. ring.
Qed.
Lemma ex_overlap G d p c sign : tshape G = [1; 1; 3]%nat -> let P := projection sign ex_Y G [vzero] (ex_pa d p) c [0; 0; 0]%nat 0 0 0 in overlap sign ex_Y G [vzero] (ex_pa d p) c 0 0 0 0 0 0 = Cconj P * P.
Proof. intros SG P. unfold overlap. cbn [ex_pa p_l nth Nat.mul Nat.add seq]. fold (ex_pa d p). rewrite one_sum. reflexivity. Qed.
Lemma ex_at_zero G d sign : tshape G = [1; 1; 3]%nat -> overlap sign ex_Y G [vzero] (ex_pa d vzero) ex_c 0 0 0 0 0 0 = RtoC 4.
Proof.
  intros SG. rewrite ex_overlap, ex_projection by exact SG. cbn [ex_c tget nth Nat.eqb].
  assert (D0 : forall v, dot v vzero = 0%R) by (intros [x y z]; unfold dot, vzero; cbn; ring). rewrite !D0, Rmult_0_r. unfold cis. rewrite cos_0, sin_0. unfold Cconj, Cmult, Cplus, RtoC. cbn [fst snd]. f_equal; ring.
Qed.
Lemma C4_nz (r : R) : r <> 0%R -> RtoC r <> RtoC 0.
Proof. intros H E. apply (f_equal Re) in E. unfold RtoC in E. cbn [Re fst] in E. contradiction. Qed.
Lemma scal_nz vol : vol <> 0%R -> ((4 * PI) ^ 2 / vol <> 0)%R.
Proof. intros Hv. pose proof PI_RGT_0 as HP. assert (0 < (4 * PI) ^ 2)%R by (apply pow_lt; lra). unfold Rdiv. apply Rmult_integral_contrapositive. split; [lra|apply Rinv_neq_0_compat, Hv]. Qed.

Lemma textbook_refuted G vol : tshape G = [1; 1; 3]%nat -> vol <> 0%R ->
  exists H, spectral_atoms ex_eigh [ex_pa (-1) vzero] /\ ex_call ex_eigh [ex_pa (-1) vzero] G ex_c vol = Ok H /\ tshape H = [1; 1; 1; 1]%nat /\
    tget H [0; 0; 0; 0]%nat <> textbook (-1) ex_Y [ex_pa (-1) vzero] G [vzero] ex_c vol 0 0 0 0.
Proof.
  intros SG Hv. destruct (ex_returns G [ex_pa (-1) vzero] ex_c SG eq_refl ltac:(discriminate) ltac:(repeat constructor; eexists; eexists; reflexivity) ex_eigh vol) as (H & E). exists H.
  split; [apply ex_spectral|]. split; [exact E|]. split.
  - destruct (nonlocal_formula _ _ _ _ _ _ _ _ _ _ _ _ _ (spectral_columns _ _ (ex_spectral (-1) vzero)) E) as (sp & B & Sc & SH & _). rewrite SG in Sc. cbn in Sc. injection Sc as <- <-. exact SH.
  - intros X. apply (negative_channel ex_jn ex_spline ex_Y ex_eigh vzero 0 (-1) _ G [vzero] _ _ _ ex_c vol H Hv (ex_spectral (-1) vzero) E) in X. destruct X as [X|X]; [lra|].
    change (overlap (-1) ex_Y G [vzero] (ex_pa (-1) vzero) ex_c 0 0 0 0 0 0 = RtoC 0) in X. rewrite ex_at_zero in X by exact SG. apply (C4_nz 4 ltac:(lra) X).
Qed.
Lemma ex_value d p G c vol H : tshape G = [1; 1; 3]%nat -> ex_call ex_eigh [ex_pa d p] G c vol = Ok H -> tget H [0; 0; 0; 0]%nat = RtoC ((4 * PI) ^ 2 / vol) * (RtoC (Rabs d) * overlap (-1) ex_Y G [vzero] (ex_pa d p) c 0 0 0 0 0 0).
Proof.
  intros SG E. destruct (nonlocal_formula _ _ _ _ _ _ _ _ _ _ _ _ _ (spectral_columns _ _ (ex_spectral d p)) E) as (sp & B & _ & _ & F). rewrite F. unfold formula. f_equal. rewrite one_sum. cbn [ex_pa p_l length seq]. rewrite one_sum. reflexivity.
Qed.
Lemma translation_refuted A G vol : m3det A <> 0%R -> g_vectors A [1; 1; 3]%nat = Ok G -> vol <> 0%R ->
  exists t H H', ex_call ex_eigh [ex_pa 1 vzero] G ex_c vol = Ok H /\ ex_call ex_eigh [p_moved (ex_pa 1 vzero) t] G (orbitals_moved G [vzero] ex_c t) vol = Ok H' /\
    tget H [0; 0; 0; 0]%nat <> RtoC 0 /\ tget H' [0; 0; 0; 0]%nat = RtoC 0.
Proof.
  intros HA HG Hv. destruct (g_vectors_dual A 1 1 3 G HA HG) as (SG & _ & _ & Hd).
  destruct (Hd 0%nat 0%nat 0%nat ltac:(lia) ltac:(lia) ltac:(lia)) as (_ & _ & D0). destruct (Hd 0%nat 0%nat 1%nat ltac:(lia) ltac:(lia) ltac:(lia)) as (_ & _ & D1).
  set (t := vscale (1 / 4) (m2 A)). exists t.
  destruct (ex_returns G [ex_pa 1 vzero] ex_c SG eq_refl ltac:(discriminate) ltac:(repeat constructor; eexists; eexists; reflexivity) ex_eigh vol) as (H & E).
  destruct (ex_returns G [p_moved (ex_pa 1 vzero) t] (orbitals_moved G [vzero] ex_c t) SG eq_refl ltac:(discriminate) ltac:(constructor; [exists 1%R, (vadd vzero t); reflexivity|constructor]) ex_eigh vol) as (H' & E').
  exists H, H'. split; [exact E|]. split; [exact E'|]. split.
  - rewrite (ex_value 1 vzero G ex_c vol H SG E), ex_at_zero by exact SG. rewrite <- !RtoC_mult. apply C4_nz. rewrite Rabs_R1. pose proof (scal_nz vol Hv). intros X. apply H0. lra.
  - rewrite (ex_value 1 (vadd vzero t) G _ vol H' SG E'), ex_overlap by exact SG. rewrite ex_projection by exact SG. cbn [orbitals_moved tget nth skipn ex_c Nat.eqb].
    assert (V0 : forall v, vadd vzero v = v) by (intros [x y z]; unfold vadd, vzero; cbn; f_equal; ring). rewrite !V0.
    assert (T0 : dot (tget G [0; 0; 0]%nat) t = 0%R) by (unfold t; rewrite dot_scale_r, D0; cbn; ring).
    assert (T1 : dot (tget G [0; 0; 1]%nat) t = (PI / 2)%R) by (unfold t; rewrite dot_scale_r, D1; cbn; field).
    rewrite T0, T1. replace (-1 * 0)%R with 0%R by ring. replace (- 0)%R with 0%R by ring. replace (-1 * (PI / 2))%R with (- (PI / 2))%R by ring.
    assert (X : RtoC 1 * cis 0 * cis 0 + RtoC 1 * cis (- (PI / 2)) * cis (- (PI / 2)) + RtoC 0 * cis (- dot (tget G [0%nat; 0%nat; 2%nat]) t) * cis (-1 * dot (tget G [0%nat; 0%nat; 2%nat]) t) = RtoC 0).
    { unfold cis at 1 2 3 4. rewrite cos_0, sin_0, cos_neg, sin_neg, cos_PI2, sin_PI2. unfold Cmult, Cplus, RtoC. cbn [fst snd]. f_equal; ring. }
    rewrite X. ring.
Qed.

(** harmonics for l = 0 and l = 1 *)
Definition s1 : R := sqrt (3 / (4 * PI)).
Definition Y01 (l m : Z) (p a : R) : C :=
  if (l =? 0)%Z then RtoC (sqrt (/ (4 * PI))) else
  if (m =? 0)%Z then RtoC (s1 * cos p) else if (0 <? m)%Z then RtoC (- (s1 / sqrt 2 * sin p)) * cis a else RtoC (s1 / sqrt 2 * sin p) * cis (- a).
Lemma Y01_symm l : (l <= 1)%nat -> SphSpec.conjugation_symmetry Y01 l.
Proof.
  intros Hl m p a Hm. assert (l = 0 \/ l = 1)%nat as [-> | ->] by lia.
  - assert (m = 0)%Z as -> by lia. cbn [Z.even]. unfold Y01. cbn. rewrite Cconj_R. ring.
  - assert (m = 0 \/ m = 1)%Z as [-> | ->] by lia; unfold Y01; cbn [Z.of_nat Z.eqb Z.opp Z.ltb Z.compare Z.even Pos.of_succ_nat].
    + rewrite Cconj_R. ring.
    + rewrite Cconj_mult, Cconj_R, cis_conj, !RtoC_opp. replace (-1)%R with (- (1))%R by ring. rewrite RtoC_opp. ring.
Qed.
Lemma Y01_addition l : (l <= 1)%nat -> SphSpec.addition_theorem Y01 l.
Proof.
  intros Hl. assert (l = 0 \/ l = 1)%nat as [-> | ->] by lia; [exact (proj2 SphProofs.addition_l0)|].
  intros p a p' a' _ _. pose proof PI_RGT_0 as HP. assert (S2 : (s1 * s1 = 3 / (4 * PI))%R) by (apply sqrt_sqrt; apply Rmult_le_pos; [lra|left; apply Rinv_0_lt_compat; lra]).
  assert (S3 : (s1 / sqrt 2 * (s1 / sqrt 2) = 3 / (4 * PI) / 2)%R) by (rewrite <- S2; assert (Q : (sqrt 2 * sqrt 2 = 2)%R) by (apply sqrt_sqrt; lra); assert (N : sqrt 2 <> 0%R) by (intros X; rewrite X in Q; lra); transitivity (s1 * s1 / (sqrt 2 * sqrt 2))%R; [field; exact N|rewrite Q; reflexivity]).
  change (SphModel.ms 1) with [(-1)%Z; 0%Z; 1%Z]. unfold sumC. cbn [map fold_right]. unfold Y01. cbn [Z.of_nat Pos.of_succ_nat Z.eqb Z.ltb Z.compare].
  unfold SphSpec.legendre. cbn [SphSpec.legendre_pair fst INR]. unfold SphSpec.dot, SphSpec.spherical_point, SphModel.vx, SphModel.vy, SphModel.vz. cbn [fst snd].
  set (h := (s1 / sqrt 2)%R) in *.
  transitivity (RtoC (s1 * s1) * RtoC (cos p * cos p') + RtoC (h * h) * RtoC (sin p * sin p') * (cis (- a) * Cconj (cis (- a')) + cis a * Cconj (cis a'))).
  { rewrite !Cconj_mult, !Cconj_R, !RtoC_opp, !RtoC_mult. ring. }
  rewrite !cis_conj, <- !cis_plus, S2, S3. unfold cis. replace (- a + - - a')%R with (- (a - a'))%R by ring. replace (a + - a')%R with (a - a')%R by ring. rewrite cos_neg, sin_neg, cos_minus, sin_minus.
  unfold Cmult, Cplus, RtoC. cbn [fst snd]. f_equal; field; lra.
Qed.
Definition ex_p (p : v3) : proj_atom := mkProj p [0%nat; 1%nat] [[1%R; 0%R]; [0%R; 2%R]] (mkT [1; 2; 1; 1; 1]%nat (fun _ => 1%R)).
Lemma ex_ascending p : ascending_diagonal 2 (p_D (ex_p p)).
Proof. split; [|split]; [intros [|[|i]] [|[|j]] Hi Hj N; cbn; try lia; reflexivity|intros [|[|i]] Hi; cbn; try lia; lra|intros [|i] Hi; cbn; try lia; lra]. Qed.
Definition id_eigh (D : list (list R)) : list R * list (list R) := ([mat D 0 0; mat D 1 1], [[1%R; 0%R]; [0%R; 1%R]]).
Lemma ex_p_spectral p : spectral_atoms id_eigh [ex_p p].
Proof.
  constructor; [|constructor]. cbn [ex_p p_l p_D length id_eigh fst snd mat nth]. split; [reflexivity|]. split; [repeat constructor; lra|]. unfold orthogonal_columns, orthogonal_rows, mat, sumR.
  split; [|split]; intros i j Hi Hj; assert (i = 0 \/ i = 1)%nat as [-> | ->] by lia; assert (j = 0 \/ j = 1)%nat as [-> | ->] by lia; cbn; ring.
Qed.
Definition one_G : tensor v3 := mkT [1; 1; 1]%nat (fun _ => vzero).
Lemma ex_p_returns p vol : exists H, nonlocal_of ex_jn ex_spline Y01 id_eigh [ex_p p] one_G [V3 1 0 0] [] [[]] NlSbt (mkT [1; 1; 1; 1; 1; 1]%nat (fun _ => RtoC 1)) vol = Ok H.
Proof.
  apply nonlocal_returns. split; [reflexivity|]. split; [discriminate|]. split; [discriminate|]. split; [|split; [reflexivity|exists 1%nat, 1%nat; reflexivity]].
  constructor; [|constructor]. split; [reflexivity|]. split; [repeat constructor|reflexivity].
Qed.
Lemma ex_p_nonzero : vadd (V3 1 0 0) (tget one_G [0; 0; 0]%nat) <> vzero.
Proof. intros X. apply (f_equal vx) in X. cbn in X. lra. Qed.
(** inputs of the full matrix *)
Definition ex_xcd : xcdens := fun _ _ _ _ => Ok (mkT [1; 1; 1; 1]%nat (fun _ => RtoC (-1))).
Lemma ex_inputs : nl_inputs (mkT [1; 1; 1; 1; 1; 1]%nat (fun _ => RtoC 1)) (mkT [1; 1; 1; 1]%nat (fun _ => 1%R)) (mkT [1; 1; 1]%nat (fun _ => RtoC 3)) (mkT [1; 2; 3; 1; 1; 1]%nat (fun _ => Ci)) one_G [V3 1 0 0] 1 1 1 2 3 1 1 1.
Proof.
  repeat (split; [reflexivity|]). intros x Hx Ho. destruct (inb3 _ _ _ _ Hx) as (i & j & k & -> & Hi & Hj & Hk). replace i with 0%nat in Ho by lia. replace j with 0%nat in Ho by lia. replace k with 0%nat in Ho by lia. discriminate.
Qed.
Definition ex_xcd2 : xcdens := fun _ _ _ _ => Ok (mkT [2; 1; 1; 1]%nat (fun i => RtoC (INR (hd 0%nat i)))).
Lemma ex_inputs_k (ks : list v3) : nl_inputs (mkT [2; length ks; 1; 1; 1; 1]%nat (fun _ => RtoC 1)) (mkT [2; 1; 1; 1]%nat (fun _ => 1%R)) (mkT [1; 1; 1]%nat (fun _ => RtoC 3)) (mkT [length ks; 2; 3; 1; 1; 1]%nat (fun _ => Ci)) one_G ks 2 2 1 2 3 1 1 1.
Proof.
  repeat (split; [reflexivity|]). intros x Hx Ho. destruct (inb3 _ _ _ _ Hx) as (i & j & k & -> & Hi & Hj & Hk). replace i with 0%nat in Ho by lia. replace j with 0%nat in Ho by lia. replace k with 0%nat in Ho by lia. discriminate.
Qed.
Lemma ex_beta_returns : exists t, beta_sbt_single_atom ex_jn ex_spline [0%R; 1%R; 2%R] [[5%R; 1%R; 1%R]; [0%R; 2%R; 1%R]] [0%Z; 1%Z] one_G (Some [V3 1 0 0]) = Ok t.
Proof.
  apply single_returns. split; [reflexivity|]. split; [repeat constructor|]. split; [unfold used_points; destruct (Req_EM_T 0 0); cbn; lia|]. exists 0%nat, [0; 0; 0]%nat. split; [cbn; lia|]. split; [repeat constructor|].
  cbn [ks_of nth one_G tget]. unfold norm, norm2, dot, vadd, vzero. cbn [vx vy vz]. replace ((1 + 0) * (1 + 0) + (0 + 0) * (0 + 0) + (0 + 0) * (0 + 0))%R with 1%R by ring. rewrite sqrt_1. lra.
Qed.
Lemma reflected_value jn spline Y eigh atoms G kpts rs betas m c vol H : spectral_atoms eigh atoms -> Forall (fun a => ascending_diagonal (length (p_l a)) (p_D a)) atoms ->
  nonlocal_of jn spline Y eigh atoms G kpts rs betas m c vol = Ok H -> forall s k b1 b2, tget H [s; k; b1; b2] = textbook 1 Y (map reflected atoms) G kpts c vol s k b1 b2.
Proof. intros S D E s k b1 b2. rewrite (diagonal_agrees jn spline Y eigh atoms G kpts rs betas m c vol H S D E). apply textbook_reflected. Qed.
