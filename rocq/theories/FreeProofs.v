(** Plane waves as orbitals: density, levels and energy (C154). *)
From Coq Require Import Reals Lra Lia.
From Coquelicot Require Import Coquelicot.
From Coq Require Import Ascii String List Arith ZArith Bool.
From Verif Require Import Base Sums Tensor DFT GridModel PadModel Lin3 VecModel VecProofs OccModel OccSpec OccProofs PwModel PwSpec PwProofs BraketModel XcModel XcSpec EnergyModel EnergySpec EnergyProofs HamModel HamSpec HamProofs2 XcProofs XcProofs3 TotalProofs DrvProofs2 SpinProofs DerProofs AttProofs2 FreeSpec.
Import ListNotations.
Local Open Scope R_scope.

Lemma Cnorm2_R r : Cnorm2 (RtoC r) = r * r.
Proof. unfold Cnorm2, RtoC. cbn. ring. Qed.
Lemma norm_unit u : Cmod u = 1 -> Cnorm2 u = 1.
Proof. intros H. unfold Cmod in H. apply (f_equal (fun x => x * x)) in H. rewrite sqrt_sqrt in H by (apply Rplus_le_le_0_compat; apply pow2_ge_0). unfold Cnorm2. destruct u as [a b]. cbn in *. lra. Qed.
Lemma conj_unit u : Cmod u = 1 -> (Cconj u * u)%C = RtoC 1.
Proof. intros H. rewrite Cconj_mult_self, norm_unit by exact H. reflexivity. Qed.

Section Waves.
Context (sp K B n1 n2 n3 : nat) (sel : nat -> nat -> nat -> list nat) (c : tensor C) (vol : R).
Let ns := [n1; n2; n3].
Context (Hc : plane_waves sp K B ns sel c) (Hv : 0 < vol).

Lemma psi_wave s k b x : (s < sp)%nat -> (k < K)%nat -> (b < B)%nat -> inb x ns -> exists u, Cmod u = 1 /\ psi ns vol c [s; k; b] x = (RtoC (/ sqrt vol) * u)%C.
Proof.
  intros Hs Hk Hb Hx. destruct Hc as (_ & H). destruct (H s k b Hs Hk Hb) as (Hi & u & Hu & Eu & Z). fold ns in Hi.
  exists (u * cis (2 * PI * phase ns (zs (sel s k b)) (zs x))%R)%C. split; [rewrite Cmod_mult, Hu; unfold Cmod, cis; cbn [fst snd]; replace (cos _ ^ 2 + sin _ ^ 2) with 1 by (rewrite <- (sin2_cos2 (2 * PI * phase ns (zs (sel s k b)) (zs x))); unfold Rsqr; ring); rewrite sqrt_1; ring|].
  unfold psi, idft. rewrite (sumC_single _ (sel s k b)); [|apply NoDup_indices|apply in_indices, Hi|].
  - rewrite Eu. rewrite Cmult_assoc, <- RtoC_mult. f_equal. f_equal.
    assert (HN : INR (nprod ns) <> 0) by (apply not_0_INR; pose proof (nprod_pos ns (inb_pos x ns Hx)); lia).
    assert (Hs0 : sqrt vol <> 0) by (apply Rgt_not_eq, sqrt_lt_R0, Hv). field. auto.
  - intros g Hg Ng. apply in_indices in Hg. rewrite (Z g Hg Ng). ring.
Qed.
Lemma psi_norm s k b x : (s < sp)%nat -> (k < K)%nat -> (b < B)%nat -> inb x ns -> Cnorm2 (psi ns vol c [s; k; b] x) = / vol.
Proof.
  intros Hs Hk Hb Hx. destruct (psi_wave s k b x Hs Hk Hb Hx) as (u & Hu & ->). rewrite Cnorm2_mult, Cnorm2_R, (norm_unit u Hu).
  assert (Hs0 : sqrt vol <> 0) by (apply Rgt_not_eq, sqrt_lt_R0, Hv). rewrite <- (sqrt_sqrt vol) at 3 by lra. field. exact Hs0.
Qed.

(** The density of plane waves is uniform. *)
Lemma wave_density occ : tshape occ = [sp; K; B] -> exists d, density_grid c vol (Some occ) = Ok d /\ tshape d = sp :: ns /\ forall s x, (s < sp)%nat -> inb x ns -> tget d (s :: x) = channel occ s / vol.
Proof.
  intros So. destruct Hc as (Sc & _). destruct (density_eq c vol occ sp K B n1 n2 n3 Sc So) as (d & Ed & Sd & Gd). exists d. split; [exact Ed|]. split; [exact Sd|]. intros s x Hs Hx.
  rewrite Gd by assumption. replace (channel occ s) with (sumR (seq 0 K) (fun k => sumR (seq 0 B) (fun b => tget occ [s; k; b]))) by (unfold channel; rewrite So; cbn [tl]; symmetry; apply (sumR_KB K B (fun i => tget occ (s :: i)))).
  unfold Rdiv. rewrite (Rmult_comm _ (/ vol)), <- sumR_scal. apply sumR_ext. intros k Hk. rewrite <- sumR_scal. apply sumR_ext. intros b Hb. apply in_seq in Hk, Hb. fold ns. rewrite psi_norm by (try lia; exact Hx). ring.
Qed.

Lemma kin_wave G kpts s k b : (s < sp)%nat -> (k < K)%nat -> (b < B)%nat -> ekin G kpts c ns s k b = 2 * free_energy G kpts k (sel s k b).
Proof.
  intros Hs Hk Hb. destruct Hc as (_ & H). destruct (H s k b Hs Hk Hb) as (Hi & u & Hu & Eu & Z). fold ns in Hi.
  unfold ekin. rewrite (sumR_single _ (sel s k b)); [|apply NoDup_indices|apply in_indices, Hi|].
  - rewrite Eu, (norm_unit u Hu). unfold free_energy, norm2. field.
  - intros g Hg Ng. apply in_indices in Hg. rewrite (Z g Hg Ng). rewrite Cnorm2_R. ring.
Qed.
Lemma kinel_wave G kpts s k b : (s < sp)%nat -> (k < K)%nat -> (b < B)%nat -> kinetic_element ns c G (nth k kpts vzero) [s; k; b] [s; k; b] = RtoC (free_energy G kpts k (sel s k b)).
Proof.
  intros Hs Hk Hb. destruct Hc as (_ & H). destruct (H s k b Hs Hk Hb) as (Hi & u & Hu & Eu & Z). fold ns in Hi.
  unfold kinetic_element. rewrite (sumC_single _ (sel s k b)); [|apply NoDup_indices|apply in_indices, Hi|].
  - rewrite Eu. unfold free_energy. cbv zeta. rewrite (Cmult_comm (Cconj u)), <- Cmult_assoc, (conj_unit u Hu). ring.
  - intros g Hg Ng. apply in_indices in Hg. rewrite (Z g Hg Ng). ring.
Qed.

(** The level of a plane wave is its kinetic energy plus the mean potential. *)
Lemma wave_level xcd pos ch dens G kpts xt ks v M : K = length kpts -> tshape G = ns -> effective_sum xcd dens pos ch G vol xt ks = Ok v -> tshape v = 1%nat :: ns ->
  hamiltonian_matrix xcd c pos ch dens G kpts vol xt ks = Ok M -> forall s k b, (s < sp)%nat -> (k < K)%nat -> (b < B)%nat ->
  tget M [s; k; b; b] = RtoC (free_energy G kpts k (sel s k b) + / INR (nprod ns) * sumR (indices ns) (fun x => Re (tget v (0%nat :: x)))).
Proof.
  intros EK SG Ev Sv HM s k b Hs Hk Hb. pose proof Hc as (Sc & _). rewrite EK in Sc. destruct (wave_grid_eq c vol _ ns eq_refl Sc) as (w & Ew & _ & Gw).
  destruct (matrix_value xcd c pos ch dens G kpts vol xt ks sp B 1 n1 n2 n3 v w Sc SG Ev Sv Ew) as (M' & HM' & _ & GM). rewrite HM in HM'. injection HM' as <-.
  rewrite GM by lia. unfold hel. cbn [seq sumC]. rewrite Cplus_0_r. unfold h_element. fold ns. rewrite kinel_wave by assumption. rewrite RtoC_plus. f_equal.
  unfold potential_element. rewrite (sumC_ext _ _ (fun x => RtoC (/ vol * Re (tget v (0%nat :: x))))).
  - rewrite sumC_RtoC, sumR_scal, <- RtoC_mult. f_equal. assert (vol <> 0) by lra. destruct (Req_dec (INR (nprod ns)) 0) as [E|E].
    + rewrite E. unfold Rdiv. destruct (indices ns) as [|i l] eqn:El; [cbn [sumR]; ring|]. exfalso. assert (Hx : inb i ns) by (apply in_indices; rewrite El; left; reflexivity). pose proof (nprod_pos ns (inb_pos i ns Hx)). apply (not_0_INR (nprod ns)) in E; [exact E|lia].
    + field. auto.
  - intros x Hx. apply in_indices in Hx. rewrite Gw by reflexivity. unfold chan. rewrite (Cmult_comm (Cconj _)), <- Cmult_assoc, Cconj_mult_self, psi_norm by assumption. rewrite <- RtoC_mult. f_equal. ring.
Qed.

End Waves.

(** The energy of plane waves, whatever the nuclei. *)
Lemma wave_energy B n1 n2 n3 sel c vol lib vg xt A pos ch G kpts occ : let ns := [n1; n2; n3] in let K := length kpts in plane_waves 1 K B ns sel c -> 0 < vol -> contains "gga" xt = false -> (forall t b, In t (split_on "+" xt) -> lib t b <> None) -> m3det A <> 0 -> g_vectors A ns = Ok G -> length ch = length pos ->
  tshape occ = [1%nat; K; B] ->
  total_energy (xc_density lib vg) c pos ch G kpts vol (Some occ) false xt =
  Ok (sumR (seq 0 K) (fun k => sumR (seq 0 B) (fun b => tget occ [0%nat; k; b] * free_energy G kpts k (sel 0%nat k b))) + total occ * local_particle lib (split_on "+" xt) (total occ / vol)).
Proof.
  intros ns K Hc Hv Hg Hl HA HG Hp So. pose proof Hc as (Sc & _). assert (HP : forall t, In t (split_on "+" xt) -> pick lib t (1 =? 2)%nat <> None) by (intros t Ht; unfold pick; apply Hl, Ht).
  rewrite (energy_formula lib vg xt A c pos ch G kpts vol occ 1 B n1 n2 n3 HA HG Hv (or_introl eq_refl) Hp Sc So HP). f_equal. unfold energy_value. fold ns. rewrite Hg.  fold K.
  assert (Hn : Forall (fun n => (0 < n)%nat) ns) by (destruct (proj1 (g_vectors_ok A n1 n2 n3) (ex_intro _ G HG)) as (? & ? & ?); repeat constructor; lia).
  assert (HN : 0 < INR (nprod ns)) by (apply lt_0_INR, nprod_pos, Hn).
  assert (Tc : channel occ 0 = total occ).
  { rewrite (total_channels occ 1 [K; B] So). cbn [seq sumR]. ring. }
  set (r := total occ / vol).
  assert (Gd : forall y, inb y ns -> tget (rho 1 K B ns vol c occ) (0%nat :: y) = r).
  { intros y Hy. unfold rho. cbn [tget hd tl]. unfold r. rewrite <- Tc. replace (channel occ 0) with (sumR (seq 0 K) (fun k => sumR (seq 0 B) (fun b => tget occ [0%nat; k; b]))) by (unfold channel; rewrite So; cbn [tl]; symmetry; apply (sumR_KB K B (fun i => tget occ (0%nat :: i)))).
    unfold Rdiv. rewrite (Rmult_comm _ (/ vol)), <- sumR_scal. apply sumR_ext. intros k Hk. rewrite <- sumR_scal. apply sumR_ext. intros b Hb. apply in_seq in Hk, Hb. rewrite (psi_norm 1 K B n1 n2 n3 sel c vol Hc Hv) by (try lia; exact Hy). ring. }
  assert (Rq : forall x, inb x ns -> is_origin x = false -> rho_q 1 ns (rho 1 K B ns vol c occ) x = RtoC 0).
  { intros x Hx Ox. unfold rho_q. cbn [seq sumC]. rewrite (dft_ext ns _ (fun _ => RtoC r)) by (intros y Hy; rewrite Gd by exact Hy; reflexivity). rewrite dft_const by assumption. ring. }
  rewrite (sumC_zero (indices ns)). 2:{ intros x Hx. apply in_indices in Hx. destruct (is_origin x) eqn:Ox; [reflexivity|]. rewrite (Rq x Hx Ox). ring. }
  rewrite (sumR_zero (indices ns)). 2:{ intros x Hx. apply in_indices in Hx. destruct (is_origin x) eqn:Ox; [reflexivity|]. rewrite (Rq x Hx Ox), Cnorm2_R. unfold Rdiv. ring. }
  rewrite (sumR_ext (indices ns) _ (fun _ => local_particle lib (split_on "+" xt) r * r)).
  2:{ intros x Hx. apply in_indices in Hx. unfold dens_at. cbn [seq map sumR Nat.eqb]. rewrite (Gd x Hx). rewrite Rplus_0_r. f_equal. }
  rewrite sumR_const, length_indices. cbn [seq sumR]. change (Re (RtoC 0)) with 0.
  rewrite (sumR_ext (seq 0 K) _ (fun k => 2 * sumR (seq 0 B) (fun b => tget occ [0%nat; k; b] * free_energy G kpts k (sel 0%nat k b)))).
  2:{ intros k Hk. rewrite <- sumR_scal. apply sumR_ext. intros b Hb. apply in_seq in Hk, Hb. rewrite (kin_wave 1 K B n1 n2 n3 sel c Hc) by lia. ring. }
  rewrite sumR_scal. unfold r. field. split; lra.
Qed.
