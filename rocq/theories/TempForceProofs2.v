(** The lowest free energy as a function of the temperature. *)
From Coq Require Import Reals Lra Lia.
From Coquelicot Require Import Coquelicot.
From Coq Require Import Ascii String List Arith ZArith Bool.
From Verif Require Import Base Sums Tensor Lin3 VecModel OccModel OccSpec PwSpec XcModel EnergyModel CalcModel DrvModel DrvSpec DrvProofs6 CalcProofs3 BoundProofs2 ReachSpec ReachProofs2 IdemSpec IdemProofs2 AttSpec AttProofs5 GeomProofs TempSpec TempProofs TempProofs2 TempProofs3 TempProofs4 TempForceSpec.
Import ListNotations.
Local Open Scope R_scope.

Lemma free_function qr cqr xcd pb p0 : (forall T, exists m, free_bound qr cqr xcd pb p0 T m) -> exists m : R -> R, forall T, free_bound qr cqr xcd pb p0 T (m T).
Proof.
  intros H. set (St := fun T f => exists p e h, reachable pb p0 p /\ free_energy_of qr cqr xcd pb T p = Ok (f, (e, h))).
  exists (fun T => real (Glb_Rbar (St T))). intros T. destruct (H T) as (m & Hm). replace (real (Glb_Rbar (St T))) with m; [exact Hm|].
  rewrite (is_glb_Rbar_unique (St T) m); [reflexivity|]. destruct Hm as (H1 & H2). split.
  - intros x (p & e & h & Hp & Hf). destruct (H1 p Hp) as (f' & e' & h' & Hf' & Hl). rewrite Hf in Hf'. injection Hf' as <- <- <-. exact Hl.
  - intros b Hb. assert (X : forall d, 0 < d -> Rbar_le b (m + d)).
    { intros d Hd. destruct (H2 d Hd) as (p & f & e & h & Hp & Hf & Hl). apply Rbar_le_trans with f; [apply Hb; exists p, e, h; split; assumption|cbn; lra]. }
    destruct b as [b| |]; cbn in *; [|exact (X 1 Rlt_0_1)|exact I]. apply Rnot_lt_le. intros Hlt. specialize (X ((b - m) / 2) ltac:(lra)). lra.
Qed.

Lemma free_shape qr cqr xcd pb p0 m : (forall T, free_bound qr cqr xcd pb p0 T (m T)) -> temperature_curve qr cqr xcd pb p0 m.
Proof.
  intros H. split; [exact H|]. split.
  - intros s s' l Hl. apply Rnot_lt_le. intros Hlt. set (x := l * s + (1 - l) * s') in *.
    destruct (proj2 (H x) (l * m s + (1 - l) * m s' - m x) ltac:(lra)) as (p & f & e & h & Hp & Hf & Hx). apply free_unfold in Hf. destruct Hf as (E1 & E2 & ->).
    assert (L : forall t, m t <= e - t * h).
    { intros t. destruct (proj1 (H t) p Hp) as (f' & e' & h' & Hf' & Hl'). apply free_unfold in Hf'. destruct Hf' as (E3 & E4 & ->). rewrite E1 in E3. rewrite E2 in E4. injection E3 as <-. injection E4 as <-. exact Hl'. }
    pose proof (Rmult_le_compat_l l _ _ (proj1 Hl) (L s)). pose proof (Rmult_le_compat_l (1 - l) _ _ ltac:(lra) (L s')).
    assert (l * (e - s * h) + (1 - l) * (e - s' * h) = e - x * h) by (unfold x; ring). lra.
  - intros tau p e h Hp Hf. apply free_unfold in Hf. destruct Hf as (E1 & E2 & Em).
    assert (L : forall t, m t <= m tau - (t - tau) * h).
    { intros t. destruct (proj1 (H t) p Hp) as (f' & e' & h' & Hf' & Hl'). apply free_unfold in Hf'. destruct Hf' as (E3 & E4 & ->). rewrite E1 in E3. rewrite E2 in E4. injection E3 as <-. injection E4 as <-. lra. }
    split; [exact L|]. intros l Hl.
    assert (Hl' : is_derive (fun t => m (tau + t)) 0 l).
    { replace l with (scal 1 l) by (unfold scal; cbn; unfold mult; cbn; ring). apply (is_derive_comp m (fun t => tau + t) 0); [rewrite Rplus_0_r; exact Hl|]. auto_derive; [trivial|ring]. }
    destruct (touch (fun t => m tau + - h * t) (fun t => m (tau + t)) (- h)) as (_ & R2 & _).
    + auto_derive; [trivial|ring].
    + intros t. specialize (L (tau + t)). lra.
    + rewrite Rplus_0_r. ring.
    + apply R2, Hl'.
Qed.

Lemma ae_curve erfc pkg read devices rnd rpw c pb p0 qr cqr lib vg : reduced_qr qr -> complex_qr cqr -> qr_factors cqr -> shape_ok rnd -> pair_shape_ok rpw ->
  ae_problem erfc pkg read devices c = Ok pb -> m3det (cr_cell (pb_crystal pb)) <> 0 -> length (cr_charges (pb_crystal pb)) = length (cr_positions (pb_crystal pb)) ->
  ae_init rnd rpw pb = Ok p0 -> bands_hold (pb_method pb) (pb_electrons pb) (pb_spin pb) (pb_bands pb) -> bands_fit_basis pb ->
  (forall t, In t (split_on "+" (pb_xc pb)) -> continuous_functional lib (contains "gga" (pb_xc pb)) t) -> entropy_defined pb -> 0 < pb_eps pb ->
  exists m, temperature_curve qr cqr (xc_density lib vg) pb p0 m /\ (qr_product qr -> pb_method pb <> MSimplex -> forall T, exists p e h, reachable pb p0 p /\ free_energy_of qr cqr (xc_density lib vg) pb T p = Ok (m T, (e, h))).
Proof.
  intros H1 H2 H3 H4 H5 H6 H7 H8 H9 H10 H11 H12 H13 H14. pose proof (ae_free erfc pkg read devices rnd rpw c pb p0 qr cqr lib vg H1 H2 H3 H4 H5 H6 H7 H8 H9 H10 H11 H12 H13 H14) as X.
  destruct (free_function qr cqr (xc_density lib vg) pb p0) as (m & Hm); [intros T; destruct (X T) as (m & Hm & _); exists m; exact Hm|].
  exists m. split; [apply free_shape; exact Hm|]. intros Hq Hs T. destruct (X T) as (_ & _ & Hp). destruct (Hp Hq Hs) as (p & Rp & f & e & h & Hf & Hl). exists p, e, h. split; [exact Rp|].
  replace (m T) with f; [exact Hf|]. destruct (Hm T) as (B1 & B2). destruct (B1 p Rp) as (f' & e' & h' & Hf' & Hl'). rewrite Hf in Hf'. injection Hf' as <- <- <-. apply Rle_antisym; [|exact Hl'].
  apply Rnot_lt_le. intros Hlt. destruct (B2 (f - m T) ltac:(lra)) as (p1 & f1 & e1 & h1 & Rp1 & Hf1 & L1). destruct (Hl p1 Rp1) as (f2 & e2 & h2 & Hf2 & L2). rewrite Hf1 in Hf2. injection Hf2 as <- <- <-. lra.
Qed.
Lemma nc_curve (PP : Type) erfc pkg read (nc us : crystal -> string -> res PP) valence pp_local pp_nonlocal devices rnd rpw c pb p0 qr cqr lib vg :
  reduced_qr qr -> complex_qr cqr -> qr_factors cqr -> shape_ok rnd -> pair_shape_ok rpw -> on_grid pp_local pp_nonlocal ->
  nc_problem erfc pkg read nc us valence pp_local pp_nonlocal devices c = Ok pb -> m3det (cr_cell (pb_crystal pb)) <> 0 ->
  nc_init rnd rpw pb = Ok p0 -> (pb_electrons pb mod 2 = pb_spin pb mod 2)%Z -> bands_hold (pb_method pb) (pb_electrons pb) (pb_spin pb) (pb_bands pb) -> bands_fit_basis pb ->
  (fixed_occ (pb_method pb) -> pb_restricted pb = true) -> (forall t, In t (split_on "+" (pb_xc pb)) -> continuous_functional lib (contains "gga" (pb_xc pb)) t) -> entropy_defined pb -> 0 < pb_eps pb ->
  exists m, temperature_curve qr cqr (xc_density lib vg) pb p0 m /\ (pb_method pb <> MSimplex -> forall T, exists p e h, reachable pb p0 p /\ free_energy_of qr cqr (xc_density lib vg) pb T p = Ok (m T, (e, h))).
Proof.
  intros H1 H2 H3 H4 H5 H6 H7 H8 H9 H10 H11 H12 H13 H14 H15 H16. pose proof (nc_free erfc pkg read nc us valence pp_local pp_nonlocal devices rnd rpw c pb p0 qr cqr lib vg H1 H2 H3 H4 H5 H6 H7 H8 H9 H10 H11 H12 H13 H14 H15 H16) as X.
  destruct (free_function qr cqr (xc_density lib vg) pb p0) as (m & Hm); [intros T; destruct (X T) as (m & Hm & _); exists m; exact Hm|].
  exists m. split; [apply free_shape; exact Hm|]. intros Hs T. destruct (X T) as (_ & _ & Hp). destruct (Hp Hs) as (p & Rp & f & e & h & Hf & Hl). exists p, e, h. split; [exact Rp|].
  replace (m T) with f; [exact Hf|]. destruct (Hm T) as (B1 & B2). destruct (B1 p Rp) as (f' & e' & h' & Hf' & Hl'). rewrite Hf in Hf'. injection Hf' as <- <- <-. apply Rle_antisym; [|exact Hl'].
  apply Rnot_lt_le. intros Hlt. destruct (B2 (f - m T) ltac:(lra)) as (p1 & f1 & e1 & h1 & Rp1 & Hf1 & L1). destruct (Hl p1 Rp1) as (f2 & e2 & h2 & Hf2 & L2). rewrite Hf1 in Hf2. injection Hf2 as <- <- <-. lra.
Qed.
