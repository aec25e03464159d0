(** The energy a calculation minimises is bounded below (C143). *)
From Coq Require Import Reals Lra Lia.
From Coquelicot Require Import Coquelicot.
From Coq Require Import Ascii String List Arith ZArith Bool.
From Verif Require Import Base Sums Tensor DFT GridModel GridProofs PadModel PadProofs Lin3 VecModel VecProofs OccModel OccSpec PwModel PwSpec PwProofs BraketModel XcModel XcSpec EnergyModel EnergySpec EnergyProofs ExtProofs TotalProofs XcProofs SpinProofs
  CalcModel CalcSpec DrvModel DrvSpec DrvProofs2 DrvProofs3 DrvProofs4 DrvProofs5 DrvProofs6 BoundSpec BoundProofs.
Import ListNotations.
Local Open Scope R_scope.

Lemma driver_below erfc pkg read devices rnd rpw c pb p0 p qr cqr lib vg fl : reduced_qr qr -> complex_qr cqr -> shape_ok rnd -> pair_shape_ok rpw ->
  ae_problem erfc pkg read devices c = Ok pb -> m3det (cr_cell (pb_crystal pb)) <> 0 -> length (cr_charges (pb_crystal pb)) = length (cr_positions (pb_crystal pb)) ->
  ae_init rnd rpw pb = Ok p0 -> reachable pb p0 p -> bands_hold (pb_method pb) (pb_electrons pb) (pb_spin pb) (pb_bands pb) -> bands_fit_basis pb ->
  let ns := tshape (pb_G pb) in let ne := IZR (kept_electrons (pb_method pb) (pb_electrons pb) (pb_spin pb)) in
  (forall t, In t (split_on "+" (pb_xc pb)) -> per_electron_floor lib t (2 * (ne * INR (nprod ns) / pb_vol pb)) fl) ->
  exists e, objective qr cqr (xc_density lib vg) pb p = Ok e /\
    - ne * (attraction_limit ns (pb_G pb) (map IZR (cr_charges (pb_crystal pb))) (pb_vol pb) + INR (length (split_on "+" (pb_xc pb))) * fl) <= e.
Proof.
  intros Hq Hcq Hr Hrp Hpb HA Hl Hi Hre Hb Hfit ns ne HL. pose proof (setup_grids _ _ _ _ _ _ _ _ _ Hpb) as Hg. destruct (ae_parity _ _ _ _ _ _ Hpb) as (_ & Hpar & Hio & Hir).
  destruct (coeff_along rnd rpw pb p0 p cqr Hcq Hrp Hi (proj1 Hre) Hfit) as (co & Ec & Sc & Oc & _). destruct (occ_along rnd rpw pb p0 p qr Hq Hr Hg Hi Hre Hpar (fun _ => Hir) Hb) as (occ & Eo & So & Po & To & _).
  destruct (grid_facts pb Hg HA) as (n1 & n2 & n3 & HG & Sm & SG & Hp & Hv). rewrite Sm in Sc, Oc.
  assert (En : BoundSpec.electrons occ = ne) by (unfold ne; rewrite <- To, (total_channels occ _ _ So); unfold BoundSpec.electrons; rewrite So; reflexivity).
  unfold ns in *. rewrite SG in *. rewrite So in Po. rewrite (objective_unfold qr cqr _ pb p co occ Ec Eo).
  destruct (bounded_below lib vg (pb_xc pb) (cr_cell (pb_crystal pb)) co (cr_positions (pb_crystal pb)) (map IZR (cr_charges (pb_crystal pb))) (pb_G pb) (pb_k pb) (pb_vol pb) occ (num_spin (pb_restricted pb)) (pb_bands pb) n1 n2 n3 fl) as (e & He & Hbd).
  - exact HA.
  - exact HG.
  - exact Hv.
  - destruct (pb_restricted pb); [left|right]; reflexivity.
  - rewrite map_length. exact Hl.
  - exact Sc.
  - exact So.
  - exact Oc.
  - exact Po.
  - rewrite En. exact HL.
  - rewrite En in Hbd. exists e. split; [|exact Hbd]. apply (ae_objective_at (xc_density lib vg) pb co occ e _ _ _ n1 n2 n3 Hio (xc_density_local lib vg false _ (or_intror eq_refl)) Sc So). exact He.
Qed.

(** An energy per electron falling linearly with the density. *)
Definition linear_lib : xclib := fun _ _ => Some (fun v _ => - sumR v (fun n => n)).
Lemma linear_floor t m : 0 <= m -> per_electron_floor linear_lib t m (2 * m) /\ (m <> 0 -> ~ per_electron_floor linear_lib t m 0).
Proof.
  intros Hm. split.
  - intros pol. eexists. split; [reflexivity|]. intros v sg Lv Hv. destruct pol; [destruct v as [|a [|b [|? ?]]]|destruct v as [|a [|? ?]]]; try discriminate; cbn [sumR].
    + inversion Hv as [|? ? Ha Hv']; subst. inversion Hv' as [|? ? Hb _]; subst. lra.
    + inversion Hv as [|? ? Ha _]; subst. lra.
  - intros H0 H. destruct (H false) as (f & Ef & Hf). injection Ef as <-. specialize (Hf [m] [] eq_refl). cbn [sumR] in Hf. assert (- 0 <= - (m + 0)) by (apply Hf; constructor; [lra|constructor]). lra.
Qed.
Lemma ex_driver erfc pkg occ r : In occ ex_methods -> exists pb p0 fl, ae_problem erfc pkg ex_ase 2 (ex_drv occ r false 8) = Ok pb /\ m3det (cr_cell (pb_crystal pb)) <> 0 /\
  length (cr_charges (pb_crystal pb)) = length (cr_positions (pb_crystal pb)) /\ ae_init ex_rnd ex_rpw pb = Ok p0 /\ reachable pb p0 p0 /\
  bands_hold (pb_method pb) (pb_electrons pb) (pb_spin pb) (pb_bands pb) /\ bands_fit_basis pb /\ 0 < fl /\
  forall t, In t (split_on "+" (pb_xc pb)) -> per_electron_floor linear_lib t (2 * (IZR (kept_electrons (pb_method pb) (pb_electrons pb) (pb_spin pb)) * INR (nprod (tshape (pb_G pb))) / pb_vol pb)) fl.
Proof.
  intros Ho. destruct (ex_ae erfc pkg occ r Ho) as (pb & Hpb & HA & Hfit & Hb & Hlen & _). destruct (ae_parity _ _ _ _ _ _ Hpb) as (_ & Hpar & _).
  pose proof (setup_grids _ _ _ _ _ _ _ _ _ Hpb) as Hg. destruct (init_returns ex_rnd ex_rpw pb Hg Hpar Hb) as [p0 Hi].
  set (m := 2 * (IZR (kept_electrons (pb_method pb) (pb_electrons pb) (pb_spin pb)) * INR (nprod (tshape (pb_G pb))) / pb_vol pb)).
  exists pb, p0, (2 * Rabs m + 1). split; [exact Hpb|]. split; [exact HA|]. split; [exact Hlen|]. split; [exact Hi|].
  split; [apply (traj_reachable pb (fun _ p => p) ex_opt ex_rnd ex_rpw p0 0 Hi (fun _ => ex_opt_constants))|]. split; [exact Hb|]. split; [exact Hfit|]. split; [pose proof (Rabs_pos m); lra|].
  intros t _ pol. fold m. clearbody m. destruct (proj1 (linear_floor t (Rabs m) (Rabs_pos m)) pol) as (f & Ef & Hf). exists f. split; [exact Ef|]. intros v sg Lv Hv. assert (Hv' : Forall (fun n => 0 <= n <= Rabs m) v) by (eapply Forall_impl; [|exact Hv]; cbn; intros a Ha; pose proof (Rle_abs m); lra). specialize (Hf v sg Lv Hv'). lra.
Qed.
