(** Minimising over the parameters is minimising over the orbitals (C144). *)
From Coq Require Import Reals Lra Lia.
From Coquelicot Require Import Coquelicot.
From Coq Require Import Ascii String List Arith ZArith Bool.
From Verif Require Import Base Sums Tensor DFT GridModel GridProofs PadModel PadProofs Lin3 VecModel VecProofs OccModel OccSpec PwModel PwSpec PwProofs BraketModel XcModel XcSpec EnergyModel EnergySpec EnergyProofs ExtProofs TotalProofs XcProofs
  CalcModel CalcSpec DrvModel DrvSpec DrvProofs2 DrvProofs3 DrvProofs4 DrvProofs5 DrvProofs6 CalcProofs3 ReachSpec ReachProofs ReachProofs2.
Import ListNotations.
Local Open Scope R_scope.

Lemma reach_driver erfc pkg read devices rnd rpw c pb p0 p qr cqr xcd co : reduced_qr qr -> complex_qr cqr -> qr_factors cqr -> shape_ok rnd -> pair_shape_ok rpw ->
  ae_problem erfc pkg read devices c = Ok pb -> ae_init rnd rpw pb = Ok p0 -> reachable pb p0 p -> bands_hold (pb_method pb) (pb_electrons pb) (pb_spin pb) (pb_bands pb) -> bands_fit_basis pb ->
  xc_local xcd false (pb_xc pb) -> basis_orbitals (num_spin (pb_restricted pb)) (length (pb_k pb)) (pb_bands pb) (pb_mask pb) co ->
  exists p' co' occ, reachable pb p0 p' /\ p_occ p' = p_occ p /\ get_occupation qr pb p = Ok occ /\ get_occupation qr pb p' = Ok occ /\
    get_coeff cqr pb p' = Ok co' /\ same_up_to_phase (num_spin (pb_restricted pb)) (length (pb_k pb)) (pb_bands pb) (tshape (pb_mask pb)) co co' /\
    forall e, objective qr cqr xcd pb p' = Ok e <->
      total_energy xcd co (cr_positions (pb_crystal pb)) (map IZR (cr_charges (pb_crystal pb))) (pb_G pb) (pb_k pb) (pb_vol pb) (Some occ) false (pb_xc pb) = Ok e.
Proof.
  intros Hq Hcq Hf Hr Hrp Hpb Hi Hre Hb Hfit Hx Hco. pose proof (setup_grids _ _ _ _ _ _ _ _ _ Hpb) as Hg. destruct (ae_parity _ _ _ _ _ _ Hpb) as (_ & Hpar & Hio & Hir).
  destruct (occ_along rnd rpw pb p0 p qr Hq Hr Hg Hi Hre Hpar (fun _ => Hir) Hb) as (occ & Eo & So & _).
  destruct (reach_orbitals cqr (pb_mask pb) _ _ _ co Hcq Hf Hco Hfit) as (re & im & co' & Sr & Sim & Ec & Hph).
  assert (Eo' : get_occupation qr pb (Params re im (p_occ p)) = Ok occ) by exact Eo. assert (Ec' : get_coeff cqr pb (Params re im (p_occ p)) = Ok co') by exact Ec.
  assert (Si : tshape (p_re p0) = pw_param_shape (pb_bands pb) (length (pb_k pb)) (pb_mask pb) (pb_restricted pb) /\ tshape (p_im p0) = pw_param_shape (pb_bands pb) (length (pb_k pb)) (pb_mask pb) (pb_restricted pb)).
  { pose proof Hi as Hi'. unfold ae_init in Hi'. cbv zeta in Hi'. destruct (occ_param_init _ _ _ _ _ _ _) as [o|] in Hi'; cbn [bind] in Hi'; [|discriminate]. injection Hi' as <-. cbn [p_re p_im]. apply Hrp. }
  exists (Params re im (p_occ p)), co', occ. split.
  { destruct Hre as ((_ & _ & H3) & H4). split; [|exact H4]. split; [cbn [p_re]; rewrite Sr, (proj1 Si); destruct (pb_restricted pb); reflexivity|]. split; [cbn [p_im]; rewrite Sim, (proj2 Si); destruct (pb_restricted pb); reflexivity|exact H3]. }
  split; [reflexivity|]. split; [exact Eo|]. split; [exact Eo'|]. split; [exact Ec'|]. split; [exact Hph|]. intros e. rewrite (objective_unfold qr cqr xcd pb _ co' occ Ec' Eo').
  destruct Hg as (n1 & n2 & n3 & HG & Sm & _). destruct Hco as (Sco & Oco & _). rewrite Sm in Sco, Oco, Hph.
  assert (SG : tshape (pb_G pb) = [n1; n2; n3]) by (apply (vector_grid_shape _ _ _ _ HG)).
  rewrite (ae_objective_at xcd pb co' occ e (num_spin (pb_restricted pb)) (length (pb_k pb)) (pb_bands pb) n1 n2 n3 Hio Hx) by (first [exact So|rewrite (proj1 Hph); exact Sco]).
  unfold total_energy. rewrite (phase_energy xcd co co' _ _ (pb_G pb) (pb_k pb) (pb_vol pb) occ false (pb_xc pb) (num_spin (pb_restricted pb)) (pb_bands pb) n1 n2 n3 Hx SG Sco So Oco Hph). tauto.
Qed.

Lemma same_minimum erfc pkg read devices rnd rpw c pb p0 qr cqr xcd a : reduced_qr qr -> complex_qr cqr -> qr_factors cqr -> shape_ok rnd -> pair_shape_ok rpw ->
  ae_problem erfc pkg read devices c = Ok pb -> ae_init rnd rpw pb = Ok p0 -> bands_hold (pb_method pb) (pb_electrons pb) (pb_spin pb) (pb_bands pb) -> bands_fit_basis pb ->
  xc_local xcd false (pb_xc pb) ->
  (forall p e, reachable pb p0 p -> objective qr cqr xcd pb p = Ok e -> a <= e) <->
  (forall co p occ e, basis_orbitals (num_spin (pb_restricted pb)) (length (pb_k pb)) (pb_bands pb) (pb_mask pb) co -> reachable pb p0 p -> get_occupation qr pb p = Ok occ ->
    total_energy xcd co (cr_positions (pb_crystal pb)) (map IZR (cr_charges (pb_crystal pb))) (pb_G pb) (pb_k pb) (pb_vol pb) (Some occ) false (pb_xc pb) = Ok e -> a <= e).
Proof.
  intros Hq Hcq Hf Hr Hrp Hpb Hi Hb Hfit Hx. split.
  - intros H co p occ e Hco Hre Eo He. destruct (reach_driver erfc pkg read devices rnd rpw c pb p0 p qr cqr xcd co Hq Hcq Hf Hr Hrp Hpb Hi Hre Hb Hfit Hx Hco) as (p' & co' & occ' & Hre' & _ & Eo' & _ & _ & _ & Hob).
    rewrite Eo in Eo'. injection Eo' as <-. apply (H p' e Hre'). apply Hob. exact He.
  - intros H p e Hre He. destruct (ae_objective erfc pkg read devices rnd rpw c pb p0 p qr cqr xcd Hq Hcq Hr Hrp Hpb Hi Hre Hb Hfit Hx) as (co & occ & Ec & Eo & Hob).
    destruct (coeff_along rnd rpw pb p0 p cqr Hcq Hrp Hi (proj1 Hre) Hfit) as (co2 & Ec2 & Sc & Oc & Zc). rewrite Ec in Ec2. injection Ec2 as <-.
    apply (H co p occ e); [split; [exact Sc|split; [exact Oc|exact Zc]]|exact Hre|exact Eo|apply Hob, He].
Qed.

Lemma ex_reach erfc pkg occ r : In occ ex_methods -> exists pb p0 co, ae_problem erfc pkg ex_ase 2 (ex_drv occ r false 8) = Ok pb /\ ae_init ex_rnd ex_rpw pb = Ok p0 /\ reachable pb p0 p0 /\
  bands_hold (pb_method pb) (pb_electrons pb) (pb_spin pb) (pb_bands pb) /\ bands_fit_basis pb /\ xc_local ex_xcd false "lda_x" /\
  basis_orbitals (num_spin (pb_restricted pb)) (length (pb_k pb)) (pb_bands pb) (pb_mask pb) co.
Proof.
  intros Ho. destruct (ex_ae_init erfc pkg occ r Ho) as (pb & p0 & Hpb & Hi & Hre & Hb & Hfit & Hx).
  destruct (coeff_along ex_rnd ex_rpw pb p0 p0 gs_qr gs_qr_orthonormal ex_rpw_ok Hi (proj1 Hre) Hfit) as (co & _ & Sc & Oc & Zc).
  exists pb, p0, co. do 6 (split; [assumption|]). split; [exact Sc|split; [exact Oc|exact Zc]].
Qed.
