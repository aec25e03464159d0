(** The example calculations of lowest free energy (C156). *)
From Coq Require Import Reals Lra Lia.
From Coquelicot Require Import Coquelicot.
From Coq Require Import Ascii String List Arith ZArith Bool.
From Verif Require Import Base Sums Tensor Lin3 GridModel VecModel VecProofs PwSpec PwModel EnergyModel EnergySpec CalcModel OccModel OccSpec XcModel HamModel HamSpec NlocModel DrvModel DrvSpec DrvProofs DrvProofs2 DrvProofs3 DrvProofs4 DrvProofs5 DrvProofs6 DrvProofs7 CalcProofs3 BoundProofs BoundProofs2 ReachSpec ReachProofs2 IdemSpec IdemProofs2 AttSpec AttProofs5 NcAttSpec NcAttProofs NcAttProofs2
  KsProofs5 NcKsSpec NcKsProofs NcKsProofs2 NcKsProofs3 SimSpec SimProofs5 TempSpec TempProofs TempProofs2 TempProofs3 TempProofs4 SmearSpec SmearProofs.
Import ListNotations.
Local Open Scope R_scope.

Lemma ex_smear erfc pkg vg T : exists pb p0 p, ae_problem erfc pkg ex_ase 2 (ex_drv "idempotent" true false 8) = Ok pb /\ m3det (cr_cell (pb_crystal pb)) <> 0 /\ length (cr_charges (pb_crystal pb)) = length (cr_positions (pb_crystal pb)) /\
  ae_init ex_rnd ex_rpw pb = Ok p0 /\ bands_hold (pb_method pb) (pb_electrons pb) (pb_spin pb) (pb_bands pb) /\ bands_fit_basis pb /\ pb_restricted pb = true /\ pb_method pb = MIdempotent /\ contains "gga" (pb_xc pb) = false /\ 0 < pb_eps pb /\
  lowest_free real_gs_qr gs_qr (xc_density linear_lib vg) pb p0 T p.
Proof.
  destruct (ex_lowest erfc pkg vg) as (pb & p0 & _ & _ & H1 & H2 & H3 & H4 & H5 & H6 & H7 & H8 & H9 & _).
  destruct (ex_temp erfc pkg "idempotent" true) as (pb' & _ & H1' & _ & _ & _ & _ & _ & Hd & He); [cbn; tauto|]. rewrite H1 in H1'. injection H1' as <-.
  destruct (ae_free erfc pkg ex_ase 2 ex_rnd ex_rpw _ pb p0 real_gs_qr gs_qr linear_lib vg real_gs_qr_ok gs_qr_orthonormal gs_qr_factors ex_rnd_ok ex_rpw_ok H1 H2 H3 H4 H5 H6 (fun t _ => linear_continuous t _) Hd He T) as (m & _ & Hp).
  destruct (Hp real_gs_qr_product) as (p & Hlow); [rewrite H8; discriminate|]. exists pb, p0, p. repeat (split; [assumption|]). exact Hlow.
Qed.

Lemma ex_smear_simplex erfc pkg : exists pb p0, ae_problem erfc pkg ex_ase 2 (ex_drv0 "simplex-projector" true false 8) = Ok pb /\ m3det (cr_cell (pb_crystal pb)) <> 0 /\
  length (cr_charges (pb_crystal pb)) = length (cr_positions (pb_crystal pb)) /\ ae_init ex_rnd ex_rpw pb = Ok p0 /\ bands_hold (pb_method pb) (pb_electrons pb) (pb_spin pb) (pb_bands pb) /\ bands_fit_basis pb /\
  pb_method pb = MSimplex /\ pb_restricted pb = true /\ pb_spin pb = 0%Z /\ contains "gga" (pb_xc pb) = false /\ 0 < pb_eps pb.
Proof.
  destruct (ex_closed erfc pkg true) as (pb & p0 & Hpb & HA & Hl & Hi & Hb & Hfit & Hm & Er & En & Es & EB & Ex & _). exists pb, p0. repeat (split; [assumption|]). split; [rewrite Ex; reflexivity|].
  destruct (ae_settings _ _ _ _ _ _ Hpb) as ((_ & _ & (v & Ev & Ee) & _) & _). change (getattr (ex_drv0 "simplex-projector" true false 8) "eps") with (Ok (VReal (1 / 100000000))) in Ev. injection Ev as <-. cbn [cfg_real] in Ee. injection Ee as <-. lra.
Qed.

Lemma ex_smear_nc erfc pkg vg T : exists pb p0 p pp V nl,
  nc_problem erfc pkg ex_ase ex_loader ex_loader (fun l => l) ex_loc ex_nl 2 (ex_drv "uniform" true true 8) = Ok pb /\ m3det (cr_cell (pb_crystal pb)) <> 0 /\ nc_init ex_rnd ex_rpw pb = Ok p0 /\
  (pb_electrons pb mod 2 = pb_spin pb mod 2)%Z /\ bands_hold (pb_method pb) (pb_electrons pb) (pb_spin pb) (pb_bands pb) /\ bands_fit_basis pb /\ pb_restricted pb = true /\ contains "gga" (pb_xc pb) = false /\
  create_pseudopotential pkg ex_ase ex_loader ex_loader (ex_drv "uniform" true true 8) = Ok pp /\ ex_loc pp (pb_crystal pb) (pb_G pb) (pb_vol pb) = Ok V /\ ex_nl pp (pb_crystal pb) (pb_G pb) (pb_k pb) = Ok nl /\ real_on_grid V /\ 0 < pb_eps pb /\
  lowest_free real_gs_qr gs_qr (xc_density linear_lib vg) pb p0 T p /\
  forall d, tshape d = 1%nat :: tshape (pb_G pb) -> hartree_real d (pb_G pb).
Proof.
  destruct (ex_nc_lowest erfc pkg vg) as (pb & p0 & _ & _ & pp & V & nl & H1 & H2 & H3 & H4 & H5 & H6 & H7 & H8 & H9 & H10 & H11 & H12 & _ & _ & _ & H13).
  destruct (ex_nc_temp erfc pkg "uniform" true) as (pb' & p0' & H1' & _ & _ & _ & _ & _ & Hfx & Hon & Hd & He); [cbn; tauto|right; reflexivity|]. rewrite H1 in H1'. injection H1' as <-.
  assert (Hm : pb_method pb = MUniform) by (destruct (ex_nc erfc pkg "uniform" true) as (pb' & H1' & _ & _ & _ & _ & _ & _ & _ & Hm & _); [cbn; tauto|]; rewrite H1 in H1'; injection H1' as <-; exact Hm).
  destruct (nc_free erfc pkg ex_ase ex_loader ex_loader (fun l => l) ex_loc ex_nl 2 ex_rnd ex_rpw _ pb p0 real_gs_qr gs_qr linear_lib vg real_gs_qr_ok gs_qr_orthonormal gs_qr_factors ex_rnd_ok ex_rpw_ok Hon H1 H2 H3 H4 H5 H6 Hfx (fun t _ => linear_continuous t _) Hd He T) as (m & _ & Hp).
  destruct Hp as (p & Hlow); [rewrite Hm; discriminate|]. exists pb, p0, p, pp, V, nl. repeat (split; [assumption|]). exact H13.
Qed.

Lemma ex_smear_nc_simplex erfc pkg : exists pb p0 pp V nl,
  nc_problem erfc pkg ex_ase ex_loader ex_loader (fun l => l) ex_loc ex_nl 2 (ex_drv0 "simplex-projector" true true 8) = Ok pb /\ m3det (cr_cell (pb_crystal pb)) <> 0 /\ nc_init ex_rnd ex_rpw pb = Ok p0 /\
  (pb_electrons pb mod 2 = pb_spin pb mod 2)%Z /\ bands_hold (pb_method pb) (pb_electrons pb) (pb_spin pb) (pb_bands pb) /\ bands_fit_basis pb /\ pb_method pb = MSimplex /\ pb_restricted pb = true /\ pb_spin pb = 0%Z /\ contains "gga" (pb_xc pb) = false /\ 0 < pb_eps pb /\
  create_pseudopotential pkg ex_ase ex_loader ex_loader (ex_drv0 "simplex-projector" true true 8) = Ok pp /\ ex_loc pp (pb_crystal pb) (pb_G pb) (pb_vol pb) = Ok V /\ ex_nl pp (pb_crystal pb) (pb_G pb) (pb_k pb) = Ok nl /\ real_on_grid V.
Proof.
  set (cf := ex_drv0 "simplex-projector" true true 8).
  destruct (ex_setup0 erfc pkg "simplex-projector" true true 8 8 (fun _ => do pp <- create_pseudopotential pkg ex_ase ex_loader ex_loader cf; Ok (fold_right Z.add 0%Z pp))
    (fun cr g k vol => do pp <- create_pseudopotential pkg ex_ase ex_loader ex_loader cf; do V <- ex_loc pp cr g vol; do psi <- ex_nl pp cr g k; Ok (Some (V, psi)))
    (fun _ => true) 8 (fun G k _ => Some (mkT (tshape G) (fun _ => RtoC 0), mkT ([length k; 1; 1]%nat ++ tshape G) (fun _ => RtoC 1))) 2) as (pb & H & Hc & HN & HB & Hm & Hr & Hx & He & Hd & Sm & Gm);
    [reflexivity|lia|reflexivity|lia|reflexivity|reflexivity|].
  change (nc_problem erfc pkg ex_ase ex_loader ex_loader (fun l => l) ex_loc ex_nl 2 cf = Ok pb) in H.
  assert (Es : pb_spin pb = 0%Z) by (unfold pb_spin; rewrite Hc; reflexivity).
  assert (Hpar : (pb_electrons pb mod 2 = pb_spin pb mod 2)%Z) by (rewrite HN, Es; reflexivity).
  assert (Hb : bands_hold (pb_method pb) (pb_electrons pb) (pb_spin pb) (pb_bands pb)) by (rewrite Es, HN, HB, Hm; vm_compute; repeat split; intros X; discriminate X).
  pose proof (setup_grids _ _ _ _ _ _ _ _ _ H) as Hg. destruct (init_returns ex_rnd ex_rpw pb Hg Hpar Hb) as [p0 Hi].
  assert (Hni : pb_method pb <> MIdempotent) by (rewrite Hm; discriminate).
  destruct (nc_facts _ _ _ _ _ _ _ _ _ _ pb H) as (_ & _ & _ & pp & V & nl & Epp & _ & EV & Enl & _).
  exists pb, p0, pp, V, nl. split; [exact H|]. split; [rewrite Hc; apply ex_cell_det0|].
  split.
  { unfold nc_init. rewrite Hi. cbn [bind]. rewrite (proj2 (place_iff ex_rnd ex_rpw pb p0 Hi Hg (proj2 (proj2 (proj2 (proj2 (proj2 (proj2 (proj2 (proj2 (proj2 (nc_setup _ _ _ _ _ _ _ _ _ _ _ H)))))))))))); [reflexivity|]. split; [exact Hni|]. intros _. rewrite HB, Hd. reflexivity. }
  do 2 (split; [assumption|]). split; [unfold bands_fit_basis; rewrite HB, (ex_positions _ 8 Sm Gm); apply Nat.leb_le; vm_compute; reflexivity|].
  split; [rewrite Hm; reflexivity|]. split; [exact Hr|]. split; [exact Es|]. split; [rewrite Hx; reflexivity|]. split.
  { destruct (nc_settings _ _ _ _ _ _ _ _ _ _ _ H) as ((_ & _ & (v & Ev & Ee) & _) & _). change (getattr cf "eps") with (Ok (VReal (1 / 100000000))) in Ev. injection Ev as <-. cbn [cfg_real] in Ee. injection Ee as <-. lra. }
  do 3 (split; [assumption|]). injection EV as <-. apply zero_real_on_grid.
Qed.
