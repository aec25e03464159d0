(** Norm-conserving calculations of lowest energy (C152). *)
From Coq Require Import Reals Lra Lia FunctionalExtensionality.
From Coquelicot Require Import Coquelicot.
From Coq Require Import Ascii String List Arith ZArith Bool.
From Verif Require Import Base Sums Tensor DFT GridModel PadModel Lin3 VecModel VecProofs OccModel OccSpec OccProofs PwModel PwSpec PwProofs BraketModel XcModel XcSpec EnergyModel HamModel HamSpec XcProofs XcProofs3 HamProofs3 DerProofs
  LocModel NlocModel CalcModel CalcSpec DrvModel DrvSpec DrvProofs2 DrvProofs3 DrvProofs4 DrvProofs5 DrvProofs6 CalcProofs3 BoundSpec BoundProofs2 ReachSpec ReachProofs2 ReachProofs3 GeomSpec IdemSpec IdemProofs IdemProofs2 AttSpec AttProofs5 NcAttSpec NcAttProofs NcAttProofs2 KsSpec KsProofs4 KsLevels KsProofs5 NcKsSpec NcKsProofs NcKsProofs2.
Import ListNotations.
Local Open Scope R_scope.

Lemma nc_driver_lowest (PP : Type) erfc pkg read (nc us : crystal -> string -> res PP) valence pp_local pp_nonlocal devices rnd rpw c pb p0 p qr cqr lib vg pp V nl e :
  reduced_qr qr -> complex_qr cqr -> qr_factors cqr -> shape_ok rnd -> pair_shape_ok rpw -> on_grid pp_local pp_nonlocal ->
  nc_problem erfc pkg read nc us valence pp_local pp_nonlocal devices c = Ok pb -> m3det (cr_cell (pb_crystal pb)) <> 0 ->
  nc_init rnd rpw pb = Ok p0 -> (pb_electrons pb mod 2 = pb_spin pb mod 2)%Z -> bands_hold (pb_method pb) (pb_electrons pb) (pb_spin pb) (pb_bands pb) -> bands_fit_basis pb ->
  pb_restricted pb = true -> contains "gga" (pb_xc pb) = false -> (forall t b, In t (split_on "+" (pb_xc pb)) -> lib t b <> None) ->
  create_pseudopotential pkg read nc us c = Ok pp -> pp_local pp (pb_crystal pb) (pb_G pb) (pb_vol pb) = Ok V -> pp_nonlocal pp (pb_crystal pb) (pb_G pb) (pb_k pb) = Ok nl -> real_on_grid V ->
  reachable pb p0 p -> objective qr cqr (xc_density lib vg) pb p = Ok e ->
  (forall p', reachable pb p0 p' -> exists e', objective qr cqr (xc_density lib vg) pb p' = Ok e' /\ e <= e') ->
  exists co occ d, get_coeff cqr pb p = Ok co /\ get_occupation qr pb p = Ok occ /\ density_grid co (pb_vol pb) (Some occ) = Ok d /\
    (hartree_real d (pb_G pb) -> (forall x, inb x (tshape (pb_G pb)) -> ex_derive (local_particle lib (split_on "+" (pb_xc pb))) (tget d (0%nat :: x))) ->
     kohn_sham_orbitals (fun x => nl_hamiltonian_matrix (xc_density lib vg) x d V nl (pb_G pb) (pb_k pb) (pb_vol pb) (pb_xc pb) true) (tshape (pb_G pb)) (length (pb_k pb)) (pb_bands pb) (pb_mask pb) co occ).
Proof.
  intros Hq Hcq Hf Hr Hrp Hon Hpb HA Hi Hpar Hb Hfit Er Hg Hlib Epp EV Enl HV Hre He Hmin.
  destruct (nc_facts _ _ _ _ _ _ _ _ _ c pb Hpb) as (Hgr & _). destruct (grid_facts pb Hgr HA) as (m1 & m2 & m3 & HG & Sm & SG & Hp & Hv).
  assert (HP : forall t, In t (split_on "+" (pb_xc pb)) -> pick lib t (num_spin (pb_restricted pb) =? 2)%nat <> None) by (intros t Ht; apply Hlib, Ht).
  destruct (nc_run erfc pkg read nc us valence pp_local pp_nonlocal devices rnd rpw c pb p0 qr cqr lib vg pp V nl Hq Hcq Hf Hr Hrp Hon Hpb HA Hi Hpar Hb Hfit (fun _ => Er) HP Epp EV Enl) as (nb & nm & n1 & n2 & n3 & Sm' & Fo & RS & RD).
  rewrite Sm in Sm'. injection Sm' as <- <- <-. destruct Hon as (Hon1 & Hon2). pose proof (Hon1 _ _ _ _ _ EV) as SV. destruct (Hon2 _ _ _ _ _ Enl) as (nb' & nm' & Sn). rewrite SG in SV, Sn.
  destruct (RS p Hre) as (co & occ & Ec & Eo & (Hbo & So & _) & Hob). rewrite He in Hob. assert (Inj : forall a b : R, Ok a = Ok b -> a = b) by (intros; congruence). apply Inj in Hob.
  rewrite Er in *. cbn [num_spin] in *.
  assert (Sc : tshape co = [1%nat; length (pb_k pb); pb_bands pb] ++ [m1; m2; m3]) by (destruct Hbo as (S & _); rewrite Sm in S; exact S).
  destruct (density_eq co (pb_vol pb) occ 1 _ _ m1 m2 m3 Sc So) as (d & Ed & _). exists co, occ, d. split; [exact Ec|]. split; [exact Eo|]. split; [exact Ed|]. intros Hh Hex. rewrite SG in Hex |- *.
  apply (nc_lowest_orbitals lib vg (pb_xc pb) (cr_cell (pb_crystal pb)) co V nl (pb_G pb) (pb_k pb) (pb_vol pb) occ d (pb_bands pb) m1 m2 m3 nb' nm' (pb_mask pb) e); try assumption.
  - apply Fo; assumption.
  - intros c' Hc'. destruct (RD p c' occ Hre Hc' Eo) as (p' & _ & Hre' & _ & _ & _ & _ & Hob'). destruct (Hmin p' Hre') as (e' & He' & Hle). rewrite He' in Hob'. apply Inj in Hob'.
    exists e'. split; [|exact Hle]. apply Fo; [destruct Hc' as (S & _); rewrite Sm in S; exact S|exact So|exact Hob'].
Qed.

(** The example calculation. *)
Lemma zero_real_on_grid ns : real_on_grid (mkT ns (fun _ => RtoC 0)).
Proof.
  intros v Ev x Hx. assert (H : forall i, tget v i = RtoC 0).
  { unfold ifftn3 in Ev. destruct (_ <? _)%nat; [discriminate|]. injection Ev as <-. intros i. cbn [tget]. unfold idft. rewrite sumC_zero; [unfold Cdiv; ring|intros; ring]. }
  rewrite H. reflexivity.
Qed.
Lemma ex_orthogonal : dot (m0 (cr_cell ex_crystal)) (m1 (cr_cell ex_crystal)) = 0 /\ dot (m1 (cr_cell ex_crystal)) (m2 (cr_cell ex_crystal)) = 0 /\ dot (m2 (cr_cell ex_crystal)) (m0 (cr_cell ex_crystal)) = 0.
Proof. unfold ex_crystal, crystal_of_ase. cbn [cr_cell a_cell]. unfold m3scale, m3id, vscale, dot. cbn. repeat split; ring. Qed.
Lemma ex_nc_lowest erfc pkg vg : exists pb p0 p e pp V nl,
  nc_problem erfc pkg ex_ase ex_loader ex_loader (fun l => l) ex_loc ex_nl 2 (ex_drv "uniform" true true 8) = Ok pb /\ m3det (cr_cell (pb_crystal pb)) <> 0 /\ nc_init ex_rnd ex_rpw pb = Ok p0 /\
  (pb_electrons pb mod 2 = pb_spin pb mod 2)%Z /\ bands_hold (pb_method pb) (pb_electrons pb) (pb_spin pb) (pb_bands pb) /\ bands_fit_basis pb /\ pb_restricted pb = true /\ contains "gga" (pb_xc pb) = false /\
  create_pseudopotential pkg ex_ase ex_loader ex_loader (ex_drv "uniform" true true 8) = Ok pp /\ ex_loc pp (pb_crystal pb) (pb_G pb) (pb_vol pb) = Ok V /\ ex_nl pp (pb_crystal pb) (pb_G pb) (pb_k pb) = Ok nl /\ real_on_grid V /\
  reachable pb p0 p /\ objective real_gs_qr gs_qr (xc_density linear_lib vg) pb p = Ok e /\
  (forall p', reachable pb p0 p' -> exists e', objective real_gs_qr gs_qr (xc_density linear_lib vg) pb p' = Ok e' /\ e <= e') /\
  forall d, tshape d = 1%nat :: tshape (pb_G pb) -> hartree_real d (pb_G pb).
Proof.
  destruct (ex_nc_attained erfc pkg "uniform" true) as (pb & p0 & pp & V & nl & co & Hpb & HA & Hi & _ & Hpar & Hb & Hfit & _ & Hon & Epp & EV & Enl & _ & Hm); [cbn; tauto|right; reflexivity|].
  assert (F : pb_crystal pb = ex_crystal /\ pb_restricted pb = true /\ contains "gga" (pb_xc pb) = false).
  { destruct (ex_setup erfc pkg "uniform" true true 8 8 (fun _ => do pp <- create_pseudopotential pkg ex_ase ex_loader ex_loader (ex_drv "uniform" true true 8); Ok (fold_right Z.add 0%Z pp))
    (fun cr g k vol => do pp <- create_pseudopotential pkg ex_ase ex_loader ex_loader (ex_drv "uniform" true true 8); do V <- ex_loc pp cr g vol; do psi <- ex_nl pp cr g k; Ok (Some (V, psi)))
    (fun _ => true) 8 (fun G k _ => Some (mkT (tshape G) (fun _ => RtoC 0), mkT ([length k; 1; 1]%nat ++ tshape G) (fun _ => RtoC 1))) 2) as (pb' & H & Hc & _ & _ & _ & Hr & Hx & _);
    [reflexivity|lia|reflexivity|lia|reflexivity|reflexivity|].
    change (nc_problem erfc pkg ex_ase ex_loader ex_loader (fun l => l) ex_loc ex_nl 2 (ex_drv "uniform" true true 8) = Ok pb') in H. rewrite Hpb in H. injection H as <-. rewrite Hx. split; [exact Hc|]. split; [exact Hr|reflexivity]. }
  destruct F as (Hc & Hres & Hx). assert (Hm' : fixed_occ (pb_method pb)) by (destruct Hm as [Hm|Hm]; [exact Hm|discriminate]).
  destruct (nc_least erfc pkg ex_ase ex_loader ex_loader (fun l => l) ex_loc ex_nl 2 ex_rnd ex_rpw (ex_drv "uniform" true true 8) pb p0 real_gs_qr gs_qr linear_lib vg real_gs_qr_ok gs_qr_orthonormal gs_qr_factors ex_rnd_ok ex_rpw_ok Hon Hpb HA Hi Hpar Hb Hfit Hm' Hres (fun t _ => linear_continuous t _)) as (p & e & H1 & H2 & H3).
  exists pb, p0, p, e, pp, V, nl. do 11 (split; [assumption|]). split; [injection EV as <-; apply zero_real_on_grid|]. do 3 (split; [assumption|]).
  intros d Sd. destruct (nc_facts _ _ _ _ _ _ _ _ _ _ pb Hpb) as (Hgr & _). destruct (grid_facts pb Hgr HA) as (n1 & n2 & n3 & HG & Sm & SG & _). rewrite SG in Sd.
  apply (hartree_real_orth (cr_cell (pb_crystal pb)) (pb_G pb) d n1 n2 n3 1 HA HG); try assumption; rewrite Hc; apply ex_orthogonal.
Qed.
