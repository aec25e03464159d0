(** Calculations of lowest free energy (C156). *)
From Coq Require Import Reals Lra Lia FunctionalExtensionality.
From Coquelicot Require Import Coquelicot.
From Coq Require Import Ascii String List Arith ZArith Bool.
From Verif Require Import Base Sums Tensor DFT GridModel PadModel Lin3 VecModel VecProofs OccModel OccSpec OccProofs PwModel PwSpec PwProofs BraketModel XcModel XcSpec EnergyModel EnergySpec HamModel HamSpec XcProofs XcProofs3 HamProofs3 DerProofs
  LocModel NlocModel CalcModel CalcSpec DrvModel DrvSpec DrvProofs2 DrvProofs3 DrvProofs4 DrvProofs5 DrvProofs6 CalcProofs3 BoundSpec BoundProofs2 ReachSpec ReachProofs2 ReachProofs3 GeomSpec IdemSpec IdemProofs IdemProofs2 AttSpec AttProofs5 NcAttSpec NcAttProofs NcAttProofs2 KsSpec KsProofs4 KsLevels KsProofs5 NcKsSpec NcKsProofs NcKsProofs2
  SimSpec SimProofs SimProofs2 SimProofs3 TempSpec TempProofs TempProofs2 SmearSpec SmearProofs.
Import ListNotations.
Local Open Scope R_scope.

Lemma entropy_value_ext eps occ occ' S K B : tshape occ = [S; K; B] -> teq occ' occ -> entropy_value eps occ' = entropy_value eps occ.
Proof.
  intros So (T1 & T2). assert (So' : tshape occ' = [S; K; B]) by congruence. unfold entropy_value. rewrite (fermi_dirac_eq occ eps _ _ _ So), (fermi_dirac_eq occ' eps _ _ _ So').
  f_equal. rewrite So', So. apply sumR_ext. intros i Hi. apply in_indices in Hi. rewrite T2 by (rewrite So'; exact Hi). reflexivity.
Qed.

Lemma smeared_filling lib vg xt A c pos ch G kpts vol occ d B n1 n2 n3 eps T e0 h0 : let ns := [n1; n2; n3] in let K := length kpts in let ts := split_on "+" xt in let xcd := xc_density lib vg in
  contains "gga" xt = false -> (forall t b, In t ts -> lib t b <> None) -> m3det A <> 0 -> 0 < vol -> g_vectors A ns = Ok G -> length ch = length pos ->
  tshape c = [1%nat; K; B] ++ ns -> tshape occ = [1%nat; K; B] -> density_grid c vol (Some occ) = Ok d ->
  (forall x, inb x ns -> ex_derive (local_particle lib ts) (tget d (0%nat :: x))) -> within 0 (2 / INR K) occ -> 0 < eps ->
  total_energy xcd c pos ch G kpts vol (Some occ) false xt = Ok e0 -> fermi_dirac occ eps = Ok h0 ->
  (forall occ', tshape occ' = [1%nat; K; B] -> within 0 (2 / INR K) occ' -> total occ' = total occ -> no_new_ends (2 / INR K) occ occ' ->
    exists e' h', total_energy xcd c pos ch G kpts vol (Some occ') false xt = Ok e' /\ fermi_dirac occ' eps = Ok h' /\ e0 - T * h0 <= e' - T * h') ->
  smeared (fun x => hamiltonian_matrix xcd x pos ch d G kpts vol xt true) K B (2 / INR K) eps T c occ.
Proof.
  intros ns K ts xcd Hg Hl HA Hv HG Hp Sc So Hd Hex Hw He He0 Hh0 Hmin.
  destruct (occupation_derivative lib vg xt A c pos ch G kpts vol occ occ d B n1 n2 n3 Hg Hl HA Hv HG Hp Sc So Hd Hex) as (M & _ & HM & _).
  apply (smear_gen c occ K B eps T M _ (fun o => match total_energy xcd c pos ch G kpts vol (Some o) false xt with Ok e => e | Err _ => 0 end) So Hw He HM).
  - intros o. destruct (occupation_derivative lib vg xt A c pos ch G kpts vol occ o d B n1 n2 n3 Hg Hl HA Hv HG Hp Sc So Hd Hex) as (M' & E & HM' & HE & DE). rewrite HM in HM'. injection HM' as <-.
    apply (is_derive_ext E); [|exact DE]. intros t. unfold xcd. rewrite HE. reflexivity.
  - intros occ' S' W' T' N'. destruct (Hmin occ' S' W' T' N') as (e' & h' & E1 & E2 & L). unfold entropy_value. rewrite He0, Hh0, E1, E2. exact L.
Qed.

Lemma nc_smeared_filling lib vg xt A c V nl G kpts vol occ d B n1 n2 n3 nb nm eps T e0 h0 : let ns := [n1; n2; n3] in let K := length kpts in let ts := split_on "+" xt in let xcd := xc_density lib vg in
  contains "gga" xt = false -> (forall t b, In t ts -> lib t b <> None) -> m3det A <> 0 -> 0 < vol -> g_vectors A ns = Ok G -> tshape V = ns -> tshape nl = [K; nb; nm] ++ ns -> real_on_grid V ->
  tshape c = [1%nat; K; B] ++ ns -> tshape occ = [1%nat; K; B] -> density_grid c vol (Some occ) = Ok d -> hartree_real d G ->
  (forall x, inb x ns -> ex_derive (local_particle lib ts) (tget d (0%nat :: x))) -> within 0 (2 / INR K) occ -> 0 < eps ->
  valence_energy xcd G kpts vol V nl xt c occ e0 -> fermi_dirac occ eps = Ok h0 ->
  (forall occ', tshape occ' = [1%nat; K; B] -> within 0 (2 / INR K) occ' -> total occ' = total occ -> no_new_ends (2 / INR K) occ occ' ->
    exists e' h', valence_energy xcd G kpts vol V nl xt c occ' e' /\ fermi_dirac occ' eps = Ok h' /\ e0 - T * h0 <= e' - T * h') ->
  smeared (fun x => nl_hamiltonian_matrix xcd x d V nl G kpts vol xt true) K B (2 / INR K) eps T c occ.
Proof.
  intros ns K ts xcd Hg Hl HA Hv HG SV Sn HV Sc So Hd Hr Hex Hw He He0 Hh0 Hmin.
  destruct (ifftn3_eq V [] ns eq_refl SV) as (vl & Evl & _). pose proof (HV vl Evl) as Rvl.
  assert (Sd : tshape d = 1%nat :: ns) by (destruct (density_eq c vol occ 1 K B n1 n2 n3 Sc So) as (d' & Ed' & S & _); rewrite Hd in Ed'; injection Ed' as <-; exact S).
  destruct (scf_potential lib vg xt A G kpts vol n1 n2 n3 Hg Hl HA HG d Sd Hr) as (v & _ & _ & _ & _ & Ev & Sv & _).
  destruct (nc_matrix lib vg xt A G kpts vol V nl vl n1 n2 n3 nb nm Hg Hl HA HG SV Sn Evl Rvl d v B c Sd Hr Ev Sc) as (M & HM & VM).
  destruct (nc_occ_slope lib vg xt A G kpts vol V nl vl n1 n2 n3 nb nm Hg Hl HA Hv HG SV Sn Evl Rvl B c occ d Sc So Hd Hex Hr v M Ev Sv HM) as (F & HF & DF).
  apply (smear_gen c occ K B eps T M _ F So Hw He HM DF).
  intros occ' S' W' T' N'. destruct (Hmin occ' S' W' T' N') as (e' & h' & E1 & E2 & L). apply HF in E1; [|exact S']. apply HF in He0; [|exact So]. unfold entropy_value. rewrite Hh0, E2, <- He0, <- E1. exact L.
Qed.

(** Restricted runs: occupations near to one reached, with no new empty or full states, are reached too. *)
Definition near_reached (qr : tensor R -> tensor R) (pb : problem) (p0 : params) (occ : tensor R) : Prop := let w := 2 / INR (length (pb_k pb)) in
  within 0 w occ /\ forall occ', tshape occ' = [1%nat; length (pb_k pb); pb_bands pb] -> within 0 w occ' -> total occ' = total occ -> no_new_ends w occ occ' -> described qr pb p0 occ'.
Lemma near_idem rnd rpw pb p0 qr occ : reduced_qr qr -> qr_product qr -> shape_ok rnd -> has_grids pb -> ae_init rnd rpw pb = Ok p0 ->
  pb_restricted pb = true -> bands_hold (pb_method pb) (pb_electrons pb) (pb_spin pb) (pb_bands pb) -> pb_method pb = MIdempotent ->
  tshape occ = [1%nat; length (pb_k pb); pb_bands pb] -> described qr pb p0 occ -> near_reached qr pb p0 occ.
Proof.
  intros Hq Hqp Hr Hgr Hi Er Hb Hm So D.
  apply (idem_described rnd rpw pb p0 qr occ Hq Hqp Hr Hgr Hi Hm Er Hb So) in D. destruct D as (Hw & Ht). split; [exact Hw|]. intros occ' So' Hw' Ht' _. apply (idem_described rnd rpw pb p0 qr occ' Hq Hqp Hr Hgr Hi Hm Er Hb So'). split; [exact Hw'|congruence].
Qed.
Lemma near_sim rnd rpw pb p0 qr occ : has_grids pb -> ae_init rnd rpw pb = Ok p0 -> (pb_electrons pb mod 2 = pb_spin pb mod 2)%Z ->
  pb_restricted pb = true -> bands_hold (pb_method pb) (pb_electrons pb) (pb_spin pb) (pb_bands pb) -> pb_method pb = MSimplex -> pb_spin pb = 0%Z ->
  tshape occ = [1%nat; length (pb_k pb); pb_bands pb] -> described qr pb p0 occ -> near_reached qr pb p0 occ.
Proof.
  intros Hgr Hi Hpar Er Hb Hm Hs So D. assert (HK : (1 <= length (pb_k pb))%nat) by (destruct Hgr as (? & ? & ? & _ & _ & HK); exact HK).
  apply (sim_described rnd rpw pb p0 qr HK Hi Hm Hpar Hb occ (fun _ => Hs)) in D. rewrite Er in D. destruct D as ((_ & Hw & Ht & _) & Hn). rewrite cap2 in Hw, Hn. split; [exact Hw|]. intros occ' So' Hw' Ht' Hends.
  apply (sim_described rnd rpw pb p0 qr HK Hi Hm Hpar Hb occ' (fun _ => Hs)). rewrite Er. split.
  - split; [exact So'|]. split; [rewrite cap2; exact Hw'|]. split; [congruence|discriminate].
  - rewrite cap2. intros c k b k' b' Hc Hk Hb' Hk' Hb'' Z F. rewrite So' in Hc. cbn [hd] in Hc.
    assert (I1 : inb [c; k; b] (tshape occ)) by (rewrite So; repeat (apply Forall2_cons; [assumption|]); apply Forall2_nil). assert (I2 : inb [c; k'; b'] (tshape occ)) by (rewrite So; repeat (apply Forall2_cons; [assumption|]); apply Forall2_nil).
    assert (Hc' : (c < hd 0 (tshape occ))%nat) by (rewrite So; exact Hc).
    exact (Hn c k b k' b' Hc' Hk Hb' Hk' Hb'' (proj1 (Hends _ I1) Z) (proj2 (Hends _ I2) F)).
Qed.

Lemma driver_smeared erfc pkg read devices rnd rpw c pb p0 p qr cqr lib vg T : reduced_qr qr -> qr_product qr -> complex_qr cqr -> qr_factors cqr -> shape_ok rnd -> pair_shape_ok rpw ->
  ae_problem erfc pkg read devices c = Ok pb -> m3det (cr_cell (pb_crystal pb)) <> 0 -> length (cr_charges (pb_crystal pb)) = length (cr_positions (pb_crystal pb)) ->
  ae_init rnd rpw pb = Ok p0 -> bands_hold (pb_method pb) (pb_electrons pb) (pb_spin pb) (pb_bands pb) -> bands_fit_basis pb ->
  pb_restricted pb = true -> contains "gga" (pb_xc pb) = false -> (forall t b, In t (split_on "+" (pb_xc pb)) -> lib t b <> None) -> 0 < pb_eps pb ->
  lowest_free qr cqr (xc_density lib vg) pb p0 T p ->
  exists co occ d, get_coeff cqr pb p = Ok co /\ get_occupation qr pb p = Ok occ /\ density_grid co (pb_vol pb) (Some occ) = Ok d /\
    ((forall x, inb x (tshape (pb_G pb)) -> ex_derive (local_particle lib (split_on "+" (pb_xc pb))) (tget d (0%nat :: x))) ->
     let matrix x := hamiltonian_matrix (xc_density lib vg) x (cr_positions (pb_crystal pb)) (map IZR (cr_charges (pb_crystal pb))) d (pb_G pb) (pb_k pb) (pb_vol pb) (pb_xc pb) true in
     kohn_sham_orbitals matrix (tshape (pb_G pb)) (length (pb_k pb)) (pb_bands pb) (pb_mask pb) co occ /\
     (pb_method pb = MIdempotent \/ pb_method pb = MSimplex /\ pb_spin pb = 0%Z -> smeared matrix (length (pb_k pb)) (pb_bands pb) (2 / INR (length (pb_k pb))) (pb_eps pb) T co occ)).
Proof.
  intros Hq Hqp Hcq Hf Hr Hrp Hpb HA Hl Hi Hb Hfit Er Hg Hlib Heps (Hre & f & e & h & Ef & Hmin). apply free_unfold in Ef. destruct Ef as (He & Hh & ->).
  pose proof (setup_grids _ _ _ _ _ _ _ _ _ Hpb) as Hgr. destruct (ae_parity _ _ _ _ _ _ Hpb) as (_ & Hpar & Hio & Hir).
  destruct (grid_facts pb Hgr HA) as (n1 & n2 & n3 & HG & Sm & SG & Hp & Hv).
  pose proof (xc_density_local lib vg false (pb_xc pb) (or_intror eq_refl)) as Hx.
  destruct (ae_objective erfc pkg read devices rnd rpw c pb p0 p qr cqr (xc_density lib vg) Hq Hcq Hr Hrp Hpb Hi Hre Hb Hfit Hx) as (co & occ & Ec & Eo & Hob).
  destruct (coeff_along rnd rpw pb p0 p cqr Hcq Hrp Hi (proj1 Hre) Hfit) as (co2 & Ec2 & Sc & Oc & Zc). rewrite Ec in Ec2. injection Ec2 as <-.
  destruct (occ_along rnd rpw pb p0 p qr Hq Hr Hgr Hi Hre Hpar (fun _ => Hir) Hb) as (occ2 & Eo2 & So & Po & To & _). rewrite Eo in Eo2. injection Eo2 as <-.
  assert (Hbo : basis_orbitals (num_spin (pb_restricted pb)) (length (pb_k pb)) (pb_bands pb) (pb_mask pb) co) by (split; [exact Sc|split; assumption]).
  rewrite Er in *. cbn [num_spin] in *.
  assert (Sc' : tshape co = [1%nat; length (pb_k pb); pb_bands pb] ++ [n1; n2; n3]) by (rewrite Sc, Sm; reflexivity).
  destruct (density_eq co (pb_vol pb) occ 1 _ _ n1 n2 n3 Sc' So) as (d & Ed & _).
  assert (Hl' : length (map IZR (cr_charges (pb_crystal pb))) = length (cr_positions (pb_crystal pb))) by (rewrite map_length; exact Hl).
  assert (Hfd : fermi_dirac occ (pb_eps pb) = Ok h) by (unfold get_entropy in Hh; rewrite Eo in Hh; exact Hh).
  assert (Reach : forall p1 co', reachable pb p0 p1 -> basis_orbitals 1 (length (pb_k pb)) (pb_bands pb) (pb_mask pb) co' -> exists occ' e' h', get_occupation qr pb p1 = Ok occ' /\ fermi_dirac occ' (pb_eps pb) = Ok h' /\
    total_energy (xc_density lib vg) co' (cr_positions (pb_crystal pb)) (map IZR (cr_charges (pb_crystal pb))) (pb_G pb) (pb_k pb) (pb_vol pb) (Some occ') false (pb_xc pb) = Ok e' /\ e - T * h <= e' - T * h').
  { intros p1 co' Hre1 Hbo1. assert (Hbo1' := Hbo1). change 1%nat with (num_spin true) in Hbo1'. rewrite <- Er in Hbo1'.
    destruct (reach_driver erfc pkg read devices rnd rpw c pb p0 p1 qr cqr (xc_density lib vg) co' Hq Hcq Hf Hr Hrp Hpb Hi Hre1 Hb Hfit Hx Hbo1') as (p' & co2 & o3 & Hre' & _ & Eo3 & Eo3' & _ & _ & Hob').
    destruct (Hmin p' Hre') as (f' & e' & h' & Ef' & Hle). apply free_unfold in Ef'. destruct Ef' as (He' & Hh' & ->). exists o3, e', h'. split; [exact Eo3|]. split; [unfold get_entropy in Hh'; rewrite Eo3' in Hh'; exact Hh'|]. split; [apply Hob', He'|exact Hle]. }
  exists co, occ, d. split; [exact Ec|]. split; [exact Eo|]. split; [exact Ed|]. intros Hex. rewrite SG in Hex |- *. split.
  - apply (lowest_orbitals lib vg (pb_xc pb) (cr_cell (pb_crystal pb)) co _ _ (pb_G pb) (pb_k pb) (pb_vol pb) occ d (pb_bands pb) n1 n2 n3 (pb_mask pb) e); try assumption.
    + apply Hob, He.
    + intros c' Hc'. destruct (Reach p c' Hre Hc') as (occ' & e' & h' & Eo' & Fh & H1 & H2). rewrite Eo in Eo'. injection Eo' as <-. rewrite Hfd in Fh. injection Fh as <-. exists e'. split; [assumption|lra].
  - intros Hm. assert (D : described qr pb p0 occ) by (exists p, occ; split; [exact Hre|]; split; [exact Eo|apply teq_refl']).
    assert (Nr : near_reached qr pb p0 occ) by (destruct Hm as [Hm|(Hm & Hs)]; [exact (near_idem rnd rpw pb p0 qr occ Hq Hqp Hr Hgr Hi Er Hb Hm So D)|exact (near_sim rnd rpw pb p0 qr occ Hgr Hi Hpar Er Hb Hm Hs So D)]). destruct Nr as (Hw & Nd).
    apply (smeared_filling lib vg (pb_xc pb) (cr_cell (pb_crystal pb)) co _ _ (pb_G pb) (pb_k pb) (pb_vol pb) occ d (pb_bands pb) n1 n2 n3 (pb_eps pb) T e h); try assumption; [apply Hob, He|].
    intros occ' So' Hw' Ht' Hn'. destruct (Nd occ' So' Hw' Ht' Hn') as (p1 & o1 & Hre1 & Eo1 & T1).
    destruct (Reach p1 co Hre1 Hbo) as (o2 & e' & h' & Eo2 & Fh & H1 & H2). rewrite Eo1 in Eo2. injection Eo2 as <-. exists e', h'. split; [|split; [|exact H2]].
    + rewrite <- H1. symmetry. apply (total_occ_ext lib vg (pb_xc pb) (cr_cell (pb_crystal pb)) co _ _ (pb_G pb) (pb_k pb) (pb_vol pb) occ' o1 (pb_bands pb) n1 n2 n3); assumption.
    + pose proof (entropy_value_ext (pb_eps pb) occ' o1 _ _ _ So' T1) as Ev. unfold entropy_value in Ev. rewrite Fh in Ev. rewrite (fermi_dirac_eq occ' (pb_eps pb) _ _ _ So') in Ev |- *. f_equal. symmetry. exact Ev.
Qed.

Lemma valence_occ_ext lib vg xt A c V nl G kpts vol occ occ' B n1 n2 n3 nb nm e : let ns := [n1; n2; n3] in let K := length kpts in let ts := split_on "+" xt in let xcd := xc_density lib vg in
  contains "gga" xt = false -> (forall t b, In t ts -> lib t b <> None) -> m3det A <> 0 -> 0 < vol -> g_vectors A ns = Ok G -> tshape V = ns -> tshape nl = [K; nb; nm] ++ ns ->
  tshape c = [1%nat; K; B] ++ ns -> tshape occ = [1%nat; K; B] -> teq occ' occ -> valence_energy xcd G kpts vol V nl xt c occ' e -> valence_energy xcd G kpts vol V nl xt c occ e.
Proof.
  intros ns K ts xcd Hg Hl HA Hv HG SV Sn Sc So (T1 & T2). assert (So' : tshape occ' = [1%nat; K; B]) by congruence.
  destruct (ifftn3_eq V [] ns eq_refl SV) as (vl & Evl & _).
  destruct (valence_split lib vg xt A c G kpts vol V nl vl occ B nb nm n1 n2 n3 Hg Hl HA Hv HG Sc So SV Sn Evl) as (e1 & He1 & Hsp).
  destruct (valence_split lib vg xt A c G kpts vol V nl vl occ' B nb nm n1 n2 n3 Hg Hl HA Hv HG Sc So' SV Sn Evl) as (e2 & He2 & Hsp').
  rewrite (total_occ_ext lib vg xt A c [] [] G kpts vol occ occ' B n1 n2 n3 Hg Hl HA Hv HG eq_refl Sc So (conj T1 T2)), He1 in He2. injection He2 as <-.
  assert (E : forall k b, In k (seq 0 K) -> In b (seq 0 B) -> tget occ' [0%nat; k; b] = tget occ [0%nat; k; b]).
  { intros k b Hk Hb. apply in_seq in Hk, Hb. apply T2. rewrite So'. repeat constructor; lia. }
  unfold xcd. rewrite Hsp, Hsp'. fold ns K. intros ->. f_equal; [f_equal|].
  - unfold eloc. f_equal. apply sumR_ext. intros x _. f_equal. unfold rho. apply sumR_ext. intros k Hk. apply sumR_ext. intros b Hb. rewrite E by assumption. reflexivity.
  - unfold enl. apply sumR_ext. intros k Hk. apply sumR_ext. intros b Hb. rewrite E by assumption. reflexivity.
Qed.

(** Norm-conserving runs. *)
Lemma nc_driver_smeared (PP : Type) erfc pkg read (nc us : crystal -> string -> res PP) valence pp_local pp_nonlocal devices rnd rpw c pb p0 p qr cqr lib vg pp V nl T :
  reduced_qr qr -> complex_qr cqr -> qr_factors cqr -> shape_ok rnd -> pair_shape_ok rpw -> on_grid pp_local pp_nonlocal ->
  nc_problem erfc pkg read nc us valence pp_local pp_nonlocal devices c = Ok pb -> m3det (cr_cell (pb_crystal pb)) <> 0 ->
  nc_init rnd rpw pb = Ok p0 -> (pb_electrons pb mod 2 = pb_spin pb mod 2)%Z -> bands_hold (pb_method pb) (pb_electrons pb) (pb_spin pb) (pb_bands pb) -> bands_fit_basis pb ->
  pb_restricted pb = true -> contains "gga" (pb_xc pb) = false -> (forall t b, In t (split_on "+" (pb_xc pb)) -> lib t b <> None) -> 0 < pb_eps pb ->
  create_pseudopotential pkg read nc us c = Ok pp -> pp_local pp (pb_crystal pb) (pb_G pb) (pb_vol pb) = Ok V -> pp_nonlocal pp (pb_crystal pb) (pb_G pb) (pb_k pb) = Ok nl -> real_on_grid V ->
  lowest_free qr cqr (xc_density lib vg) pb p0 T p ->
  exists co occ d, get_coeff cqr pb p = Ok co /\ get_occupation qr pb p = Ok occ /\ density_grid co (pb_vol pb) (Some occ) = Ok d /\
    (hartree_real d (pb_G pb) -> (forall x, inb x (tshape (pb_G pb)) -> ex_derive (local_particle lib (split_on "+" (pb_xc pb))) (tget d (0%nat :: x))) ->
     let matrix x := nl_hamiltonian_matrix (xc_density lib vg) x d V nl (pb_G pb) (pb_k pb) (pb_vol pb) (pb_xc pb) true in
     kohn_sham_orbitals matrix (tshape (pb_G pb)) (length (pb_k pb)) (pb_bands pb) (pb_mask pb) co occ /\
     (pb_method pb = MSimplex -> pb_spin pb = 0%Z -> smeared matrix (length (pb_k pb)) (pb_bands pb) (2 / INR (length (pb_k pb))) (pb_eps pb) T co occ)).
Proof.
  intros Hq Hcq Hf Hr Hrp Hon Hpb HA Hi Hpar Hb Hfit Er Hg Hlib Heps Epp EV Enl HV (Hre & f & e & h & Ef & Hmin). apply free_unfold in Ef. destruct Ef as (He & Hh & ->).
  destruct (nc_facts _ _ _ _ _ _ _ _ _ c pb Hpb) as (Hgr & _). destruct (grid_facts pb Hgr HA) as (m1 & m2 & m3 & HG & Sm & SG & Hp & Hv).
  assert (HP : forall t, In t (split_on "+" (pb_xc pb)) -> pick lib t (num_spin (pb_restricted pb) =? 2)%nat <> None) by (intros t Ht; apply Hlib, Ht).
  destruct (nc_run erfc pkg read nc us valence pp_local pp_nonlocal devices rnd rpw c pb p0 qr cqr lib vg pp V nl Hq Hcq Hf Hr Hrp Hon Hpb HA Hi Hpar Hb Hfit (fun _ => Er) HP Epp EV Enl) as (nb & nm & n1 & n2 & n3 & Sm' & Fo & RS & RD).
  rewrite Sm in Sm'. injection Sm' as <- <- <-. destruct Hon as (Hon1 & Hon2). pose proof (Hon1 _ _ _ _ _ EV) as SV. destruct (Hon2 _ _ _ _ _ Enl) as (nb' & nm' & Sn). rewrite SG in SV, Sn.
  destruct (RS p Hre) as (co & occ & Ec & Eo & (Hbo & So & _) & Hob). rewrite He in Hob. assert (Inj : forall a b : R, Ok a = Ok b -> a = b) by (intros; congruence). apply Inj in Hob.
  rewrite Er in *. cbn [num_spin] in *.
  assert (Sc : tshape co = [1%nat; length (pb_k pb); pb_bands pb] ++ [m1; m2; m3]) by (destruct Hbo as (S & _); rewrite Sm in S; exact S).
  assert (Hfd : fermi_dirac occ (pb_eps pb) = Ok h) by (unfold get_entropy in Hh; rewrite Eo in Hh; exact Hh).
  assert (Reach : forall p1 co' occ', reachable pb p0 p1 -> basis_orbitals 1 (length (pb_k pb)) (pb_bands pb) (pb_mask pb) co' -> get_occupation qr pb p1 = Ok occ' -> tshape occ' = [1%nat; length (pb_k pb); pb_bands pb] ->
    exists e' h', valence_energy (xc_density lib vg) (pb_G pb) (pb_k pb) (pb_vol pb) V nl (pb_xc pb) co' occ' e' /\ fermi_dirac occ' (pb_eps pb) = Ok h' /\ e - T * h <= e' - T * h').
  { intros p1 co' occ' Hre1 Hc' Eo1 So1. destruct (RD p1 co' occ' Hre1 Hc' Eo1) as (p' & _ & Hre' & _ & Eo' & _ & _ & Hob'). destruct (Hmin p' Hre') as (f' & e' & h' & Ef' & Hle). apply free_unfold in Ef'. destruct Ef' as (He' & Hh' & ->).
    exists e', h'. split; [|split; [unfold get_entropy in Hh'; rewrite Eo' in Hh'; exact Hh'|exact Hle]]. rewrite He' in Hob'. apply Inj in Hob'. apply Fo; [destruct Hc' as (S & _); rewrite Sm in S; exact S|exact So1|exact Hob']. }
  destruct (density_eq co (pb_vol pb) occ 1 _ _ m1 m2 m3 Sc So) as (d & Ed & _). exists co, occ, d. split; [exact Ec|]. split; [exact Eo|]. split; [exact Ed|]. intros Hh1 Hex. rewrite SG in Hex |- *. split.
  - apply (nc_lowest_orbitals lib vg (pb_xc pb) (cr_cell (pb_crystal pb)) co V nl (pb_G pb) (pb_k pb) (pb_vol pb) occ d (pb_bands pb) m1 m2 m3 nb' nm' (pb_mask pb) e); try assumption.
    + apply Fo; assumption.
    + intros c' Hc'. destruct (Reach p c' occ Hre Hc' Eo So) as (e' & h' & H1 & Fh & H2). rewrite Hfd in Fh. injection Fh as <-. exists e'. split; [exact H1|lra].
  - intros Hm Hs. assert (D : described qr pb p0 occ) by (exists p, occ; split; [exact Hre|]; split; [exact Eo|apply teq_refl']).
    destruct (near_sim rnd rpw pb p0 qr occ Hgr (proj1 (nc_init_inv rnd rpw pb p0 Hi)) Hpar Er Hb Hm Hs So D) as (Hw & Nd).
    apply (nc_smeared_filling lib vg (pb_xc pb) (cr_cell (pb_crystal pb)) co V nl (pb_G pb) (pb_k pb) (pb_vol pb) occ d (pb_bands pb) m1 m2 m3 nb' nm' (pb_eps pb) T e h); try assumption; [apply Fo; assumption|].
    intros occ' So' Hw' Ht' Hn'. destruct (Nd occ' So' Hw' Ht' Hn') as (p1 & o1 & Hre1 & Eo1 & T1). assert (So1 : tshape o1 = [1%nat; length (pb_k pb); pb_bands pb]) by (rewrite (proj1 T1); exact So').
    destruct (Reach p1 co o1 Hre1 Hbo Eo1 So1) as (e' & h' & H1 & Fh & H2). exists e', h'. split; [|split; [|exact H2]].
    + apply (valence_occ_ext lib vg (pb_xc pb) (cr_cell (pb_crystal pb)) co V nl (pb_G pb) (pb_k pb) (pb_vol pb) occ' o1 (pb_bands pb) m1 m2 m3 nb' nm'); assumption.
    + pose proof (entropy_value_ext (pb_eps pb) occ' o1 _ _ _ So' T1) as Ev. unfold entropy_value in Ev. rewrite Fh in Ev. rewrite (fermi_dirac_eq occ' (pb_eps pb) _ _ _ So') in Ev |- *. f_equal. symmetry. exact Ev.
Qed.
