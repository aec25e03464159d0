(** Calculations of lowest energy (C151). *)
From Coq Require Import Reals Lra Lia FunctionalExtensionality.
From Coquelicot Require Import Coquelicot.
From Coq Require Import Ascii String List Arith ZArith Bool.
From Verif Require Import Base Sums Tensor DFT GridModel PadModel Lin3 VecModel VecProofs OccModel OccSpec OccProofs PwModel PwSpec PwProofs BraketModel XcModel XcSpec EnergyModel HamModel HamSpec XcProofs XcProofs3 HamProofs3 DerProofs
  CalcModel CalcSpec DrvModel DrvSpec DrvProofs2 DrvProofs3 DrvProofs4 DrvProofs5 DrvProofs6 CalcProofs3 BoundProofs2 ReachSpec ReachProofs2 ReachProofs3 GeomSpec IdemSpec IdemProofs IdemProofs2 AttSpec AttProofs5 KsSpec KsProofs4 KsLevels.
Import ListNotations.
Local Open Scope R_scope.

Lemma total_occ_ext lib vg xt A c pos ch G kpts vol occ occ' B n1 n2 n3 : let ns := [n1; n2; n3] in let K := length kpts in let ts := split_on "+" xt in
  contains "gga" xt = false -> (forall t b, In t ts -> lib t b <> None) ->
  m3det A <> 0 -> 0 < vol -> g_vectors A ns = Ok G -> length ch = length pos -> tshape c = [1%nat; K; B] ++ ns -> tshape occ = [1%nat; K; B] -> teq occ' occ ->
  total_energy (xc_density lib vg) c pos ch G kpts vol (Some occ') false xt = total_energy (xc_density lib vg) c pos ch G kpts vol (Some occ) false xt.
Proof.
  intros ns K ts Hg Hl HA Hv HG Hp Sc So (T1 & T2). assert (So' : tshape occ' = [1%nat; K; B]) by congruence.
  rewrite (total_formula lib vg xt A c pos ch G kpts vol occ B n1 n2 n3 Hg Hl HA Hv HG Hp Sc So), (total_formula lib vg xt A c pos ch G kpts vol occ' B n1 n2 n3 Hg Hl HA Hv HG Hp Sc So').
  assert (E : forall k b, In k (seq 0 K) -> In b (seq 0 B) -> tget occ' [0%nat; k; b] = tget occ [0%nat; k; b]).
  { intros k b Hk Hb. apply in_seq in Hk, Hb. apply T2. rewrite So'. repeat constructor; lia. }
  assert (ER : rho [n1; n2; n3] (length kpts) B vol c occ' = rho [n1; n2; n3] (length kpts) B vol c occ).
  { apply functional_extensionality. intros x. unfold rho. apply sumR_ext. intros k Hk. apply sumR_ext. intros b Hb. rewrite E by assumption. reflexivity. }
  rewrite ER. f_equal. do 3 f_equal. unfold fT. f_equal. apply sumR_ext. intros k Hk. apply sumR_ext. intros b Hb. rewrite E by assumption. reflexivity.
Qed.

(** Restricted idempotent runs: the described occupations. *)
Lemma idem_described rnd rpw pb p0 qr occ : reduced_qr qr -> qr_product qr -> shape_ok rnd -> has_grids pb -> ae_init rnd rpw pb = Ok p0 ->
  pb_method pb = MIdempotent -> pb_restricted pb = true -> bands_hold (pb_method pb) (pb_electrons pb) (pb_spin pb) (pb_bands pb) -> tshape occ = [1%nat; length (pb_k pb); pb_bands pb] ->
  described qr pb p0 occ <-> within 0 (2 / INR (length (pb_k pb))) occ /\ total occ = 2 * INR (Z.to_nat ((pb_electrons pb + pb_spin pb) / 2)).
Proof.
  intros Hq Hqp Hr Hpb Hi Hm Er Hb So. pose proof Hpb as (n1 & n2 & n3 & _ & _ & HK). rewrite Hm in Hb. cbn [bands_hold] in Hb.
  pose proof Hi as Hi'. unfold ae_init in Hi'. cbv zeta in Hi'. rewrite Hm in Hi'. cbn [occ_param_init] in Hi'.
  destruct (idempotent_param_init _ _ _ _ _ _) as [q|] eqn:Ei in Hi'; cbn [bind] in Hi'; [|discriminate]. injection Hi' as E0.
  destruct (idem_init_inv rnd _ _ _ _ true q Hr HK Ei) as (_ & Hn0 & _ & Su & Sd). cbv iota in Sd.
  set (K := length (pb_k pb)) in *. set (B := pb_bands pb) in *. set (nu := Z.to_nat ((pb_electrons pb + pb_spin pb) / 2)) in *.
  assert (Hnu : (nu <= B)%nat).
  { unfold nu. destruct Hb as (Hb1 & Hb2). assert ((pb_electrons pb + pb_spin pb) / 2 <= (pb_electrons pb + Z.abs (pb_spin pb)) / 2)%Z by (apply Z.div_le_mono; lia). lia. }
  rewrite <- (idem_reach_restricted qr occ nu K B Hq Hqp HK Hnu So). split.
  - intros (p & o' & ((_ & _ & Hso) & _) & Eo & T). rewrite <- E0 in Hso. cbn [p_occ] in Hso. unfold get_occupation in Eo. rewrite Hm in Eo. destruct (p_occ p) as [u d|]; [|contradiction]. cbn [occupation] in Eo.
    exists u, d, o'. destruct Hso as [H1 H2]. split; [congruence|]. split; [congruence|]. split; [rewrite <- Er; exact Eo|exact T].
  - intros (up & down & o' & H1 & H2 & E & T). exists (Params (p_re p0) (p_im p0) (PDict up down)), o'. split; [|split; [unfold get_occupation; rewrite Hm, Er; exact E|exact T]].
    split; [|rewrite Hm; intros [?|?]; discriminate]. split; [reflexivity|]. split; [reflexivity|]. rewrite <- E0. cbn [p_occ]. split; congruence.
Qed.

Lemma driver_lowest erfc pkg read devices rnd rpw c pb p0 p qr cqr lib vg e : reduced_qr qr -> qr_product qr -> complex_qr cqr -> qr_factors cqr -> shape_ok rnd -> pair_shape_ok rpw ->
  ae_problem erfc pkg read devices c = Ok pb -> m3det (cr_cell (pb_crystal pb)) <> 0 -> length (cr_charges (pb_crystal pb)) = length (cr_positions (pb_crystal pb)) ->
  ae_init rnd rpw pb = Ok p0 -> bands_hold (pb_method pb) (pb_electrons pb) (pb_spin pb) (pb_bands pb) -> bands_fit_basis pb ->
  pb_restricted pb = true -> contains "gga" (pb_xc pb) = false -> (forall t b, In t (split_on "+" (pb_xc pb)) -> lib t b <> None) ->
  reachable pb p0 p -> objective qr cqr (xc_density lib vg) pb p = Ok e ->
  (forall p', reachable pb p0 p' -> exists e', objective qr cqr (xc_density lib vg) pb p' = Ok e' /\ e <= e') ->
  exists co occ d, get_coeff cqr pb p = Ok co /\ get_occupation qr pb p = Ok occ /\ density_grid co (pb_vol pb) (Some occ) = Ok d /\
    ((forall x, inb x (tshape (pb_G pb)) -> ex_derive (local_particle lib (split_on "+" (pb_xc pb))) (tget d (0%nat :: x))) ->
     let matrix x := hamiltonian_matrix (xc_density lib vg) x (cr_positions (pb_crystal pb)) (map IZR (cr_charges (pb_crystal pb))) d (pb_G pb) (pb_k pb) (pb_vol pb) (pb_xc pb) true in
     kohn_sham_orbitals matrix (tshape (pb_G pb)) (length (pb_k pb)) (pb_bands pb) (pb_mask pb) co occ /\
     (pb_method pb = MIdempotent -> filled_from_below matrix (length (pb_k pb)) (pb_bands pb) (2 / INR (length (pb_k pb))) co occ /\ lowest_levels matrix (tshape (pb_G pb)) (length (pb_k pb)) (pb_bands pb) (pb_mask pb) (2 / INR (length (pb_k pb))) co occ)).
Proof.
  intros Hq Hqp Hcq Hf Hr Hrp Hpb HA Hl Hi Hb Hfit Er Hg Hlib Hre He Hmin. pose proof (setup_grids _ _ _ _ _ _ _ _ _ Hpb) as Hgr. destruct (ae_parity _ _ _ _ _ _ Hpb) as (_ & Hpar & Hio & Hir).
  destruct (grid_facts pb Hgr HA) as (n1 & n2 & n3 & HG & Sm & SG & Hp & Hv).
  pose proof (xc_density_local lib vg false (pb_xc pb) (or_intror eq_refl)) as Hx.
  destruct (ae_objective erfc pkg read devices rnd rpw c pb p0 p qr cqr (xc_density lib vg) Hq Hcq Hr Hrp Hpb Hi Hre Hb Hfit Hx) as (co & occ & Ec & Eo & Hob).
  destruct (coeff_along rnd rpw pb p0 p cqr Hcq Hrp Hi (proj1 Hre) Hfit) as (co2 & Ec2 & Sc & Oc & Zc). rewrite Ec in Ec2. injection Ec2 as <-.
  destruct (occ_along rnd rpw pb p0 p qr Hq Hr Hgr Hi Hre Hpar (fun _ => Hir) Hb) as (occ2 & Eo2 & So & Po & To & _). rewrite Eo in Eo2. injection Eo2 as <-.
  assert (Hbo : basis_orbitals (num_spin (pb_restricted pb)) (length (pb_k pb)) (pb_bands pb) (pb_mask pb) co) by (split; [exact Sc|split; assumption]).
  rewrite Er in *. cbn [num_spin] in *.
  assert (Sc' : tshape co = [1%nat; length (pb_k pb); pb_bands pb] ++ [n1; n2; n3]) by (rewrite Sc, Sm; reflexivity).
  destruct (density_eq co (pb_vol pb) occ 1 _ _ n1 n2 n3 Sc' So) as (d & Ed & _).
  assert (Hl' : length (map IZR (cr_charges (pb_crystal pb))) = length (cr_positions (pb_crystal pb))) by (rewrite map_length; exact Hl).
  assert (Reach : forall p1 co', reachable pb p0 p1 -> basis_orbitals 1 (length (pb_k pb)) (pb_bands pb) (pb_mask pb) co' -> exists occ' e', get_occupation qr pb p1 = Ok occ' /\
    total_energy (xc_density lib vg) co' (cr_positions (pb_crystal pb)) (map IZR (cr_charges (pb_crystal pb))) (pb_G pb) (pb_k pb) (pb_vol pb) (Some occ') false (pb_xc pb) = Ok e' /\ e <= e').
  { intros p1 co' Hre1 Hbo1. assert (Hbo1' := Hbo1). change 1%nat with (num_spin true) in Hbo1'. rewrite <- Er in Hbo1'.
    destruct (reach_driver erfc pkg read devices rnd rpw c pb p0 p1 qr cqr (xc_density lib vg) co' Hq Hcq Hf Hr Hrp Hpb Hi Hre1 Hb Hfit Hx Hbo1') as (p' & co2 & o3 & Hre' & _ & Eo3 & _ & _ & _ & Hob').
    destruct (Hmin p' Hre') as (e' & He' & Hle). exists o3, e'. split; [exact Eo3|]. split; [apply Hob', He'|exact Hle]. }
  exists co, occ, d. split; [exact Ec|]. split; [exact Eo|]. split; [exact Ed|]. intros Hex. rewrite SG in Hex |- *. split.
  - apply (lowest_orbitals lib vg (pb_xc pb) (cr_cell (pb_crystal pb)) co _ _ (pb_G pb) (pb_k pb) (pb_vol pb) occ d (pb_bands pb) n1 n2 n3 (pb_mask pb) e); try assumption.
    + apply Hob, He.
    + intros c' Hc'. destruct (Reach p c' Hre Hc') as (occ' & e' & Eo' & H1 & H2). rewrite Eo in Eo'. injection Eo' as <-. exists e'. split; assumption.
  - intros Hm. assert (D : described qr pb p0 occ) by (exists p, occ; split; [exact Hre|]; split; [exact Eo|apply teq_refl']).
    apply (idem_described rnd rpw pb p0 qr occ Hq Hqp Hr Hgr Hi Hm Er Hb So) in D. destruct D as (Hw & Ht).
    assert (Both : forall c' occ', basis_orbitals 1 (length (pb_k pb)) (pb_bands pb) (pb_mask pb) c' -> tshape occ' = [1%nat; length (pb_k pb); pb_bands pb] -> within 0 (2 / INR (length (pb_k pb))) occ' -> total occ' = total occ ->
      exists e', total_energy (xc_density lib vg) c' (cr_positions (pb_crystal pb)) (map IZR (cr_charges (pb_crystal pb))) (pb_G pb) (pb_k pb) (pb_vol pb) (Some occ') false (pb_xc pb) = Ok e' /\ e <= e').
    { intros c' occ' Hc' So' Hw' Ht'. destruct (proj2 (idem_described rnd rpw pb p0 qr occ' Hq Hqp Hr Hgr Hi Hm Er Hb So')) as (p1 & o1 & Hre1 & Eo1 & T1); [split; [exact Hw'|congruence]|].
      destruct (Reach p1 c' Hre1 Hc') as (o2 & e' & Eo2 & H1 & H2). rewrite Eo1 in Eo2. injection Eo2 as <-. exists e'. split; [|exact H2]. rewrite <- H1. symmetry.
      apply (total_occ_ext lib vg (pb_xc pb) (cr_cell (pb_crystal pb)) c' _ _ (pb_G pb) (pb_k pb) (pb_vol pb) occ' o1 (pb_bands pb) n1 n2 n3); try assumption. destruct Hc' as (S & _). rewrite Sm in S. exact S. }
    split.
    + apply (lowest_filling lib vg (pb_xc pb) (cr_cell (pb_crystal pb)) co _ _ (pb_G pb) (pb_k pb) (pb_vol pb) occ d (pb_bands pb) n1 n2 n3 (2 / INR (length (pb_k pb))) e); try assumption; [apply Hob, He|]. intros occ' So' Hw' Ht'. apply Both; assumption.
    + apply (lowest_basis lib vg (pb_xc pb) (cr_cell (pb_crystal pb)) co _ _ (pb_G pb) (pb_k pb) (pb_vol pb) occ d (pb_bands pb) n1 n2 n3 (pb_mask pb) (2 / INR (length (pb_k pb))) e); try assumption. apply Hob, He.
Qed.

(** A functional falling linearly with the density is smooth. *)
Lemma linear_smooth ts r : ex_derive (local_particle linear_lib ts) r.
Proof.
  assert (L : forall x : R, - INR (length ts) * x = local_particle linear_lib ts x).
  { intros x. unfold local_particle, linear_lib. rewrite (sumR_ext ts _ (fun _ => - (x + 0))) by (intros; reflexivity).
    induction ts as [|t ts IH]; [simpl; lra|]. cbn [length]. rewrite S_INR. cbn [sumR]. rewrite <- IH. ring. }
  apply (ex_derive_ext (fun x => - INR (length ts) * x) _ _ L). auto_derive. exact I.
Qed.

Lemma ex_lowest erfc pkg vg : exists pb p0 p e, ae_problem erfc pkg ex_ase 2 (ex_drv "idempotent" true false 8) = Ok pb /\ m3det (cr_cell (pb_crystal pb)) <> 0 /\ length (cr_charges (pb_crystal pb)) = length (cr_positions (pb_crystal pb)) /\ ae_init ex_rnd ex_rpw pb = Ok p0 /\ bands_hold (pb_method pb) (pb_electrons pb) (pb_spin pb) (pb_bands pb) /\ bands_fit_basis pb /\ pb_restricted pb = true /\ pb_method pb = MIdempotent /\ contains "gga" (pb_xc pb) = false /\ reachable pb p0 p /\ objective real_gs_qr gs_qr (xc_density linear_lib vg) pb p = Ok e /\ forall p', reachable pb p0 p' -> exists e', objective real_gs_qr gs_qr (xc_density linear_lib vg) pb p' = Ok e' /\ e <= e'.
Proof.
  destruct (ex_ae erfc pkg "idempotent" true) as (pb & Hpb & HA & Hfit & Hb & Hlen & _ & _ & Hm & Hr & _); [cbn; tauto|].
  destruct (ex_setup erfc pkg "idempotent" true false 8 8 (fun cr => Ok (num_electron cr)) (fun _ _ _ _ => Ok None) (fun r => r) 12 (fun _ _ _ => None) 2) as (pb' & H & _ & _ & _ & _ & _ & Hx & _);
    [reflexivity|lia|reflexivity|lia|reflexivity|reflexivity|].
  change (ae_problem erfc pkg ex_ase 2 (ex_drv "idempotent" true false 8) = Ok pb') in H. rewrite Hpb in H. injection H as <-.
  destruct (ae_parity _ _ _ _ _ _ Hpb) as (_ & Hpar & _).
  pose proof (setup_grids _ _ _ _ _ _ _ _ _ Hpb) as Hg. destruct (init_returns ex_rnd ex_rpw pb Hg Hpar Hb) as [p0 Hi].
  destruct (driver_minimum erfc pkg ex_ase 2 ex_rnd ex_rpw (ex_drv "idempotent" true false 8) pb p0 real_gs_qr gs_qr linear_lib vg real_gs_qr_ok real_gs_qr_product gs_qr_orthonormal gs_qr_factors ex_rnd_ok ex_rpw_ok Hpb HA Hlen Hi Hb Hfit) as (p & e & H1 & H2 & H3).
  - rewrite Hm. discriminate.
  - intros t _. apply linear_continuous.
  - exists pb, p0, p, e. rewrite Hx. repeat (split; [assumption|]). split; [reflexivity|]. split; [assumption|]. split; assumption.
Qed.
