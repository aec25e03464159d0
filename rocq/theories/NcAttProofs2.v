(** Norm-conserving calculations: the parameters reach every orbital, and there is a lowest energy (C150). *)
From Coq Require Import Reals Lra Lia.
From Coquelicot Require Import Coquelicot.
From Coq Require Import Ascii String List Arith ZArith Bool.
From Verif Require Import Base Sums Tensor DFT GridModel GridProofs PadModel PadProofs Lin3 VecModel VecProofs OccModel OccSpec OccProofs PwModel PwSpec PwProofs BraketModel XcModel XcSpec XcProofs XcProofs3 GgaProofs2 EnergyModel EnergySpec EnergyProofs ExtProofs TotalProofs SpinProofs
  LocModel NlocModel CalcModel CalcSpec DrvModel DrvSpec DrvProofs2 DrvProofs3 DrvProofs4 DrvProofs5 DrvProofs6 CalcProofs3 BoundSpec BoundProofs BoundProofs2 ReachSpec ReachProofs ReachProofs2 ReachProofs3 GeomSpec IdemSpec IdemProofs AttSpec AttProofs AttProofs2 AttProofs3 AttProofs4 AttProofs5 NcAttSpec NcAttProofs.
Import ListNotations.
Local Open Scope R_scope.

Lemma valence_objective xcd pb V nl c occ e : pb_ions pb = Some (V, nl) -> objective_at xcd pb c occ = Ok e <-> valence_energy xcd (pb_G pb) (pb_k pb) (pb_vol pb) V nl (pb_xc pb) c occ e.
Proof.
  intros Hi. unfold objective_at, ion_energy, valence_energy. rewrite Hi. split.
  - intros H. destruct (density_grid c (pb_vol pb) (Some occ)) as [d|] eqn:E1 in H; cbn [bind] in H; [|discriminate]. destruct (density_grid_reciprocal c (pb_vol pb) (Some occ)) as [D|] eqn:E2 in H; cbn [bind] in H; [|discriminate].
    destruct (e_kinetic _ _ _ _) as [ek|] eqn:E3 in H; cbn [bind] in H; [|discriminate]. destruct (e_hartree _ _ _ _) as [eh|] eqn:E4 in H; cbn [bind] in H; [|discriminate].
    destruct (energy_local _ _ _) as [el|] eqn:E5 in H; cbn [bind] in H; [|discriminate]. destruct (energy_nonlocal _ _ _ _) as [en|] eqn:E6 in H; cbn [bind] in H; [|discriminate].
    destruct (e_xc _ _ _ _ _ _) as [ex|] eqn:E7 in H; cbn [bind] in H; [|discriminate]. exists d, D, ek, eh, el, en, ex. do 7 (split; [assumption|]). assert (Inj : forall a b : R, Ok a = Ok b -> a = b) by (intros; congruence). apply Inj in H. rewrite <- H. ring.
  - intros (d & D & ek & eh & el & en & ex & E1 & E2 & E3 & E4 & E5 & E6 & E7 & ->). rewrite E1, E2. cbn [bind]. rewrite E3. cbn [bind]. rewrite E4. cbn [bind]. rewrite E5, E6. cbn [bind]. rewrite E7. cbn [bind]. f_equal. ring.
Qed.

Section Nc.
  Context {PP : Type} (erfc : R -> R) (pkg : string) (read : string -> res ase_atoms) (nc us : crystal -> string -> res PP) (valence : PP -> list Z)
    (pp_local : PP -> crystal -> tensor v3 -> R -> res (tensor C)) (pp_nonlocal : PP -> crystal -> tensor v3 -> list v3 -> res (tensor C)) (devices : nat).
  Context (rnd : list nat -> tensor R) (rpw : list nat -> tensor R * tensor R) (c : cfg) (pb : problem) (p0 : params) (qr : tensor R -> tensor R) (cqr : tensor C -> tensor C) (lib : xclib) (vg : list string -> tensor R -> tensor R -> tensor v3 -> res (tensor C)).
  Local Notation sp := (num_spin (pb_restricted pb)). Local Notation K := (length (pb_k pb)). Local Notation B := (pb_bands pb).

  Lemma nc_run pp V nl : reduced_qr qr -> complex_qr cqr -> qr_factors cqr -> shape_ok rnd -> pair_shape_ok rpw -> on_grid pp_local pp_nonlocal ->
    nc_problem erfc pkg read nc us valence pp_local pp_nonlocal devices c = Ok pb -> m3det (cr_cell (pb_crystal pb)) <> 0 ->
    nc_init rnd rpw pb = Ok p0 -> (pb_electrons pb mod 2 = pb_spin pb mod 2)%Z -> bands_hold (pb_method pb) (pb_electrons pb) (pb_spin pb) (pb_bands pb) -> bands_fit_basis pb ->
    (fixed_occ (pb_method pb) -> pb_restricted pb = true) -> (forall t, In t (split_on "+" (pb_xc pb)) -> pick lib t (sp =? 2)%nat <> None) ->
    create_pseudopotential pkg read nc us c = Ok pp -> pp_local pp (pb_crystal pb) (pb_G pb) (pb_vol pb) = Ok V -> pp_nonlocal pp (pb_crystal pb) (pb_G pb) (pb_k pb) = Ok nl ->
    exists nb nm n1 n2 n3, let ns := [n1; n2; n3] in let F := nc_value lib (pb_xc pb) sp B nb nm ns (pb_G pb) (pb_k pb) V nl (pb_vol pb) in
    tshape (pb_mask pb) = ns /\
    (forall co occ e, tshape co = [sp; K; B] ++ ns -> tshape occ = [sp; K; B] -> valence_energy (xc_density lib vg) (pb_G pb) (pb_k pb) (pb_vol pb) V nl (pb_xc pb) co occ e <-> e = F co occ) /\
    (forall p, reachable pb p0 p -> exists co occ, get_coeff cqr pb p = Ok co /\ get_occupation qr pb p = Ok occ /\
      electron_state sp K B (pb_mask pb) (IZR (kept_electrons (pb_method pb) (pb_electrons pb) (pb_spin pb))) co occ /\ objective qr cqr (xc_density lib vg) pb p = Ok (F co occ)) /\
    (forall p co occ, reachable pb p0 p -> basis_orbitals sp K B (pb_mask pb) co -> get_occupation qr pb p = Ok occ ->
      exists p' co', reachable pb p0 p' /\ p_occ p' = p_occ p /\ get_occupation qr pb p' = Ok occ /\ get_coeff cqr pb p' = Ok co' /\ same_up_to_phase sp K B ns co co' /\ objective qr cqr (xc_density lib vg) pb p' = Ok (F co occ)).
  Proof.
    intros Hq Hcq Hf Hr Hrp [Hon1 Hon2] Hpb HA Hi Hpar Hb Hfit Hres HP Epp EV Enl. destruct (nc_facts _ _ _ _ _ _ _ _ _ c pb Hpb) as (Hg & Hir & _ & pp' & V' & nl' & Hpp & _ & HV & Hnl & Hio).
    rewrite Epp in Hpp. injection Hpp as <-. rewrite EV in HV. injection HV as <-. rewrite Enl in Hnl. injection Hnl as <-.
    destruct (nc_init_inv rnd rpw pb p0 Hi) as [Hi' _]. destruct (grid_facts pb Hg HA) as (n1 & n2 & n3 & HG & Sm & SG & Hp & Hv).
    pose proof (Hon1 _ _ _ _ _ EV) as SV. destruct (Hon2 _ _ _ _ _ Enl) as (nb & nm & Sn). rewrite SG in SV, Sn. exists nb, nm, n1, n2, n3. intros ns F.
    assert (Hs : (sp = 1 \/ sp = 2)%nat) by (destruct (pb_restricted pb); [left|right]; reflexivity).
    assert (Fo : forall co occ e, tshape co = [sp; K; B] ++ ns -> tshape occ = [sp; K; B] -> valence_energy (xc_density lib vg) (pb_G pb) (pb_k pb) (pb_vol pb) V nl (pb_xc pb) co occ e <-> e = F co occ).
    { intros co occ e Sc So. apply (nc_formula lib vg (pb_xc pb) (cr_cell (pb_crystal pb)) co (pb_G pb) (pb_k pb) (pb_vol pb) V nl occ sp B nb nm n1 n2 n3 HA HG Hv Hs Sc So SV Sn HP). }
    assert (Ob : forall p co occ, get_coeff cqr pb p = Ok co -> get_occupation qr pb p = Ok occ -> tshape co = [sp; K; B] ++ ns -> tshape occ = [sp; K; B] -> objective qr cqr (xc_density lib vg) pb p = Ok (F co occ)).
    { intros p co occ Ec Eo Sc So. rewrite (objective_unfold qr cqr _ pb p co occ Ec Eo). apply (valence_objective _ pb V nl co occ _ Hio). apply Fo; [exact Sc|exact So|reflexivity]. }
    assert (Oc : forall p, reachable pb p0 p -> exists occ, get_occupation qr pb p = Ok occ /\ tshape occ = [sp; K; B] /\ (forall i, inb i (tshape occ) -> 0 <= tget occ i) /\ total occ = IZR (kept_electrons (pb_method pb) (pb_electrons pb) (pb_spin pb))).
    { intros p Hre. destruct (occ_along rnd rpw pb p0 p qr Hq Hr Hg Hi' Hre Hpar) as (occ & H1 & H2 & H3 & H4 & _); [intros h; rewrite (Hres h); exact Hir|exact Hb|]. exists occ. repeat (split; [assumption|]). assumption. }
    split; [exact Sm|]. split; [exact Fo|]. split.
    - intros p Hre. destruct (coeff_along rnd rpw pb p0 p cqr Hcq Hrp Hi' (proj1 Hre) Hfit) as (co & Ec & Sc & Oco & Zc). destruct (Oc p Hre) as (occ & Eo & So & Po & To).
      exists co, occ. split; [exact Ec|]. split; [exact Eo|]. split; [|apply (Ob p co occ Ec Eo); [rewrite Sm in Sc; exact Sc|exact So]].
      split; [split; [exact Sc|split; [exact Oco|exact Zc]]|]. split; [exact So|]. split; [rewrite So in Po; exact Po|]. rewrite <- To, (total_channels occ _ _ So). unfold BoundSpec.electrons. rewrite So. reflexivity.
    - intros p co occ Hre Hco Eo. destruct (Oc p Hre) as (occ2 & Eo2 & So & _). rewrite Eo in Eo2. injection Eo2 as <-.
      destruct (reach_orbitals cqr (pb_mask pb) _ _ _ co Hcq Hf Hco Hfit) as (re & im & co' & Sr & Sim & Ec & Hph).
      assert (Si : tshape (p_re p0) = pw_param_shape (pb_bands pb) (length (pb_k pb)) (pb_mask pb) (pb_restricted pb) /\ tshape (p_im p0) = pw_param_shape (pb_bands pb) (length (pb_k pb)) (pb_mask pb) (pb_restricted pb)).
      { pose proof Hi' as Hi2. unfold ae_init in Hi2. cbv zeta in Hi2. destruct (occ_param_init _ _ _ _ _ _ _) as [o|] in Hi2; cbn [bind] in Hi2; [|discriminate]. injection Hi2 as <-. cbn [p_re p_im]. apply Hrp. }
      rewrite Sm in Hph. destruct Hco as (Sco & Oco & _). rewrite Sm in Sco, Oco.
      exists (Params re im (p_occ p)), co'. split.
      { destruct Hre as ((_ & _ & H3) & H4). split; [|exact H4]. split; [cbn [p_re]; rewrite Sr, (proj1 Si); destruct (pb_restricted pb); reflexivity|]. split; [cbn [p_im]; rewrite Sim, (proj2 Si); destruct (pb_restricted pb); reflexivity|exact H3]. }
      split; [reflexivity|]. split; [exact Eo|]. split; [exact Ec|]. split; [exact Hph|].
      rewrite (Ob (Params re im (p_occ p)) co' occ Ec Eo) by (first [exact So|rewrite (proj1 Hph); exact Sco]). f_equal. apply (nc_phase lib (pb_xc pb) sp B nb nm ns (pb_G pb) (pb_k pb) V nl (pb_vol pb) co co' occ Hs Oco Hph).
  Qed.

  Lemma nc_reach pp V nl p co : reduced_qr qr -> complex_qr cqr -> qr_factors cqr -> shape_ok rnd -> pair_shape_ok rpw -> on_grid pp_local pp_nonlocal ->
    nc_problem erfc pkg read nc us valence pp_local pp_nonlocal devices c = Ok pb -> m3det (cr_cell (pb_crystal pb)) <> 0 ->
    nc_init rnd rpw pb = Ok p0 -> (pb_electrons pb mod 2 = pb_spin pb mod 2)%Z -> bands_hold (pb_method pb) (pb_electrons pb) (pb_spin pb) (pb_bands pb) -> bands_fit_basis pb ->
    (fixed_occ (pb_method pb) -> pb_restricted pb = true) -> (forall t pol, In t (split_on "+" (pb_xc pb)) -> lib t pol <> None) ->
    create_pseudopotential pkg read nc us c = Ok pp -> pp_local pp (pb_crystal pb) (pb_G pb) (pb_vol pb) = Ok V -> pp_nonlocal pp (pb_crystal pb) (pb_G pb) (pb_k pb) = Ok nl ->
    reachable pb p0 p -> basis_orbitals sp K B (pb_mask pb) co ->
    exists p' co' occ, reachable pb p0 p' /\ p_occ p' = p_occ p /\ get_occupation qr pb p = Ok occ /\ get_occupation qr pb p' = Ok occ /\
      get_coeff cqr pb p' = Ok co' /\ same_up_to_phase sp K B (tshape (pb_mask pb)) co co' /\
      exists e, objective qr cqr (xc_density lib vg) pb p' = Ok e /\ forall e', valence_energy (xc_density lib vg) (pb_G pb) (pb_k pb) (pb_vol pb) V nl (pb_xc pb) co occ e' <-> e' = e.
  Proof.
    intros Hq Hcq Hf Hr Hrp Hon Hpb HA Hi Hpar Hb Hfit Hres HP Epp EV Enl Hre Hco.
    destruct (nc_run pp V nl Hq Hcq Hf Hr Hrp Hon Hpb HA Hi Hpar Hb Hfit Hres (fun t Ht => HP t _ Ht) Epp EV Enl) as (nb & nm & n1 & n2 & n3 & Sm & Fo & RS & RD).
    destruct (RS p Hre) as (_ & occ & _ & Eo & (_ & So & _) & _). destruct (RD p co occ Hre Hco Eo) as (p' & co' & Hre' & Ep & Eo' & Ec & Hph & Hob).
    exists p', co', occ. split; [exact Hre'|]. split; [exact Ep|]. split; [exact Eo|]. split; [exact Eo'|]. split; [exact Ec|]. split; [rewrite Sm; exact Hph|]. eexists. split; [exact Hob|]. intros e'. apply Fo; [|exact So]. rewrite <- Sm. apply Hco.
  Qed.

  Lemma pick_continuous s : (forall t, In t (split_on "+" (pb_xc pb)) -> continuous_functional lib (contains "gga" (pb_xc pb)) t) -> forall t, In t (split_on "+" (pb_xc pb)) -> pick lib t s <> None.
  Proof. intros HF t Ht. unfold pick. destruct (HF t Ht (s && negb (is_exchange t))) as (f & -> & _). discriminate. Qed.

  Lemma nc_infimum pp V nl : reduced_qr qr -> complex_qr cqr -> qr_factors cqr -> shape_ok rnd -> pair_shape_ok rpw -> on_grid pp_local pp_nonlocal ->
    nc_problem erfc pkg read nc us valence pp_local pp_nonlocal devices c = Ok pb -> m3det (cr_cell (pb_crystal pb)) <> 0 ->
    nc_init rnd rpw pb = Ok p0 -> (pb_electrons pb mod 2 = pb_spin pb mod 2)%Z -> bands_hold (pb_method pb) (pb_electrons pb) (pb_spin pb) (pb_bands pb) -> bands_fit_basis pb ->
    (fixed_occ (pb_method pb) -> pb_restricted pb = true) -> (forall t, In t (split_on "+" (pb_xc pb)) -> continuous_functional lib (contains "gga" (pb_xc pb)) t) ->
    create_pseudopotential pkg read nc us c = Ok pp -> pp_local pp (pb_crystal pb) (pb_G pb) (pb_vol pb) = Ok V -> pp_nonlocal pp (pb_crystal pb) (pb_G pb) (pb_k pb) = Ok nl ->
    exists co occ e, electron_state sp K B (pb_mask pb) (IZR (kept_electrons (pb_method pb) (pb_electrons pb) (pb_spin pb))) co occ /\
      limit_occupation [sp; K; B] (described qr pb p0) occ /\ valence_energy (xc_density lib vg) (pb_G pb) (pb_k pb) (pb_vol pb) V nl (pb_xc pb) co occ e /\
      (forall p, reachable pb p0 p -> exists e', objective qr cqr (xc_density lib vg) pb p = Ok e' /\ e <= e') /\
      (forall eps, 0 < eps -> exists p e', reachable pb p0 p /\ objective qr cqr (xc_density lib vg) pb p = Ok e' /\ e' < e + eps) /\
      (described qr pb p0 occ -> exists p, reachable pb p0 p /\ objective qr cqr (xc_density lib vg) pb p = Ok e).
  Proof.
    intros Hq Hcq Hf Hr Hrp Hon Hpb HA Hi Hpar Hb Hfit Hres HF Epp EV Enl.
    destruct (nc_run pp V nl Hq Hcq Hf Hr Hrp Hon Hpb HA Hi Hpar Hb Hfit Hres (pick_continuous _ HF) Epp EV Enl) as (nb & nm & n1 & n2 & n3 & Sm & Fo & RS & RD).
    assert (Hs : (sp = 1 \/ sp = 2)%nat) by (destruct (pb_restricted pb); [left|right]; reflexivity).
    destruct (infimum_gen (nc_value lib (pb_xc pb) sp B nb nm [n1; n2; n3] (pb_G pb) (pb_k pb) V nl (pb_vol pb)) (IZR (kept_electrons (pb_method pb) (pb_electrons pb) (pb_spin pb))) qr cqr (xc_density lib vg) pb p0) as (co & occ & H1 & H2 & H3 & H4 & H5).
    - rewrite Sm. intros St x Sx Po. apply (cts_nc lib (pb_xc pb) (pb_G pb) (pb_k pb) V nl (pb_vol pb) _ _ nb nm n1 n2 n3 St x Hs HF Sx Po).
    - exact (start_reachable rnd rpw pb p0 (proj1 (nc_init_inv rnd rpw pb p0 Hi))).
    - intros p Hre. destruct (RS p Hre) as (co & occ & _ & Eo & Es & Hob). exists co, occ. split; [exact Eo|]. split; [exact Es|exact Hob].
    - intros p co occ Hre Hco Eo. destruct (RD p co occ Hre Hco Eo) as (p' & co' & Hre' & _ & _ & _ & _ & Hob). exists p'. split; [exact Hre'|exact Hob].
    - exists co, occ. eexists. split; [exact H1|]. split; [exact H2|]. split; [apply Fo; [rewrite <- Sm; apply H1|apply H1|reflexivity]|]. split; [exact H3|]. split; [exact H4|exact H5].
  Qed.

  Lemma nc_least : reduced_qr qr -> complex_qr cqr -> qr_factors cqr -> shape_ok rnd -> pair_shape_ok rpw -> on_grid pp_local pp_nonlocal ->
    nc_problem erfc pkg read nc us valence pp_local pp_nonlocal devices c = Ok pb -> m3det (cr_cell (pb_crystal pb)) <> 0 ->
    nc_init rnd rpw pb = Ok p0 -> (pb_electrons pb mod 2 = pb_spin pb mod 2)%Z -> bands_hold (pb_method pb) (pb_electrons pb) (pb_spin pb) (pb_bands pb) -> bands_fit_basis pb ->
    fixed_occ (pb_method pb) -> pb_restricted pb = true -> (forall t, In t (split_on "+" (pb_xc pb)) -> continuous_functional lib (contains "gga" (pb_xc pb)) t) ->
    exists p e, reachable pb p0 p /\ objective qr cqr (xc_density lib vg) pb p = Ok e /\ forall p', reachable pb p0 p' -> exists e', objective qr cqr (xc_density lib vg) pb p' = Ok e' /\ e <= e'.
  Proof.
    intros Hq Hcq Hf Hr Hrp Hon Hpb HA Hi Hpar Hb Hfit Hm Hres HF. destruct (nc_facts _ _ _ _ _ _ _ _ _ c pb Hpb) as (_ & _ & _ & pp & V & nl & Epp & _ & EV & Enl & _).
    destruct (nc_infimum pp V nl Hq Hcq Hf Hr Hrp Hon Hpb HA Hi Hpar Hb Hfit (fun _ => Hres) HF Epp EV Enl) as (co & occ & e & _ & HL & _ & Min & _ & Att).
    destruct (Att (fixed_limits rnd rpw pb p0 qr _ occ (proj1 (nc_init_inv rnd rpw pb p0 Hi)) Hm HL)) as (p & Hre & He). exists p, e. split; [exact Hre|]. split; [exact He|exact Min].
  Qed.
End Nc.

(** The example calculations: the simplex occupations, and the two that are not optimised. *)
Lemma ex_nc_attained erfc pkg occ r : In occ ["uniform"; "gamma"; "simplex-projector"]%string -> (occ = "simplex-projector"%string \/ r = true) ->
  exists pb p0 pp V nl co, nc_problem erfc pkg ex_ase ex_loader ex_loader (fun l => l) ex_loc ex_nl 2 (ex_drv occ r true 8) = Ok pb /\ m3det (cr_cell (pb_crystal pb)) <> 0 /\ nc_init ex_rnd ex_rpw pb = Ok p0 /\ reachable pb p0 p0 /\
    (pb_electrons pb mod 2 = pb_spin pb mod 2)%Z /\ bands_hold (pb_method pb) (pb_electrons pb) (pb_spin pb) (pb_bands pb) /\ bands_fit_basis pb /\ (fixed_occ (pb_method pb) -> pb_restricted pb = true) /\ on_grid ex_loc ex_nl /\
    create_pseudopotential pkg ex_ase ex_loader ex_loader (ex_drv occ r true 8) = Ok pp /\ ex_loc pp (pb_crystal pb) (pb_G pb) (pb_vol pb) = Ok V /\ ex_nl pp (pb_crystal pb) (pb_G pb) (pb_k pb) = Ok nl /\
    basis_orbitals (num_spin (pb_restricted pb)) (length (pb_k pb)) (pb_bands pb) (pb_mask pb) co /\ (fixed_occ (pb_method pb) \/ occ = "simplex-projector"%string).
Proof.
  intros Ho Hor. assert (Ho' : In occ ex_methods) by (cbn in Ho |- *; tauto).
  destruct (ex_nc erfc pkg occ r Ho') as (pb & Hpb & HA & Hfit & Hpar & Hb & Hdv & _ & _ & Hm & Hr & _).
  pose proof (setup_grids _ _ _ _ _ _ _ _ _ Hpb) as Hg. destruct (init_returns ex_rnd ex_rpw pb Hg Hpar Hb) as [p0 Hi].
  assert (Hre : reachable pb p0 p0) by (apply (traj_reachable pb (fun _ p => p) ex_opt ex_rnd ex_rpw p0 0 Hi (fun _ => ex_opt_constants))).
  destruct (coeff_along ex_rnd ex_rpw pb p0 p0 gs_qr gs_qr_orthonormal ex_rpw_ok Hi (proj1 Hre) Hfit) as (co & _ & Sc & Oc & Zc).
  assert (Hni : pb_method pb <> MIdempotent) by (rewrite Hm; cbn in Ho; destruct Ho as [<-|[<-|[<-|[]]]]; discriminate).
  destruct (nc_facts _ _ _ _ _ _ _ _ _ _ pb Hpb) as (_ & _ & _ & pp & V & nl & Epp & _ & EV & Enl & _).
  exists pb, p0, pp, V, nl, co. split; [exact Hpb|]. split; [exact HA|].
  split; [unfold nc_init; rewrite Hi; cbn [bind]; rewrite (proj2 (place_iff ex_rnd ex_rpw pb p0 Hi Hg (proj2 (proj2 (proj2 (proj2 (proj2 (proj2 (proj2 (proj2 (proj2 (nc_setup _ _ _ _ _ _ _ _ _ _ _ Hpb)))))))))))); [reflexivity|]; split; [exact Hni|intros _; exact Hdv]|].
  split; [exact Hre|]. do 3 (split; [assumption|]). split; [|split; [apply ex_on_grid|]].
  { intros h. destruct Hor as [E|E]; [|congruence]. rewrite Hm, E in h. destruct h as [h|h]; discriminate. }
  do 3 (split; [assumption|]).
  split; [split; [exact Sc|split; [exact Oc|exact Zc]]|]. rewrite Hm. cbn in Ho. destruct Ho as [<-|[<-|[<-|[]]]]; [left; left|left; right|right]; reflexivity.
Qed.
