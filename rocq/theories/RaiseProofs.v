(** Raising the cutoff energy (C160). *)
From Coq Require Import Reals Lra Lia.
From Coquelicot Require Import Coquelicot.
From Coq Require Import Ascii String List Arith ZArith Bool.
From Verif Require Import Base Sums Tensor DFT GridModel GridProofs PadModel PadProofs Lin3 VecModel VecProofs OccModel OccSpec OccProofs PwModel PwSpec PwProofs BraketModel XcModel XcSpec XcProofs XcProofs3 GgaProofs2 EnergyModel EnergySpec EnergyProofs ExtProofs TotalProofs SpinProofs
  LocModel NlocModel CalcModel CalcSpec DrvModel DrvSpec DrvProofs2 DrvProofs3 DrvProofs4 DrvProofs5 DrvProofs6 CalcProofs3 BoundSpec BoundProofs BoundProofs2 ReachSpec ReachProofs ReachProofs2 ReachProofs3 GeomSpec IdemSpec IdemProofs AttSpec AttProofs AttProofs2 AttProofs3 AttProofs4 AttProofs5 NcAttSpec NcAttProofs NcAttProofs2 RaiseSpec.
Import ListNotations.
Local Open Scope R_scope.

(** Configurations that agree but for how the mask is made. *)
Definition same_but_mask (c c' : cfg) : Prop :=
  forall k, k <> "cutoff_energy"%string -> k <> "freq_mask_method"%string -> getattr c' k = getattr c k.

Section Same.
  Context (pkg : string) (read : string -> res ase_atoms) (c c' : cfg) (H : same_but_mask c c').
  Local Ltac rw := repeat match goal with |- context[getattr c' ?k] => rewrite (H k) by discriminate end.

  Lemma same_crystal : create_crystal pkg read c' = create_crystal pkg read c.
  Proof. unfold create_crystal. rw. destruct (getattr c "crystal") as [[]|]; cbn [bind]; rw; reflexivity. Qed.
  Lemma same_grids : create_grids pkg read c' = create_grids pkg read c.
  Proof. unfold create_grids. rewrite same_crystal. rw. reflexivity. Qed.
  Lemma same_ewald erfc : get_ewald_coulomb_repulsion erfc pkg read c' = get_ewald_coulomb_repulsion erfc pkg read c.
  Proof. unfold get_ewald_coulomb_repulsion. rewrite same_crystal, same_grids. rw. reflexivity. Qed.
  Lemma same_checker : create_convergence_checker c' = create_convergence_checker c.
  Proof. unfold create_convergence_checker. rw. reflexivity. Qed.
  Lemma same_env : set_env_params c' = set_env_params c.
  Proof. unfold set_env_params. rw. reflexivity. Qed.
  Lemma same_pseudo {PP} (nc us : crystal -> string -> res PP) : create_pseudopotential pkg read nc us c' = create_pseudopotential pkg read nc us c.
  Proof. unfold create_pseudopotential. rewrite same_crystal. rw. reflexivity. Qed.

  Lemma same_setup erfc devices electrons ions init pb m : setup erfc pkg read devices c electrons ions init = Ok pb -> create_freq_mask pkg read c' = Ok m ->
    setup erfc pkg read devices c' electrons ions init = Ok (with_mask pb m).
  Proof.
    intros Hs Hm. unfold setup in *. rewrite same_env, same_crystal, same_grids, same_ewald, same_checker, Hm. rw.
    step Hs u0 E0. step Hs u1 E1. step Hs sm E2. step Hs smr E3. step Hs cr E4. step Hs N E5. step Hs eps E6. step Hs epsr E7. step Hs par E8. cbv zeta in *. step Hs grids E9. destruct grids as [[g r0] k].
    step Hs eb E10. step Hs ebz E11. step Hs xc E12. step Hs xcs E13. step Hs oc E14. step Hs ocs E15. step Hs mk E16. step Hs ew E17. step Hs ck E18. step Hs io E19. step Hs u2 E20. step Hs r E21. step Hs ep E22. step Hs epz E23.
    rewrite ?E0; cbn [bind]. rewrite ?E1, ?E2; cbn [bind]. rewrite ?E3; cbn [bind]. rewrite ?E4; cbn [bind]. rewrite ?E5; cbn [bind]. rewrite ?E6; cbn [bind]. rewrite ?E7; cbn [bind]. rewrite ?E8; cbn [bind]. rewrite ?E9; cbn [bind]. rewrite ?E10; cbn [bind]. rewrite ?E11; cbn [bind].
    rewrite ?E12; cbn [bind]. rewrite ?E13; cbn [bind]. rewrite ?E14; cbn [bind]. rewrite ?E15; cbn [bind]. rewrite ?E17; cbn [bind]. rewrite ?E18; cbn [bind]. rewrite ?E19; cbn [bind]. rewrite ?E20; cbn [bind]. rewrite ?E21; cbn [bind]. rewrite ?E22; cbn [bind]. rewrite ?E23; cbn [bind].
    destruct (num_bands N ebz <? 0)%Z; [discriminate|]. injection Hs as <-. reflexivity.
  Qed.
End Same.

Lemma mask_within_length m m' : mask_within m m' -> (length (mask_positions m) <= length (mask_positions m'))%nat.
Proof.
  intros [Sh Hm]. unfold mask_positions. rewrite Sh.
  assert (G : forall l, (forall i, In i l -> inb i (tshape m)) -> (length (filter (tget m) l) <= length (filter (tget m') l))%nat).
  { induction l as [|a l IH]; intros Hl; [apply le_n|]. cbn [filter]. assert (IH' : (length (filter (tget m) l) <= length (filter (tget m') l))%nat) by (apply IH; intros i Hi; apply Hl; right; exact Hi).
    destruct (tget m a) eqn:E; [rewrite (Hm a (Hl a (or_introl eq_refl)) E); cbn [length]; lia|]. destruct (tget m' a); cbn [length]; lia. }
  apply G. intros i Hi. apply in_indices. exact Hi.
Qed.

Lemma raised_mask pkg read c c' m : raised_cutoff c c' -> create_freq_mask pkg read c = Ok m -> exists m', create_freq_mask pkg read c' = Ok m' /\ mask_within m m'.
Proof.
  intros (Hs & Hk & v & v' & E & E' & Hv & Hv' & He & He' & Hle) H. assert (Sb : same_but_mask c c') by (intros k H1 _; apply Hk, H1).
  unfold create_freq_mask in *. rewrite (same_crystal pkg read c c' Sb). rewrite (Hk "grid_sizes"%string), (Hk "freq_mask_method"%string) by discriminate.
  step H cr E1. step H gs E2. step H n E3. rewrite Hs in *. cbn [bind] in *. change (String.eqb "spherical" "cubic") with false in *. change (String.eqb "spherical" "spherical") with true in *. cbv iota in *.
  rewrite Hv in H. rewrite Hv'. cbn [bind] in *. rewrite He in H. rewrite He'. cbn [bind] in *. rewrite ?E1; cbn [bind]. rewrite ?E2, ?E3; cbn [bind]. rewrite ?E3; cbn [bind].
  unfold spherical_mask in *. step H g E4. rewrite ?E4; cbn [bind]. injection H as <-. eexists. split; [reflexivity|]. split; [reflexivity|].
  intros i _. cbn [tmap tget]. unfold Rleb. destruct (Rle_dec _ _); [|discriminate]. destruct (Rle_dec _ _); [reflexivity|lra].
Qed.

(** The orbitals of the smaller basis are orbitals of the larger one. *)
Lemma basis_within sp K B m m' co : mask_within m m' -> basis_orbitals sp K B m co -> basis_orbitals sp K B m' co.
Proof.
  intros [Sh Hm] (Sc & Oc & Zc). unfold basis_orbitals. rewrite Sh. split; [exact Sc|]. split; [exact Oc|]. intros b i Hb Hi E. apply Zc; [exact Hb|exact Hi|].
  destruct (tget m i) eqn:E1; [|reflexivity]. rewrite (Hm i Hi E1) in E. discriminate.
Qed.

Lemma init_with rnd rpw pb p0 m : ae_init rnd rpw pb = Ok p0 -> exists p0', ae_init rnd rpw (with_mask pb m) = Ok p0' /\ p_occ p0' = p_occ p0.
Proof. unfold ae_init. cbn [with_mask pb_bands pb_electrons pb_k pb_spin pb_crystal pb_method pb_init_restricted pb_mask pb_restricted]. unfold pb_spin. cbn [with_mask pb_crystal]. intros H. step H o E. injection H as <-. rewrite ?E; cbn [bind]. eexists. split; reflexivity. Qed.

Lemma nc_init_with rnd rpw pb p0 m : nc_init rnd rpw pb = Ok p0 -> exists p0', nc_init rnd rpw (with_mask pb m) = Ok p0' /\ p_occ p0' = p_occ p0.
Proof.
  intros Hi. unfold nc_init in Hi. step Hi q E1. step Hi u E2. injection Hi as <-. destruct (init_with rnd rpw pb q m E1) as (p0' & Hi' & Eo). exists p0'. split; [|exact Eo].
  unfold nc_init. rewrite Hi'. cbn [bind]. rewrite Eo. change (pb_devices (with_mask pb m)) with (pb_devices pb). change (pb_method (with_mask pb m)) with (pb_method pb). rewrite E2. reflexivity.
Qed.

Lemma raise_ae erfc pkg read devices rnd rpw c c' pb p0 qr cqr xcd : reduced_qr qr -> complex_qr cqr -> qr_factors cqr -> shape_ok rnd -> pair_shape_ok rpw -> raised_cutoff c c' ->
  ae_problem erfc pkg read devices c = Ok pb -> ae_init rnd rpw pb = Ok p0 -> bands_hold (pb_method pb) (pb_electrons pb) (pb_spin pb) (pb_bands pb) -> bands_fit_basis pb -> xc_local xcd false (pb_xc pb) ->
  exists pb' p0', ae_problem erfc pkg read devices c' = Ok pb' /\ ae_init rnd rpw pb' = Ok p0' /\ mask_within (pb_mask pb) (pb_mask pb') /\ pb' = with_mask pb (pb_mask pb') /\
    (forall p, reachable pb p0 p -> exists p', reachable pb' p0' p' /\ get_occupation qr pb' p' = get_occupation qr pb p /\ get_entropy qr pb' p' = get_entropy qr pb p /\
      forall e, objective qr cqr xcd pb' p' = Ok e <-> objective qr cqr xcd pb p = Ok e) /\
    (forall a, (forall p' e, reachable pb' p0' p' -> objective qr cqr xcd pb' p' = Ok e -> a <= e) -> forall p e, reachable pb p0 p -> objective qr cqr xcd pb p = Ok e -> a <= e).
Proof.
  intros Hq Hcq Hf Hr Hrp Hra Hpb Hi Hb Hfit Hx. assert (Sb : same_but_mask c c') by (intros k H1 _; apply Hra, H1).
  destruct (setup_inv _ _ _ _ _ _ _ _ _ Hpb) as (_ & _ & _ & Hm & _). destruct (raised_mask pkg read c c' _ Hra Hm) as (m & Hm' & Hw).
  assert (Hpb' : ae_problem erfc pkg read devices c' = Ok (with_mask pb m)) by (apply (same_setup pkg read c c' Sb); assumption).
  destruct (init_with rnd rpw pb p0 m Hi) as (p0' & Hi' & Eo). exists (with_mask pb m), p0'. split; [exact Hpb'|]. split; [exact Hi'|]. split; [exact Hw|]. split; [reflexivity|].
  assert (Hfit' : bands_fit_basis (with_mask pb m)) by (unfold bands_fit_basis in *; cbn [with_mask pb_bands pb_mask]; pose proof (mask_within_length _ _ Hw); lia).
  assert (Main : forall p, reachable pb p0 p -> exists p', reachable (with_mask pb m) p0' p' /\ get_occupation qr (with_mask pb m) p' = get_occupation qr pb p /\ get_entropy qr (with_mask pb m) p' = get_entropy qr pb p /\
      forall e, objective qr cqr xcd (with_mask pb m) p' = Ok e <-> objective qr cqr xcd pb p = Ok e).
  { intros p Hre. destruct (ae_objective erfc pkg read devices rnd rpw c pb p0 p qr cqr xcd Hq Hcq Hr Hrp Hpb Hi Hre Hb Hfit Hx) as (co & occ & Ec & Eoc & Hob).
    destruct (coeff_along rnd rpw pb p0 p cqr Hcq Hrp Hi (proj1 Hre) Hfit) as (co2 & Ec2 & Sc & Oc & Zc). rewrite Ec in Ec2. injection Ec2 as <-.
    assert (Hbo : basis_orbitals (num_spin (pb_restricted pb)) (length (pb_k pb)) (pb_bands pb) (pb_mask pb) co) by (split; [exact Sc|split; assumption]).
    assert (Hre' : reachable (with_mask pb m) p0' (Params (p_re p0') (p_im p0') (p_occ p))).
    { destruct Hre as ((_ & _ & H3) & H4). split; [split; [reflexivity|split; [reflexivity|cbn [p_occ]; rewrite Eo; exact H3]]|]. cbn [with_mask pb_method p_occ]. rewrite Eo. exact H4. }
    destruct (reach_driver erfc pkg read devices rnd rpw c' (with_mask pb m) p0' _ qr cqr xcd co Hq Hcq Hf Hr Hrp Hpb' Hi' Hre' Hb Hfit' Hx (basis_within _ _ _ _ _ _ Hw Hbo)) as (p' & co' & occ' & R' & _ & Eo1 & Eo2 & _ & _ & Hob').
    assert (Eocc : occ' = occ) by (change (get_occupation qr pb p = Ok occ') in Eo1; rewrite Eoc in Eo1; injection Eo1; congruence). subst occ'.
    exists p'. split; [exact R'|]. split; [rewrite Eo2, Eoc; reflexivity|]. split; [unfold get_entropy; rewrite Eo2, Eoc; reflexivity|].
    intros e. rewrite (Hob' e), (Hob e). reflexivity. }
  split; [exact Main|]. intros a Ha p e Hre He. destruct (Main p Hre) as (p' & R' & _ & _ & Hob). apply (Ha p' e R'). apply Hob, He.
Qed.

Lemma nc_same {PP} erfc pkg read (nc us : crystal -> string -> res PP) valence pp_local pp_nonlocal devices c c' pb m : same_but_mask c c' -> create_freq_mask pkg read c' = Ok m ->
  nc_problem erfc pkg read nc us valence pp_local pp_nonlocal devices c = Ok pb -> nc_problem erfc pkg read nc us valence pp_local pp_nonlocal devices c' = Ok (with_mask pb m).
Proof. intros Sb Hm H. unfold nc_problem in *. rewrite (same_pseudo pkg read c c' Sb nc us). apply (same_setup pkg read c c' Sb); assumption. Qed.

Lemma raise_nc {PP} erfc pkg read (nc us : crystal -> string -> res PP) valence pp_local pp_nonlocal devices rnd rpw c c' pb p0 qr cqr lib vg :
  reduced_qr qr -> complex_qr cqr -> qr_factors cqr -> shape_ok rnd -> pair_shape_ok rpw -> on_grid pp_local pp_nonlocal -> raised_cutoff c c' ->
  nc_problem erfc pkg read nc us valence pp_local pp_nonlocal devices c = Ok pb -> m3det (cr_cell (pb_crystal pb)) <> 0 ->
  nc_init rnd rpw pb = Ok p0 -> (pb_electrons pb mod 2 = pb_spin pb mod 2)%Z -> bands_hold (pb_method pb) (pb_electrons pb) (pb_spin pb) (pb_bands pb) -> bands_fit_basis pb ->
  (fixed_occ (pb_method pb) -> pb_restricted pb = true) -> (forall t pol, In t (split_on "+" (pb_xc pb)) -> lib t pol <> None) ->
  exists pb' p0', nc_problem erfc pkg read nc us valence pp_local pp_nonlocal devices c' = Ok pb' /\ nc_init rnd rpw pb' = Ok p0' /\ mask_within (pb_mask pb) (pb_mask pb') /\ pb' = with_mask pb (pb_mask pb') /\
    (forall p, reachable pb p0 p -> exists p' e, reachable pb' p0' p' /\ get_occupation qr pb' p' = get_occupation qr pb p /\ get_entropy qr pb' p' = get_entropy qr pb p /\
      objective qr cqr (xc_density lib vg) pb p = Ok e /\ objective qr cqr (xc_density lib vg) pb' p' = Ok e) /\
    (forall a, (forall p' e, reachable pb' p0' p' -> objective qr cqr (xc_density lib vg) pb' p' = Ok e -> a <= e) -> forall p e, reachable pb p0 p -> objective qr cqr (xc_density lib vg) pb p = Ok e -> a <= e).
Proof.
  intros Hq Hcq Hf Hr Hrp Hon Hra Hpb HA Hi Hpar Hb Hfit Hfx HP. assert (Sb : same_but_mask c c') by (intros k H1 _; apply Hra, H1).
  destruct (setup_inv _ _ _ _ _ _ _ _ _ Hpb) as (_ & _ & _ & Hm & _). destruct (raised_mask pkg read c c' _ Hra Hm) as (m & Hm' & Hw).
  pose proof (nc_same erfc pkg read nc us valence pp_local pp_nonlocal devices c c' pb m Sb Hm' Hpb) as Hpb'.
  destruct (nc_init_with rnd rpw pb p0 m Hi) as (p0' & Hi' & Eo). exists (with_mask pb m), p0'. split; [exact Hpb'|]. split; [exact Hi'|]. split; [exact Hw|]. split; [reflexivity|].
  assert (Hfit' : bands_fit_basis (with_mask pb m)) by (unfold bands_fit_basis in *; cbn [with_mask pb_bands pb_mask]; pose proof (mask_within_length _ _ Hw); lia).
  destruct (nc_facts _ _ _ _ _ _ _ _ _ c pb Hpb) as (_ & _ & _ & pp & V & nl & Epp & _ & EV & Enl & _).
  assert (Epp' : create_pseudopotential pkg read nc us c' = Ok pp) by (rewrite (same_pseudo pkg read c c' Sb nc us); exact Epp).
  assert (Main : forall p, reachable pb p0 p -> exists p' e, reachable (with_mask pb m) p0' p' /\ get_occupation qr (with_mask pb m) p' = get_occupation qr pb p /\ get_entropy qr (with_mask pb m) p' = get_entropy qr pb p /\
      objective qr cqr (xc_density lib vg) pb p = Ok e /\ objective qr cqr (xc_density lib vg) (with_mask pb m) p' = Ok e).
  { intros p Hre. destruct (nc_run erfc pkg read nc us valence pp_local pp_nonlocal devices rnd rpw c pb p0 qr cqr lib vg pp V nl Hq Hcq Hf Hr Hrp Hon Hpb HA Hi Hpar Hb Hfit Hfx (fun t Ht => HP t _ Ht) Epp EV Enl) as (nb & nm & n1 & n2 & n3 & Sm & Fo & RS & _).
    destruct (RS p Hre) as (co & occ & _ & Eoc & (Hbo & So & _) & Hob).
    assert (Hre' : reachable (with_mask pb m) p0' (Params (p_re p0') (p_im p0') (p_occ p))).
    { destruct Hre as ((_ & _ & H3) & H4). split; [split; [reflexivity|split; [reflexivity|cbn [p_occ]; rewrite Eo; exact H3]]|]. cbn [with_mask pb_method p_occ]. rewrite Eo. exact H4. }
    destruct (nc_reach erfc pkg read nc us valence pp_local pp_nonlocal devices rnd rpw c' (with_mask pb m) p0' qr cqr lib vg pp V nl _ co Hq Hcq Hf Hr Hrp Hon Hpb' HA Hi' Hpar Hb Hfit' Hfx HP Epp' EV Enl Hre' (basis_within _ _ _ _ _ _ Hw Hbo)) as (p' & co' & occ' & R' & _ & Eo1 & Eo2 & _ & _ & e & He & Hval).
    assert (Eocc : occ' = occ) by (change (get_occupation qr pb p = Ok occ') in Eo1; rewrite Eoc in Eo1; injection Eo1; congruence). subst occ'.
    exists p', e. split; [exact R'|]. split; [rewrite Eo2, Eoc; reflexivity|]. split; [unfold get_entropy; rewrite Eo2, Eoc; reflexivity|]. split; [|exact He].
    rewrite Hob. f_equal. apply Hval. apply Fo; [rewrite <- Sm; apply Hbo|exact So|reflexivity]. }
  split; [exact Main|]. intros a Ha p e Hre He. destruct (Main p Hre) as (p' & e' & R' & _ & _ & H1 & H2). rewrite He in H1. injection H1 as <-. apply (Ha p' e R' H2).
Qed.
