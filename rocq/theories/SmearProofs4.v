(** The state of lowest free energy of capped-simplex calculations (C156). *)
From Coq Require Import Reals Lra Lia FunctionalExtensionality.
From Coquelicot Require Import Coquelicot.
From Coq Require Import Ascii String List Arith ZArith Bool.
From Verif Require Import Base Sums Tensor DFT GridModel GridProofs PadModel PadProofs Lin3 VecModel VecProofs OccModel OccSpec OccProofs PwModel PwSpec PwProofs BraketModel XcModel XcSpec XcProofs XcProofs3 GgaProofs2 EnergyModel EnergySpec EnergyProofs ExtProofs TotalProofs SpinProofs HamModel HamSpec HamProofs3 DerProofs
  LocModel NlocModel CalcModel CalcSpec DrvModel DrvSpec DrvProofs DrvProofs2 DrvProofs3 DrvProofs4 DrvProofs5 DrvProofs6 CalcProofs3 BoundSpec BoundProofs BoundProofs2 ReachSpec ReachProofs ReachProofs2 ReachProofs3 GeomSpec IdemSpec IdemProofs IdemProofs2 AttSpec AttProofs AttProofs2 AttProofs3 AttProofs4 AttProofs5 NcAttSpec NcAttProofs NcAttProofs2
  KsSpec KsProofs4 KsLevels KsProofs5 NcKsSpec NcKsProofs NcKsProofs2 SimSpec SimProofs SimProofs2 SimProofs3 TempSpec TempProofs TempProofs2 TempProofs3 SmearSpec SmearProofs SmearProofs2 SmearProofs3.
Import ListNotations.
Local Open Scope R_scope.

Lemma soft_value occ eps S K B : tshape occ = [S; K; B] -> within 0 ((3 - INR S) / INR K) occ -> fermi_dirac occ eps = Ok (soft_entropy [S; K; B] eps ((3 - INR S) / INR K) occ).
Proof. intros So W. destruct (fermi_dirac occ eps) as [h|] eqn:E; [f_equal; exact (soft_eq occ eps S K B h So W E)|]. rewrite (fermi_dirac_eq occ eps _ _ _ So) in E. discriminate. Qed.
Lemma simplex_entropy pb : pb_method pb = MSimplex -> entropy_defined pb.
Proof. intros E. left. rewrite E. discriminate. Qed.

(** What both kinds of calculation share: [F] is the energy of a state. *)
Lemma sim_free rnd rpw qr cqr xcd pb p0 (F : tensor C -> tensor R -> R) N T : let sp := num_spin (pb_restricted pb) in let K := length (pb_k pb) in let B := pb_bands pb in let csh := [sp; K; B] ++ tshape (pb_mask pb) in let osh := [sp; K; B] in
  (1 <= K)%nat -> ae_init rnd rpw pb = Ok p0 -> pb_method pb = MSimplex -> (pb_electrons pb mod 2 = pb_spin pb mod 2)%Z -> bands_hold (pb_method pb) (pb_electrons pb) (pb_spin pb) B -> (pb_restricted pb = true -> pb_spin pb = 0%Z) ->
  (forall (St : (crd -> R) -> Prop) x, St x -> (forall y, St y -> forall i, inb i osh -> 0 <= tget (o_of osh y) i) -> cts (crds csh osh) St x (fun y => F (c_of csh y) (o_of osh y))) ->
  (forall p, reachable pb p0 p -> exists co occ, get_occupation qr pb p = Ok occ /\ electron_state sp K B (pb_mask pb) N co occ /\ objective qr cqr xcd pb p = Ok (F co occ)) ->
  (forall p co occ, reachable pb p0 p -> basis_orbitals sp K B (pb_mask pb) co -> get_occupation qr pb p = Ok occ -> exists p', reachable pb p0 p' /\ get_occupation qr pb p' = Ok occ /\ objective qr cqr xcd pb p' = Ok (F co occ)) ->
  (forall p occ, reachable pb p0 p -> get_occupation qr pb p = Ok occ -> within 0 ((3 - INR sp) / INR K) occ) -> 0 < pb_eps pb ->
  exists co occ h, basis_orbitals sp K B (pb_mask pb) co /\ capped (pb_restricted pb) K B (pb_electrons pb) (pb_spin pb) occ /\ fermi_dirac occ (pb_eps pb) = Ok h /\ free_bound qr cqr xcd pb p0 T (F co occ - T * h) /\
    (never_both K B (INR (3 - sp) / INR K) occ -> exists p, lowest_free qr cqr xcd pb p0 T p) /\
    forall co' occ', basis_orbitals sp K B (pb_mask pb) co' -> capped (pb_restricted pb) K B (pb_electrons pb) (pb_spin pb) occ' -> exists h', fermi_dirac occ' (pb_eps pb) = Ok h' /\ F co occ - T * h <= F co' occ' - T * h'.
Proof.
  intros sp K B csh osh HK Hi Hm Hpar Hb Hr0 Cf RS RD RW He.
  destruct (limit_free qr cqr xcd pb p0 F N Cf (start_reachable rnd rpw pb p0 Hi) RS RD RW He T) as (co & occ & Hco & HL & FB & Att & Min).
  pose proof (fun o => sim_limits rnd rpw pb p0 qr HK Hi Hm Hpar Hb o Hr0) as Lim.
  assert (Cap : forall o, capped (pb_restricted pb) K B (pb_electrons pb) (pb_spin pb) o -> fermi_dirac o (pb_eps pb) = Ok (soft_entropy osh (pb_eps pb) ((3 - INR sp) / INR K) o)).
  { intros o (So & W & _). apply soft_value; [exact So|]. unfold sp. rewrite <- cap_real. exact W. }
  pose proof (proj1 (Lim occ) HL) as Hc. exists co, occ, (soft_entropy osh (pb_eps pb) ((3 - INR sp) / INR K) occ). split; [exact Hco|]. split; [exact Hc|]. split; [apply Cap, Hc|]. split; [exact FB|]. split.
  - intros Hn. apply Att. apply (sim_described rnd rpw pb p0 qr HK Hi Hm Hpar Hb occ Hr0). split; assumption.
  - intros co' occ' Hco' Hc'. exists (soft_entropy osh (pb_eps pb) ((3 - INR sp) / INR K) occ'). split; [apply Cap, Hc'|]. apply Min; [exact Hco'|apply Lim, Hc'|]. destruct Hc' as (So & W & _). intros i Hi0. apply W. rewrite So. exact Hi0.
Qed.

Lemma sim_smeared erfc pkg read devices rnd rpw c pb p0 qr cqr lib vg T : reduced_qr qr -> complex_qr cqr -> qr_factors cqr -> shape_ok rnd -> pair_shape_ok rpw ->
  ae_problem erfc pkg read devices c = Ok pb -> m3det (cr_cell (pb_crystal pb)) <> 0 -> length (cr_charges (pb_crystal pb)) = length (cr_positions (pb_crystal pb)) ->
  ae_init rnd rpw pb = Ok p0 -> bands_hold (pb_method pb) (pb_electrons pb) (pb_spin pb) (pb_bands pb) -> bands_fit_basis pb -> pb_method pb = MSimplex -> (pb_restricted pb = true -> pb_spin pb = 0%Z) ->
  (forall t, In t (split_on "+" (pb_xc pb)) -> continuous_functional lib (contains "gga" (pb_xc pb)) t) -> 0 < pb_eps pb ->
  let K := length (pb_k pb) in let B := pb_bands pb in let sp := num_spin (pb_restricted pb) in let ts := split_on "+" (pb_xc pb) in
  let pos := cr_positions (pb_crystal pb) in let ch := map IZR (cr_charges (pb_crystal pb)) in let cap := capped (pb_restricted pb) K B (pb_electrons pb) (pb_spin pb) in
  let energy co occ := total_energy (xc_density lib vg) co pos ch (pb_G pb) (pb_k pb) (pb_vol pb) (Some occ) false (pb_xc pb) in
  exists co occ e h, basis_orbitals sp K B (pb_mask pb) co /\ cap occ /\ energy co occ = Ok e /\ fermi_dirac occ (pb_eps pb) = Ok h /\ free_bound qr cqr (xc_density lib vg) pb p0 T (e - T * h) /\
    (forall co' occ', basis_orbitals sp K B (pb_mask pb) co' -> cap occ' -> exists e' h', energy co' occ' = Ok e' /\ fermi_dirac occ' (pb_eps pb) = Ok h' /\ e - T * h <= e' - T * h') /\
    (never_both K B (INR (3 - sp) / INR K) occ -> exists p, lowest_free qr cqr (xc_density lib vg) pb p0 T p) /\
    (pb_restricted pb = true -> contains "gga" (pb_xc pb) = false -> forall d, density_grid co (pb_vol pb) (Some occ) = Ok d -> (forall x, inb x (tshape (pb_G pb)) -> ex_derive (local_particle lib ts) (tget d (0%nat :: x))) ->
     let matrix x := hamiltonian_matrix (xc_density lib vg) x pos ch d (pb_G pb) (pb_k pb) (pb_vol pb) (pb_xc pb) true in
     kohn_sham_orbitals matrix (tshape (pb_G pb)) K B (pb_mask pb) co occ /\ smeared matrix K B (2 / INR K) (pb_eps pb) T co occ).
Proof.
  intros Hq Hcq Hf Hr Hrp Hpb HA Hl Hi Hb Hfit Hm Hr0 HF Heps K B sp ts pos ch cap energy.
  pose proof (setup_grids _ _ _ _ _ _ _ _ _ Hpb) as Hg. destruct (ae_parity _ _ _ _ _ _ Hpb) as (_ & Hpar & _). assert (HK : (1 <= K)%nat) by (destruct Hg as (? & ? & ? & _ & _ & HK); exact HK).
  destruct (grid_facts pb Hg HA) as (n1 & n2 & n3 & HG & Sm & SG & Hp & Hv).
  assert (Hs : (sp = 1 \/ sp = 2)%nat) by (unfold sp; destruct (pb_restricted pb); [left|right]; reflexivity).
  assert (Hl' : length ch = length pos) by (unfold ch; rewrite map_length; exact Hl).
  assert (HP : forall t, In t ts -> pick lib t (sp =? 2)%nat <> None).
  { intros t Ht. unfold pick. destruct (HF t Ht ((sp =? 2)%nat && negb (is_exchange t))) as (f & -> & _). discriminate. }
  set (F := energy_value lib (pb_xc pb) sp B [n1; n2; n3] (pb_G pb) (pb_k pb) pos ch (pb_vol pb)).
  assert (En : forall co occ, tshape co = [sp; K; B] ++ tshape (pb_mask pb) -> tshape occ = [sp; K; B] -> energy co occ = Ok (F co occ)).
  { intros co' occ' Sc So. rewrite Sm in Sc. apply (energy_formula lib vg (pb_xc pb) (cr_cell (pb_crystal pb)) co' _ _ (pb_G pb) (pb_k pb) (pb_vol pb) occ' _ _ n1 n2 n3 HA HG Hv Hs Hl' Sc So HP). }
  destruct (sim_free rnd rpw qr cqr (xc_density lib vg) pb p0 F (IZR (kept_electrons (pb_method pb) (pb_electrons pb) (pb_spin pb))) T HK Hi Hm Hpar Hb Hr0) as (co & occ & h & Hco & Hc & Hh & FB & Att & Min).
  - rewrite Sm. intros St x Sx Po. apply (cts_energy lib (pb_xc pb) _ _ (pb_G pb) (pb_k pb) (pb_vol pb) _ _ n1 n2 n3 St x Hs HF Sx Po).
  - intros p Hre. destruct (run_state erfc pkg read devices rnd rpw c pb p0 p qr cqr lib vg Hq Hcq Hr Hrp Hpb Hi Hre Hb Hfit) as (co & occ & Eo & Es & Hob). exists co, occ. split; [exact Eo|]. split; [exact Es|]. apply Hob. apply En; apply Es.
  - intros p co occ Hre Hbo Eo. destruct (run_state erfc pkg read devices rnd rpw c pb p0 p qr cqr lib vg Hq Hcq Hr Hrp Hpb Hi Hre Hb Hfit) as (_ & o2 & Eo2 & (_ & So & _) & _). rewrite Eo in Eo2. injection Eo2 as <-.
    destruct (reach_driver erfc pkg read devices rnd rpw c pb p0 p qr cqr (xc_density lib vg) co Hq Hcq Hf Hr Hrp Hpb Hi Hre Hb Hfit (xc_density_local lib vg false _ (or_intror eq_refl)) Hbo) as (p' & co2 & o3 & Hre' & Ep & Eo3 & Eo3' & _ & _ & Hob).
    rewrite Eo in Eo3. injection Eo3 as <-. exists p'. split; [exact Hre'|]. split; [exact Eo3'|]. apply Hob. apply En; [apply Hbo|exact So].
  - exact (ae_within erfc pkg read devices rnd rpw c pb p0 qr Hq Hr Hpb Hi Hb (simplex_entropy pb Hm)).
  - exact Heps.
  - assert (Sh : forall o, cap o -> tshape o = [sp; K; B]) by (intros o (So & _); exact So).
    exists co, occ, (F co occ), h. split; [exact Hco|]. split; [exact Hc|]. split; [apply En; [apply Hco|apply Sh, Hc]|]. split; [exact Hh|]. split; [exact FB|].
    assert (Min' : forall co' occ', basis_orbitals sp K B (pb_mask pb) co' -> cap occ' -> exists e' h', energy co' occ' = Ok e' /\ fermi_dirac occ' (pb_eps pb) = Ok h' /\ F co occ - T * h <= e' - T * h').
    { intros co' occ' Hco' Hc'. destruct (Min co' occ' Hco' Hc') as (h' & Hh' & L). exists (F co' occ'), h'. split; [apply En; [apply Hco'|apply Sh, Hc']|]. split; [exact Hh'|exact L]. }
    split; [exact Min'|]. split; [exact Att|]. intros Er Hgga d Hd Hex matrix.
    assert (Hlib : forall t b, In t ts -> lib t b <> None) by (intros t b Ht; destruct (HF t Ht b) as (f & -> & _); discriminate).
    pose proof Hc as (So & Hw & Ht & _). rewrite SG in Hex |- *. assert (Sco : tshape co = [sp; K; B] ++ tshape (pb_mask pb)) by apply Hco. rewrite Sm in Sco.
    assert (E0 : energy co occ = Ok (F co occ)) by (apply En; [apply Hco|exact So]).
    assert (sp1 : num_spin (pb_restricted pb) = 1%nat) by (rewrite Er; reflexivity).
    assert (MinC : forall c', basis_orbitals 1 K B (pb_mask pb) c' -> exists e', energy c' occ = Ok e' /\ F co occ <= e').
    { intros c' Hc'. destruct (Min' c' occ) as (e' & h' & E1 & E2 & L); [unfold sp; rewrite sp1; exact Hc'|exact Hc|]. rewrite Hh in E2. injection E2 as <-. exists e'. split; [exact E1|lra]. }
    assert (MinO : forall occ', tshape occ' = [1%nat; K; B] -> within 0 (2 / INR K) occ' -> total occ' = total occ -> exists e' h', energy co occ' = Ok e' /\ fermi_dirac occ' (pb_eps pb) = Ok h' /\ F co occ - T * h <= e' - T * h').
    { intros occ' S' W' T'. apply Min'; [exact Hco|]. destruct Hc as (_ & _ & Hct & _). unfold cap. rewrite Er. split; [exact S'|]. split; [rewrite cap2; exact W'|]. split; [congruence|discriminate]. }
    clearbody F. change (INR (3 - sp) / INR K) with (INR (3 - num_spin (pb_restricted pb)) / INR K) in Hw. rewrite Er, cap2 in Hw. change sp with (num_spin (pb_restricted pb)) in Sco. rewrite sp1 in So, Sco. assert (Hco1 : basis_orbitals 1 K B (pb_mask pb) co) by (rewrite <- sp1; exact Hco). split.
    + apply (lowest_orbitals lib vg (pb_xc pb) (cr_cell (pb_crystal pb)) co pos ch (pb_G pb) (pb_k pb) (pb_vol pb) occ d B n1 n2 n3 (pb_mask pb) (F co occ)); try assumption.
    + apply (smeared_filling lib vg (pb_xc pb) (cr_cell (pb_crystal pb)) co pos ch (pb_G pb) (pb_k pb) (pb_vol pb) occ d B n1 n2 n3 (pb_eps pb) T (F co occ) h); try assumption.
      intros occ' S' W' T' _. apply MinO; assumption.
Qed.

Lemma sim_nc_smeared (PP : Type) erfc pkg read (nc us : crystal -> string -> res PP) valence pp_local pp_nonlocal devices rnd rpw c pb p0 qr cqr lib vg pp V nl T :
  reduced_qr qr -> complex_qr cqr -> qr_factors cqr -> shape_ok rnd -> pair_shape_ok rpw -> on_grid pp_local pp_nonlocal ->
  nc_problem erfc pkg read nc us valence pp_local pp_nonlocal devices c = Ok pb -> m3det (cr_cell (pb_crystal pb)) <> 0 ->
  nc_init rnd rpw pb = Ok p0 -> (pb_electrons pb mod 2 = pb_spin pb mod 2)%Z -> bands_hold (pb_method pb) (pb_electrons pb) (pb_spin pb) (pb_bands pb) -> bands_fit_basis pb -> pb_method pb = MSimplex -> (pb_restricted pb = true -> pb_spin pb = 0%Z) ->
  (forall t, In t (split_on "+" (pb_xc pb)) -> continuous_functional lib (contains "gga" (pb_xc pb)) t) -> 0 < pb_eps pb ->
  create_pseudopotential pkg read nc us c = Ok pp -> pp_local pp (pb_crystal pb) (pb_G pb) (pb_vol pb) = Ok V -> pp_nonlocal pp (pb_crystal pb) (pb_G pb) (pb_k pb) = Ok nl ->
  let K := length (pb_k pb) in let B := pb_bands pb in let sp := num_spin (pb_restricted pb) in let ts := split_on "+" (pb_xc pb) in
  let cap := capped (pb_restricted pb) K B (pb_electrons pb) (pb_spin pb) in let energy := valence_energy (xc_density lib vg) (pb_G pb) (pb_k pb) (pb_vol pb) V nl (pb_xc pb) in
  exists co occ e h, basis_orbitals sp K B (pb_mask pb) co /\ cap occ /\ energy co occ e /\ fermi_dirac occ (pb_eps pb) = Ok h /\ free_bound qr cqr (xc_density lib vg) pb p0 T (e - T * h) /\
    (forall co' occ', basis_orbitals sp K B (pb_mask pb) co' -> cap occ' -> exists e' h', energy co' occ' e' /\ fermi_dirac occ' (pb_eps pb) = Ok h' /\ e - T * h <= e' - T * h') /\
    (never_both K B (INR (3 - sp) / INR K) occ -> exists p, lowest_free qr cqr (xc_density lib vg) pb p0 T p) /\
    (pb_restricted pb = true -> contains "gga" (pb_xc pb) = false -> real_on_grid V -> forall d, density_grid co (pb_vol pb) (Some occ) = Ok d -> hartree_real d (pb_G pb) -> (forall x, inb x (tshape (pb_G pb)) -> ex_derive (local_particle lib ts) (tget d (0%nat :: x))) ->
     let matrix x := nl_hamiltonian_matrix (xc_density lib vg) x d V nl (pb_G pb) (pb_k pb) (pb_vol pb) (pb_xc pb) true in
     kohn_sham_orbitals matrix (tshape (pb_G pb)) K B (pb_mask pb) co occ /\ smeared matrix K B (2 / INR K) (pb_eps pb) T co occ).
Proof.
  intros Hq Hcq Hf Hr Hrp Hon Hpb HA Hi Hpar Hb Hfit Hm Hr0 HF Heps Epp EV Enl K B sp ts cap energy.
  destruct (nc_facts _ _ _ _ _ _ _ _ _ c pb Hpb) as (Hg & _). assert (HK : (1 <= K)%nat) by (destruct Hg as (? & ? & ? & _ & _ & HK); exact HK).
  destruct (grid_facts pb Hg HA) as (m1 & m2 & m3 & HG & Sm & SG & Hp & Hv).
  assert (Hs : (sp = 1 \/ sp = 2)%nat) by (unfold sp; destruct (pb_restricted pb); [left|right]; reflexivity).
  assert (Hfx : fixed_occ (pb_method pb) -> pb_restricted pb = true) by (rewrite Hm; intros [?|?]; discriminate).
  pose proof (proj1 (nc_init_inv rnd rpw pb p0 Hi)) as Hi'.
  destruct (nc_run erfc pkg read nc us valence pp_local pp_nonlocal devices rnd rpw c pb p0 qr cqr lib vg pp V nl Hq Hcq Hf Hr Hrp Hon Hpb HA Hi Hpar Hb Hfit Hfx (pick_continuous pb lib _ HF) Epp EV Enl) as (nb & nm & n1 & n2 & n3 & Sm' & Fo & RS & RD).
  rewrite Sm in Sm'. injection Sm' as <- <- <-. set (F := nc_value lib (pb_xc pb) (num_spin (pb_restricted pb)) (pb_bands pb) nb nm [m1; m2; m3] (pb_G pb) (pb_k pb) V nl (pb_vol pb)) in *.
  assert (En : forall co occ, tshape co = [sp; K; B] ++ tshape (pb_mask pb) -> tshape occ = [sp; K; B] -> energy co occ (F co occ)) by (intros co occ Sc So; rewrite Sm in Sc; apply Fo; [exact Sc|exact So|reflexivity]).
  destruct (sim_free rnd rpw qr cqr (xc_density lib vg) pb p0 F (IZR (kept_electrons (pb_method pb) (pb_electrons pb) (pb_spin pb))) T HK Hi' Hm Hpar Hb Hr0) as (co & occ & h & Hco & Hc & Hh & FB & Att & Min).
  - rewrite Sm. intros St x Sx Po. apply (cts_nc lib (pb_xc pb) (pb_G pb) (pb_k pb) V nl (pb_vol pb) _ _ nb nm m1 m2 m3 St x Hs HF Sx Po).
  - intros p Hre. destruct (RS p Hre) as (co & occ & _ & Eo & Es & Hob). exists co, occ. auto.
  - intros p co occ Hre Hco Eo. destruct (RD p co occ Hre Hco Eo) as (p' & co' & Hre' & _ & Eo' & _ & _ & Hob). exists p'. auto.
  - exact (nc_within erfc pkg read nc us valence pp_local pp_nonlocal devices rnd rpw c pb p0 qr Hq Hr Hpb Hi Hpar Hb Hfx (simplex_entropy pb Hm)).
  - exact Heps.
  - assert (Sh : forall o, cap o -> tshape o = [sp; K; B]) by (intros o (So & _); exact So).
    exists co, occ, (F co occ), h. split; [exact Hco|]. split; [exact Hc|]. split; [apply En; [apply Hco|apply Sh, Hc]|]. split; [exact Hh|]. split; [exact FB|].
    assert (Min' : forall co' occ', basis_orbitals sp K B (pb_mask pb) co' -> cap occ' -> exists e' h', energy co' occ' e' /\ fermi_dirac occ' (pb_eps pb) = Ok h' /\ F co occ - T * h <= e' - T * h').
    { intros co' occ' Hco' Hc'. destruct (Min co' occ' Hco' Hc') as (h' & Hh' & L). exists (F co' occ'), h'. split; [apply En; [apply Hco'|apply Sh, Hc']|]. split; [exact Hh'|exact L]. }
    split; [exact Min'|]. split; [exact Att|]. intros Er Hgga HV d Hd Hhr Hex matrix.
    assert (Hlib : forall t b, In t ts -> lib t b <> None) by (intros t b Ht; destruct (HF t Ht b) as (f & -> & _); discriminate).
    destruct Hon as (Hon1 & Hon2). pose proof (Hon1 _ _ _ _ _ EV) as SV. destruct (Hon2 _ _ _ _ _ Enl) as (nb' & nm' & Sn). rewrite SG in SV, Sn.
    pose proof Hc as (So & Hw & Ht & _). rewrite SG in Hex |- *. assert (Sco : tshape co = [sp; K; B] ++ tshape (pb_mask pb)) by apply Hco. rewrite Sm in Sco.
    assert (E0 : energy co occ (F co occ)) by (apply En; [apply Hco|exact So]).
    assert (sp1 : num_spin (pb_restricted pb) = 1%nat) by (rewrite Er; reflexivity).
    assert (MinC : forall c', basis_orbitals 1 K B (pb_mask pb) c' -> exists e', energy c' occ e' /\ F co occ <= e').
    { intros c' Hc'. destruct (Min' c' occ) as (e' & h' & E1 & E2 & L); [unfold sp; rewrite sp1; exact Hc'|exact Hc|]. rewrite Hh in E2. injection E2 as <-. exists e'. split; [exact E1|lra]. }
    assert (MinO : forall occ', tshape occ' = [1%nat; K; B] -> within 0 (2 / INR K) occ' -> total occ' = total occ -> exists e' h', energy co occ' e' /\ fermi_dirac occ' (pb_eps pb) = Ok h' /\ F co occ - T * h <= e' - T * h').
    { intros occ' S' W' T'. apply Min'; [exact Hco|]. destruct Hc as (_ & _ & Hct & _). unfold cap. rewrite Er. split; [exact S'|]. split; [rewrite cap2; exact W'|]. split; [congruence|discriminate]. }
    clearbody F. change (INR (3 - sp) / INR K) with (INR (3 - num_spin (pb_restricted pb)) / INR K) in Hw. rewrite Er, cap2 in Hw. change sp with (num_spin (pb_restricted pb)) in Sco. rewrite sp1 in So, Sco. assert (Hco1 : basis_orbitals 1 K B (pb_mask pb) co) by (rewrite <- sp1; exact Hco). split.
    + apply (nc_lowest_orbitals lib vg (pb_xc pb) (cr_cell (pb_crystal pb)) co V nl (pb_G pb) (pb_k pb) (pb_vol pb) occ d B m1 m2 m3 nb' nm' (pb_mask pb) (F co occ)); try assumption.
    + apply (nc_smeared_filling lib vg (pb_xc pb) (cr_cell (pb_crystal pb)) co V nl (pb_G pb) (pb_k pb) (pb_vol pb) occ d B m1 m2 m3 nb' nm' (pb_eps pb) T (F co occ) h); try assumption.
      intros occ' S' W' T' _. apply MinO; assumption.
Qed.
