(** Free energies of all-electron and norm-conserving runs (C155). *)
From Coq Require Import Reals Lra Lia.
From Coquelicot Require Import Coquelicot.
From Coq Require Import Ascii String List Arith ZArith Bool.
From Verif Require Import Base Sums Tensor DFT GridModel GridProofs PadModel PadProofs Lin3 VecModel VecProofs OccModel OccSpec OccProofs PwModel PwSpec PwProofs BraketModel XcModel XcSpec XcProofs XcProofs3 GgaProofs2 EnergyModel EnergySpec EnergyProofs ExtProofs TotalProofs SpinProofs
  LocModel NlocModel CalcModel CalcSpec DrvModel DrvSpec DrvProofs DrvProofs2 DrvProofs3 DrvProofs4 DrvProofs5 DrvProofs6 CalcProofs3 BoundSpec BoundProofs BoundProofs2 ReachSpec ReachProofs ReachProofs2 ReachProofs3 GeomSpec IdemSpec IdemProofs AttSpec AttProofs AttProofs2 AttProofs3 AttProofs4 AttProofs5 NcAttSpec NcAttProofs NcAttProofs2 TempSpec TempProofs TempProofs2.
Import ListNotations.
Local Open Scope R_scope.

Lemma bound_lowest qr cqr xcd pb p0 T m p e h : free_bound qr cqr xcd pb p0 T m -> reachable pb p0 p -> free_energy_of qr cqr xcd pb T p = Ok (m, (e, h)) -> lowest_free qr cqr xcd pb p0 T p.
Proof. intros (H1 & _) Hre Ef. split; [exact Hre|]. exists m, e, h. split; [exact Ef|]. intros p' Hre'. destruct (H1 p' Hre') as (f & e' & h' & E & L). exists f, e', h'. auto. Qed.

Section Ae.
  Context (erfc : R -> R) (pkg : string) (read : string -> res ase_atoms) (devices : nat).
  Context (rnd : list nat -> tensor R) (rpw : list nat -> tensor R * tensor R) (c : cfg) (pb : problem) (p0 : params) (qr : tensor R -> tensor R) (cqr : tensor C -> tensor C) (lib : xclib) (vg : list string -> tensor R -> tensor R -> tensor v3 -> res (tensor C)).
  Hypotheses (Hq : reduced_qr qr) (Hcq : complex_qr cqr) (Hf : qr_factors cqr) (Hr : shape_ok rnd) (Hrp : pair_shape_ok rpw)
    (Hpb : ae_problem erfc pkg read devices c = Ok pb) (HA : m3det (cr_cell (pb_crystal pb)) <> 0) (Hl : length (cr_charges (pb_crystal pb)) = length (cr_positions (pb_crystal pb)))
    (Hi : ae_init rnd rpw pb = Ok p0) (Hb : bands_hold (pb_method pb) (pb_electrons pb) (pb_spin pb) (pb_bands pb)) (Hfit : bands_fit_basis pb)
    (HF : forall t, In t (split_on "+" (pb_xc pb)) -> continuous_functional lib (contains "gga" (pb_xc pb)) t) (Hd : entropy_defined pb) (He : 0 < pb_eps pb).
  Local Notation sp := (num_spin (pb_restricted pb)). Local Notation K := (length (pb_k pb)). Local Notation B := (pb_bands pb). Local Notation xcd := (xc_density lib vg).
  Local Notation N := (IZR (kept_electrons (pb_method pb) (pb_electrons pb) (pb_spin pb))).

  Lemma ae_within p occ : reachable pb p0 p -> get_occupation qr pb p = Ok occ -> within 0 ((3 - INR sp) / INR K) occ.
  Proof.
    intros Hre Eo. destruct (ae_parity _ _ _ _ _ _ Hpb) as (_ & Hpar & Hio & Hir). apply (occ_within rnd rpw pb p0 p qr occ Hq Hr (setup_grids _ _ _ _ _ _ _ _ _ Hpb) Hi Hre Hpar (fun _ => Hir) Hb Hd Eo).
  Qed.

  Lemma ae_run : exists F, (forall (St : (crd -> R) -> Prop) x, let osh := [sp; K; B] in let csh := [sp; K; B] ++ tshape (pb_mask pb) in St x -> (forall y, St y -> forall i, inb i osh -> 0 <= tget (o_of osh y) i) -> cts (crds csh osh) St x (fun y => F (c_of csh y) (o_of osh y))) /\
    (forall p, reachable pb p0 p -> exists co occ, get_occupation qr pb p = Ok occ /\ electron_state sp K B (pb_mask pb) N co occ /\ objective qr cqr xcd pb p = Ok (F co occ)) /\
    (forall p co occ, reachable pb p0 p -> basis_orbitals sp K B (pb_mask pb) co -> get_occupation qr pb p = Ok occ -> exists p', reachable pb p0 p' /\ get_occupation qr pb p' = Ok occ /\ objective qr cqr xcd pb p' = Ok (F co occ)).
  Proof.
    pose proof (setup_grids _ _ _ _ _ _ _ _ _ Hpb) as Hg. destruct (grid_facts pb Hg HA) as (n1 & n2 & n3 & HG & Sm & SG & Hp & Hv).
    assert (Hs : (sp = 1 \/ sp = 2)%nat) by (destruct (pb_restricted pb); [left|right]; reflexivity).
    assert (Hl' : length (map IZR (cr_charges (pb_crystal pb))) = length (cr_positions (pb_crystal pb))) by (rewrite map_length; exact Hl).
    assert (HP : forall t, In t (split_on "+" (pb_xc pb)) -> pick lib t (sp =? 2)%nat <> None).
    { intros t Ht. unfold pick. destruct (HF t Ht ((sp =? 2)%nat && negb (is_exchange t))) as (f & -> & _). discriminate. }
    set (F := energy_value lib (pb_xc pb) sp B [n1; n2; n3] (pb_G pb) (pb_k pb) (cr_positions (pb_crystal pb)) (map IZR (cr_charges (pb_crystal pb))) (pb_vol pb)).
    assert (En : forall c occ, tshape c = [sp; K; B] ++ tshape (pb_mask pb) -> tshape occ = [sp; K; B] ->
      total_energy xcd c (cr_positions (pb_crystal pb)) (map IZR (cr_charges (pb_crystal pb))) (pb_G pb) (pb_k pb) (pb_vol pb) (Some occ) false (pb_xc pb) = Ok (F c occ)).
    { intros co occ Sc So. rewrite Sm in Sc. apply (energy_formula lib vg (pb_xc pb) (cr_cell (pb_crystal pb)) co _ _ (pb_G pb) (pb_k pb) (pb_vol pb) occ _ _ n1 n2 n3 HA HG Hv Hs Hl' Sc So HP). }
    exists F. split; [|split].
    - rewrite Sm. intros St x osh csh Sx Po. apply (cts_energy lib (pb_xc pb) _ _ (pb_G pb) (pb_k pb) (pb_vol pb) _ _ n1 n2 n3 St x Hs HF Sx Po).
    - intros p Hre. destruct (run_state erfc pkg read devices rnd rpw c pb p0 p qr cqr lib vg Hq Hcq Hr Hrp Hpb Hi Hre Hb Hfit) as (co & occ & Eo & Es & Hob). exists co, occ. split; [exact Eo|]. split; [exact Es|]. apply Hob. apply En; apply Es.
    - intros p co occ Hre Hbo Eo. destruct (run_state erfc pkg read devices rnd rpw c pb p0 p qr cqr lib vg Hq Hcq Hr Hrp Hpb Hi Hre Hb Hfit) as (_ & o2 & Eo2 & (_ & So & _) & _). rewrite Eo in Eo2. injection Eo2 as <-.
      destruct (reach_driver erfc pkg read devices rnd rpw c pb p0 p qr cqr xcd co Hq Hcq Hf Hr Hrp Hpb Hi Hre Hb Hfit (xc_density_local lib vg false _ (or_intror eq_refl)) Hbo) as (p' & co2 & o3 & Hre' & Ep & Eo3 & Eo3' & _ & _ & Hob).
      rewrite Eo in Eo3. injection Eo3 as <-. exists p'. split; [exact Hre'|]. split; [exact Eo3'|]. apply Hob. apply En; [apply Hbo|exact So].
  Qed.

  Lemma ae_free T : exists m, free_bound qr cqr xcd pb p0 T m /\ (qr_product qr -> pb_method pb <> MSimplex -> exists p, lowest_free qr cqr xcd pb p0 T p).
  Proof.
    destruct ae_run as (F & HFc & RS & RD). destruct (run_free qr cqr xcd pb p0 F N HFc (start_reachable rnd rpw pb p0 Hi) RS RD ae_within He T) as (m & co & occ & HL & Hm & _ & Att).
    exists m. split; [exact Hm|]. intros Hqp Hms. assert (D : described qr pb p0 occ).
    { destruct (pb_method pb) eqn:Em; [|apply (fixed_limits rnd rpw pb p0 qr _ occ Hi (or_introl Em) HL)|apply (fixed_limits rnd rpw pb p0 qr _ occ Hi (or_intror Em) HL)|congruence|contradiction].
      apply (idem_limits rnd rpw pb p0 qr occ Hq Hqp Hr (setup_grids _ _ _ _ _ _ _ _ _ Hpb) Hi Em); [rewrite Em; exact Hb|exact HL]. }
    destruct (Att D) as (p & e & h & Hre & Ef). exists p. apply (bound_lowest _ _ _ _ _ _ m p e h Hm Hre Ef).
  Qed.

  Lemma ae_error T m p f e h d p' e' : 0 <= T -> free_bound qr cqr xcd pb p0 T m -> reachable pb p0 p -> free_energy_of qr cqr xcd pb T p = Ok (f, (e, h)) -> f <= m + d ->
    reachable pb p0 p' -> objective qr cqr xcd pb p' = Ok e' -> e <= e' + d + T * (2 * INR (pb_bands pb) * ln 2).
  Proof.
    intros HT (HM & _) Hp Ef Hd' Hp' Eo'. destruct ae_run as (F & HFc & RS & RD). destruct (HM p' Hp') as (f' & e2 & h' & Ef' & Lm). pose proof (proj1 (free_unfold _ _ _ _ _ _ _ _ _) Ef') as (E2 & _). rewrite Eo' in E2. injection E2 as <-.
    destruct (setup_grids _ _ _ _ _ _ _ _ _ Hpb) as (_ & _ & _ & _ & _ & HK).
    apply (run_error qr cqr xcd pb p0 F N HFc RS RD ae_within He T p p' d f e h f' e' h' HK HT Hp Hp' Ef Ef'). lra.
  Qed.
End Ae.

Section NcRun.
  Context {PP : Type} (erfc : R -> R) (pkg : string) (read : string -> res ase_atoms) (nc us : crystal -> string -> res PP) (valence : PP -> list Z)
    (pp_local : PP -> crystal -> tensor v3 -> R -> res (tensor C)) (pp_nonlocal : PP -> crystal -> tensor v3 -> list v3 -> res (tensor C)) (devices : nat).
  Context (rnd : list nat -> tensor R) (rpw : list nat -> tensor R * tensor R) (c : cfg) (pb : problem) (p0 : params) (qr : tensor R -> tensor R) (cqr : tensor C -> tensor C) (lib : xclib) (vg : list string -> tensor R -> tensor R -> tensor v3 -> res (tensor C)).
  Hypotheses (Hq : reduced_qr qr) (Hcq : complex_qr cqr) (Hf : qr_factors cqr) (Hr : shape_ok rnd) (Hrp : pair_shape_ok rpw) (Hon : on_grid pp_local pp_nonlocal)
    (Hpb : nc_problem erfc pkg read nc us valence pp_local pp_nonlocal devices c = Ok pb) (HA : m3det (cr_cell (pb_crystal pb)) <> 0)
    (Hi : nc_init rnd rpw pb = Ok p0) (Hpar : (pb_electrons pb mod 2 = pb_spin pb mod 2)%Z) (Hb : bands_hold (pb_method pb) (pb_electrons pb) (pb_spin pb) (pb_bands pb)) (Hfit : bands_fit_basis pb)
    (Hres : fixed_occ (pb_method pb) -> pb_restricted pb = true)
    (HF : forall t, In t (split_on "+" (pb_xc pb)) -> continuous_functional lib (contains "gga" (pb_xc pb)) t) (Hd : entropy_defined pb) (He : 0 < pb_eps pb).
  Local Notation sp := (num_spin (pb_restricted pb)). Local Notation K := (length (pb_k pb)). Local Notation B := (pb_bands pb). Local Notation xcd := (xc_density lib vg).
  Local Notation N := (IZR (kept_electrons (pb_method pb) (pb_electrons pb) (pb_spin pb))).

  Lemma nc_within p occ : reachable pb p0 p -> get_occupation qr pb p = Ok occ -> within 0 ((3 - INR sp) / INR K) occ.
  Proof.
    intros Hre Eo. destruct (nc_facts _ _ _ _ _ _ _ _ _ c pb Hpb) as (Hg & Hir & _). destruct (nc_init_inv rnd rpw pb p0 Hi) as [Hi' _].
    refine (occ_within rnd rpw pb p0 p qr occ Hq Hr Hg Hi' Hre Hpar _ Hb Hd Eo). intros h. rewrite (Hres h). exact Hir.
  Qed.
  Lemma nc_run_free : exists F, (forall (St : (crd -> R) -> Prop) x, let osh := [sp; K; B] in let csh := [sp; K; B] ++ tshape (pb_mask pb) in St x -> (forall y, St y -> forall i, inb i osh -> 0 <= tget (o_of osh y) i) -> cts (crds csh osh) St x (fun y => F (c_of csh y) (o_of osh y))) /\
    (forall p, reachable pb p0 p -> exists co occ, get_occupation qr pb p = Ok occ /\ electron_state sp K B (pb_mask pb) N co occ /\ objective qr cqr xcd pb p = Ok (F co occ)) /\
    (forall p co occ, reachable pb p0 p -> basis_orbitals sp K B (pb_mask pb) co -> get_occupation qr pb p = Ok occ -> exists p', reachable pb p0 p' /\ get_occupation qr pb p' = Ok occ /\ objective qr cqr xcd pb p' = Ok (F co occ)).
  Proof.
    destruct (nc_facts _ _ _ _ _ _ _ _ _ c pb Hpb) as (_ & _ & _ & pp & V & nl & Epp & _ & EV & Enl & _).
    destruct (nc_run erfc pkg read nc us valence pp_local pp_nonlocal devices rnd rpw c pb p0 qr cqr lib vg pp V nl Hq Hcq Hf Hr Hrp Hon Hpb HA Hi Hpar Hb Hfit Hres (pick_continuous pb lib _ HF) Epp EV Enl) as (nb & nm & n1 & n2 & n3 & Sm & Fo & RS & RD).
    assert (Hs : (sp = 1 \/ sp = 2)%nat) by (destruct (pb_restricted pb); [left|right]; reflexivity).
    exists (nc_value lib (pb_xc pb) sp B nb nm [n1; n2; n3] (pb_G pb) (pb_k pb) V nl (pb_vol pb)). split; [|split].
    - rewrite Sm. intros St x osh csh Sx Po. apply (cts_nc lib (pb_xc pb) (pb_G pb) (pb_k pb) V nl (pb_vol pb) _ _ nb nm n1 n2 n3 St x Hs HF Sx Po).
    - intros p Hre. destruct (RS p Hre) as (co & occ & _ & Eo & Es & Hob). exists co, occ. auto.
    - intros p co occ Hre Hco Eo. destruct (RD p co occ Hre Hco Eo) as (p' & co' & Hre' & _ & Eo' & _ & _ & Hob). exists p'. auto.
  Qed.
  Lemma nc_free T : exists m, free_bound qr cqr xcd pb p0 T m /\ (pb_method pb <> MSimplex -> exists p, lowest_free qr cqr xcd pb p0 T p).
  Proof.
    destruct (nc_init_inv rnd rpw pb p0 Hi) as [Hi' Hpl]. destruct nc_run_free as (F & HFc & RS & RD).
    destruct (run_free qr cqr xcd pb p0 F N HFc (start_reachable rnd rpw pb p0 Hi') RS RD nc_within He T) as (m & co & occ & HL & Hm & _ & Att).
    exists m. split; [exact Hm|]. intros Hms. assert (Hfx : fixed_occ (pb_method pb)).
    { destruct (pb_method pb) eqn:Em; [exfalso|left; reflexivity|right; reflexivity|congruence|contradiction]. discriminate. }
    destruct (Att (fixed_limits rnd rpw pb p0 qr _ occ Hi' Hfx HL)) as (p & e & h & Hre & Ef). exists p. apply (bound_lowest _ _ _ _ _ _ m p e h Hm Hre Ef).
  Qed.
  Lemma nc_error T m p f e h d p' e' : 0 <= T -> free_bound qr cqr xcd pb p0 T m -> reachable pb p0 p -> free_energy_of qr cqr xcd pb T p = Ok (f, (e, h)) -> f <= m + d ->
    reachable pb p0 p' -> objective qr cqr xcd pb p' = Ok e' -> e <= e' + d + T * (2 * INR (pb_bands pb) * ln 2).
  Proof.
    intros HT (HM & _) Hp Ef Hd' Hp' Eo'. destruct nc_run_free as (F & HFc & RS & RD). destruct (HM p' Hp') as (f' & e2 & h' & Ef' & Lm). pose proof (proj1 (free_unfold _ _ _ _ _ _ _ _ _) Ef') as (E2 & _). rewrite Eo' in E2. injection E2 as <-.
    destruct (nc_facts _ _ _ _ _ _ _ _ _ c pb Hpb) as ((_ & _ & _ & _ & _ & HK) & _).
    apply (run_error qr cqr xcd pb p0 F N HFc RS RD nc_within He T p p' d f e h f' e' h' HK HT Hp Hp' Ef Ef'). lra.
  Qed.
End NcRun.
