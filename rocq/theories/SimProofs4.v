(** The lowest energy of norm-conserving calculations with capped-simplex occupations (C153). *)
From Coq Require Import Reals Lra Lia Classical.
From Coquelicot Require Import Coquelicot.
From Coq Require Import Ascii String List Arith ZArith Bool.
From Verif Require Import Base Sums Tensor DFT GridModel PadModel Lin3 VecModel VecProofs OccModel OccSpec OccProofs PwModel PwSpec PwProofs BraketModel XcModel XcSpec EnergyModel HamModel HamSpec XcProofs XcProofs3 HamProofs3 DerProofs TotalProofs
  LocModel NlocModel CalcModel CalcSpec DrvModel DrvSpec DrvProofs2 DrvProofs3 DrvProofs4 DrvProofs5 DrvProofs6 CalcProofs3 BoundSpec BoundProofs2 ReachSpec ReachProofs2 ReachProofs3 GeomSpec IdemSpec IdemProofs IdemProofs2 AttSpec AttProofs AttProofs2 AttProofs3 AttProofs4 AttProofs5 NcAttSpec NcAttProofs NcAttProofs2
  KsSpec KsProofs4 KsLevels KsProofs5 NcKsSpec NcKsProofs NcKsProofs2 SimSpec SimProofs SimProofs2 SimProofs3.
Import ListNotations.
Local Open Scope R_scope.

Section Nc.
  Context {PP : Type} (erfc : R -> R) (pkg : string) (read : string -> res ase_atoms) (nc us : crystal -> string -> res PP) (valence : PP -> list Z)
    (pp_local : PP -> crystal -> tensor v3 -> R -> res (tensor C)) (pp_nonlocal : PP -> crystal -> tensor v3 -> list v3 -> res (tensor C)) (devices : nat).
  Context (rnd : list nat -> tensor R) (rpw : list nat -> tensor R * tensor R) (c : cfg) (pb : problem) (p0 : params) (qr : tensor R -> tensor R) (cqr : tensor C -> tensor C) (lib : xclib) (vg : list string -> tensor R -> tensor R -> tensor v3 -> res (tensor C)).
  Context (pp : PP) (V nl : tensor C).
  Local Notation sp := (num_spin (pb_restricted pb)). Local Notation K := (length (pb_k pb)). Local Notation B := (pb_bands pb).
  Local Notation xcd := (xc_density lib vg).
  Local Notation energy := (valence_energy xcd (pb_G pb) (pb_k pb) (pb_vol pb) V nl (pb_xc pb)).
  Local Notation cap := (capped (pb_restricted pb) K B (pb_electrons pb) (pb_spin pb)).
  Hypothesis Hq : reduced_qr qr.
  Hypothesis Hcq : complex_qr cqr.
  Hypothesis Hf : qr_factors cqr.
  Hypothesis Hr : shape_ok rnd.
  Hypothesis Hrp : pair_shape_ok rpw.
  Hypothesis Hon : on_grid pp_local pp_nonlocal.
  Hypothesis Hpb : nc_problem erfc pkg read nc us valence pp_local pp_nonlocal devices c = Ok pb.
  Hypothesis HA : m3det (cr_cell (pb_crystal pb)) <> 0.
  Hypothesis Hi : nc_init rnd rpw pb = Ok p0.
  Hypothesis Hpar : (pb_electrons pb mod 2 = pb_spin pb mod 2)%Z.
  Hypothesis Hb : bands_hold (pb_method pb) (pb_electrons pb) (pb_spin pb) B.
  Hypothesis Hfit : bands_fit_basis pb.
  Hypothesis Hm : pb_method pb = MSimplex.
  Hypothesis Hr0 : pb_restricted pb = true -> pb_spin pb = 0%Z.
  Hypothesis HF : forall t, In t (split_on "+" (pb_xc pb)) -> continuous_functional lib (contains "gga" (pb_xc pb)) t.
  Hypothesis Epp : create_pseudopotential pkg read nc us c = Ok pp.
  Hypothesis EV : pp_local pp (pb_crystal pb) (pb_G pb) (pb_vol pb) = Ok V.
  Hypothesis Enl : pp_nonlocal pp (pb_crystal pb) (pb_G pb) (pb_k pb) = Ok nl.

  Let Hfx : fixed_occ (pb_method pb) -> pb_restricted pb = true.
  Proof. rewrite Hm. intros [?|?]; discriminate. Qed.
  Let HK : (1 <= K)%nat.
  Proof. destruct (nc_facts _ _ _ _ _ _ _ _ _ c pb Hpb) as ((? & ? & ? & _ & _ & H) & _). exact H. Qed.

  Lemma sim_nc_below e : (forall p, reachable pb p0 p -> exists e', objective qr cqr xcd pb p = Ok e' /\ e <= e') ->
    forall co occ, basis_orbitals sp K B (pb_mask pb) co -> cap occ -> exists e', energy co occ e' /\ e <= e'.
  Proof.
    intros Min co occ Hco Hcap. assert (Hs : (sp = 1 \/ sp = 2)%nat) by (destruct (pb_restricted pb); [left|right]; reflexivity).
    destruct (nc_run erfc pkg read nc us valence pp_local pp_nonlocal devices rnd rpw c pb p0 qr cqr lib vg pp V nl Hq Hcq Hf Hr Hrp Hon Hpb HA Hi Hpar Hb Hfit Hfx (pick_continuous pb lib _ HF) Epp EV Enl) as (nb & nm & n1 & n2 & n3 & Sm & Fo & RS & RD).
    set (F := nc_value lib (pb_xc pb) sp B nb nm [n1; n2; n3] (pb_G pb) (pb_k pb) V nl (pb_vol pb)) in *. exists (F co occ).
    split; [apply Fo; [rewrite <- Sm; apply Hco|apply Hcap|reflexivity]|].
    apply (below_gen F (IZR (kept_electrons (pb_method pb) (pb_electrons pb) (pb_spin pb))) qr cqr xcd pb p0 e); try assumption.
    - rewrite Sm. intros St x Sx Po. apply (cts_nc lib (pb_xc pb) (pb_G pb) (pb_k pb) V nl (pb_vol pb) _ _ nb nm n1 n2 n3 St x Hs HF Sx Po).
    - intros p Hre. destruct (RS p Hre) as (co' & occ' & _ & Eo & Es & Hob). exists co', occ'. split; [exact Eo|]. split; [exact Es|exact Hob].
    - intros p co' occ' Hre Hbo Eo. destruct (RD p co' occ' Hre Hbo Eo) as (p' & _ & Hre' & _ & _ & _ & _ & Hob). exists p'. split; [exact Hre'|exact Hob].
    - apply (sim_limits rnd rpw pb p0 qr HK (proj1 (nc_init_inv rnd rpw pb p0 Hi)) Hm Hpar Hb occ Hr0), Hcap.
    - intros i Hi0. destruct Hcap as (So & W & _). apply W. rewrite So. exact Hi0.
  Qed.

  Lemma sim_nc_infimum : exists co occ e, basis_orbitals sp K B (pb_mask pb) co /\ cap occ /\ energy co occ e /\
    (forall co' occ', basis_orbitals sp K B (pb_mask pb) co' -> cap occ' -> exists e', energy co' occ' e' /\ e <= e') /\
    (forall p, reachable pb p0 p -> exists e', objective qr cqr xcd pb p = Ok e' /\ e <= e') /\
    (forall eps, 0 < eps -> exists p e', reachable pb p0 p /\ objective qr cqr xcd pb p = Ok e' /\ e' < e + eps) /\
    (never_both K B (INR (3 - sp) / INR K) occ -> exists p, reachable pb p0 p /\ objective qr cqr xcd pb p = Ok e).
  Proof.
    destruct (nc_infimum erfc pkg read nc us valence pp_local pp_nonlocal devices rnd rpw c pb p0 qr cqr lib vg pp V nl Hq Hcq Hf Hr Hrp Hon Hpb HA Hi Hpar Hb Hfit Hfx HF Epp EV Enl) as (co & occ & e & Hst & HL & He & Min & Inf & Att).
    pose proof (proj1 (nc_init_inv rnd rpw pb p0 Hi)) as Hi'.
    apply (sim_limits rnd rpw pb p0 qr HK Hi' Hm Hpar Hb occ Hr0) in HL. exists co, occ, e. split; [apply Hst|]. split; [exact HL|]. split; [exact He|]. split; [exact (sim_nc_below e Min)|]. split; [exact Min|]. split; [exact Inf|].
    intros Hn. apply Att. apply (sim_described rnd rpw pb p0 qr HK Hi' Hm Hpar Hb occ Hr0). split; assumption.
  Qed.
End Nc.

(** Spin-restricted states of lowest energy with capped occupations. *)
Lemma sim_nc_states lib vg xt A V nl G kpts vol B n1 n2 n3 nb nm mask N co occ d e : let ns := [n1; n2; n3] in let K := length kpts in let xcd := xc_density lib vg in
  contains "gga" xt = false -> (forall t b, In t (split_on "+" xt) -> lib t b <> None) -> m3det A <> 0 -> 0 < vol -> g_vectors A ns = Ok G -> tshape V = ns -> tshape nl = [K; nb; nm] ++ ns -> real_on_grid V -> tshape mask = ns ->
  basis_orbitals 1 K B mask co -> capped true K B N 0 occ -> density_grid co vol (Some occ) = Ok d -> hartree_real d G -> (forall x, inb x ns -> ex_derive (local_particle lib (split_on "+" xt)) (tget d (0%nat :: x))) ->
  valence_energy xcd G kpts vol V nl xt co occ e ->
  (forall co' occ', basis_orbitals 1 K B mask co' -> capped true K B N 0 occ' -> exists e', valence_energy xcd G kpts vol V nl xt co' occ' e' /\ e <= e') ->
  let matrix x := nl_hamiltonian_matrix xcd x d V nl G kpts vol xt true in
  kohn_sham_orbitals matrix ns K B mask co occ /\ filled_from_below matrix K B (2 / INR K) co occ /\ lowest_levels matrix ns K B mask (2 / INR K) co occ.
Proof.
  intros ns K xcd Hg Hlib HA Hv HG SV Sn HV Sm Hco Hcap Hd Hh Hex He Min matrix. pose proof Hcap as (So & Hw & Ht & _). rewrite cap2 in Hw. cbn [num_spin] in So.
  assert (Cap : forall occ', tshape occ' = [1%nat; K; B] -> within 0 (2 / INR K) occ' -> total occ' = total occ -> capped true K B N 0 occ').
  { intros occ' S' W' T'. split; [exact S'|]. split; [rewrite cap2; exact W'|]. split; [congruence|discriminate]. }
  split; [|split].
  - apply (nc_lowest_orbitals lib vg xt A co V nl G kpts vol occ d B n1 n2 n3 nb nm mask e); try assumption. intros c' Hc'. apply Min; assumption.
  - apply (nc_lowest_filling lib vg xt A co V nl G kpts vol occ d B n1 n2 n3 nb nm (2 / INR K) e); try assumption; [destruct Hco as (S & _); rewrite Sm in S; exact S|]. intros occ' S' W' T'. apply Min; [exact Hco|apply Cap; assumption].
  - apply (nc_lowest_basis lib vg xt A co V nl G kpts vol occ d B n1 n2 n3 nb nm mask (2 / INR K) e); try assumption. intros c' occ' Hc' S' W' T'. apply Min; [exact Hc'|apply Cap; assumption].
Qed.
