(** The lowest energy of all-electron calculations with capped-simplex occupations (C153). *)
From Coq Require Import Reals Lra Lia Classical.
From Coquelicot Require Import Coquelicot.
From Coq Require Import Ascii String List Arith ZArith Bool.
From Verif Require Import Base Sums Tensor DFT GridModel PadModel Lin3 VecModel VecProofs OccModel OccSpec OccProofs PwModel PwSpec PwProofs BraketModel XcModel XcSpec EnergyModel HamModel HamSpec XcProofs XcProofs3 HamProofs3 DerProofs TotalProofs
  LocModel NlocModel CalcModel CalcSpec DrvModel DrvSpec DrvProofs2 DrvProofs3 DrvProofs4 DrvProofs5 DrvProofs6 CalcProofs3 BoundSpec BoundProofs2 ReachSpec ReachProofs2 ReachProofs3 GeomSpec IdemSpec IdemProofs IdemProofs2 AttSpec AttProofs AttProofs2 AttProofs3 AttProofs4 AttProofs5 NcAttSpec NcAttProofs NcAttProofs2
  KsSpec KsProofs4 KsLevels KsProofs5 NcKsSpec NcKsProofs NcKsProofs2 SimSpec SimProofs SimProofs2.
Import ListNotations.
Local Open Scope R_scope.

Lemma cap2 K : INR (3 - num_spin true) / INR K = 2 / INR K.
Proof. cbn [num_spin]. simpl (INR (3 - 1)). f_equal. Qed.

Section Ae.
  Context (erfc : R -> R) (pkg : string) (read : string -> res ase_atoms) (devices : nat) (rnd : list nat -> tensor R) (rpw : list nat -> tensor R * tensor R) (c : cfg) (pb : problem) (p0 : params)
    (qr : tensor R -> tensor R) (cqr : tensor C -> tensor C) (lib : xclib) (vg : list string -> tensor R -> tensor R -> tensor v3 -> res (tensor C)).
  Local Notation sp := (num_spin (pb_restricted pb)). Local Notation K := (length (pb_k pb)). Local Notation B := (pb_bands pb).
  Local Notation pos := (cr_positions (pb_crystal pb)). Local Notation ch := (map IZR (cr_charges (pb_crystal pb))). Local Notation xcd := (xc_density lib vg).
  Local Notation energy := (fun co occ => total_energy xcd co pos ch (pb_G pb) (pb_k pb) (pb_vol pb) (Some occ) false (pb_xc pb)).
  Local Notation cap := (capped (pb_restricted pb) K B (pb_electrons pb) (pb_spin pb)).
  Hypothesis Hq : reduced_qr qr.
  Hypothesis Hcq : complex_qr cqr.
  Hypothesis Hf : qr_factors cqr.
  Hypothesis Hr : shape_ok rnd.
  Hypothesis Hrp : pair_shape_ok rpw.
  Hypothesis Hpb : ae_problem erfc pkg read devices c = Ok pb.
  Hypothesis HA : m3det (cr_cell (pb_crystal pb)) <> 0.
  Hypothesis Hl : length (cr_charges (pb_crystal pb)) = length pos.
  Hypothesis Hi : ae_init rnd rpw pb = Ok p0.
  Hypothesis Hb : bands_hold (pb_method pb) (pb_electrons pb) (pb_spin pb) B.
  Hypothesis Hfit : bands_fit_basis pb.
  Hypothesis Hm : pb_method pb = MSimplex.
  Hypothesis Hr0 : pb_restricted pb = true -> pb_spin pb = 0%Z.
  Hypothesis HF : forall t, In t (split_on "+" (pb_xc pb)) -> continuous_functional lib (contains "gga" (pb_xc pb)) t.

  (** A lower bound of the energies reached bounds the energies of all states with capped occupations. *)
  Lemma sim_below e : (forall p, reachable pb p0 p -> exists e', objective qr cqr xcd pb p = Ok e' /\ e <= e') ->
    forall co occ, basis_orbitals sp K B (pb_mask pb) co -> cap occ -> exists e', energy co occ = Ok e' /\ e <= e'.
  Proof.
    intros Min co occ Hco Hcap. pose proof (setup_grids _ _ _ _ _ _ _ _ _ Hpb) as Hg. destruct (ae_parity _ _ _ _ _ _ Hpb) as (_ & Hpar & _). assert (HK : (1 <= K)%nat) by (destruct Hg as (? & ? & ? & _ & _ & HK); exact HK).
    destruct (grid_facts pb Hg HA) as (n1 & n2 & n3 & HG & Sm & SG & Hp & Hv).
    assert (Hs : (sp = 1 \/ sp = 2)%nat) by (destruct (pb_restricted pb); [left|right]; reflexivity).
    assert (Hl' : length ch = length pos) by (rewrite map_length; exact Hl).
    assert (HP : forall t, In t (split_on "+" (pb_xc pb)) -> pick lib t (sp =? 2)%nat <> None).
    { intros t Ht. unfold pick. destruct (HF t Ht ((sp =? 2)%nat && negb (is_exchange t))) as (f & -> & _). discriminate. }
    set (F := energy_value lib (pb_xc pb) sp B [n1; n2; n3] (pb_G pb) (pb_k pb) pos ch (pb_vol pb)).
    assert (En : forall co occ, tshape co = [sp; K; B] ++ tshape (pb_mask pb) -> tshape occ = [sp; K; B] -> energy co occ = Ok (F co occ)).
    { intros co' occ' Sc So. rewrite Sm in Sc. apply (energy_formula lib vg (pb_xc pb) (cr_cell (pb_crystal pb)) co' _ _ (pb_G pb) (pb_k pb) (pb_vol pb) occ' _ _ n1 n2 n3 HA HG Hv Hs Hl' Sc So HP). }
    exists (F co occ). split; [apply En; [apply Hco|apply Hcap]|].
    apply (below_gen F (IZR (kept_electrons (pb_method pb) (pb_electrons pb) (pb_spin pb))) qr cqr xcd pb p0 e); try assumption.
    - rewrite Sm. intros St x Sx Po. apply (cts_energy lib (pb_xc pb) _ _ (pb_G pb) (pb_k pb) (pb_vol pb) _ _ n1 n2 n3 St x Hs HF Sx Po).
    - intros p Hre. destruct (run_state erfc pkg read devices rnd rpw c pb p0 p qr cqr lib vg Hq Hcq Hr Hrp Hpb Hi Hre Hb Hfit) as (co' & occ' & Eo & Es & Hob). exists co', occ'. split; [exact Eo|]. split; [exact Es|]. apply Hob. apply En; apply Es.
    - intros p co' occ' Hre Hbo Eo. destruct (run_state erfc pkg read devices rnd rpw c pb p0 p qr cqr lib vg Hq Hcq Hr Hrp Hpb Hi Hre Hb Hfit) as (_ & o2 & Eo2 & (_ & So & _) & _). rewrite Eo in Eo2. injection Eo2 as <-.
      destruct (reach_driver erfc pkg read devices rnd rpw c pb p0 p qr cqr xcd co' Hq Hcq Hf Hr Hrp Hpb Hi Hre Hb Hfit (xc_density_local lib vg false _ (or_intror eq_refl)) Hbo) as (p' & co2 & o3 & Hre' & _ & Eo3 & _ & _ & _ & Hob).
      rewrite Eo in Eo3. injection Eo3 as <-. exists p'. split; [exact Hre'|]. apply Hob. apply En; [apply Hbo|exact So].
    - apply (sim_limits rnd rpw pb p0 qr HK Hi Hm Hpar Hb occ Hr0), Hcap.
    - intros i Hi0. destruct Hcap as (So & W & _). apply W. rewrite So. exact Hi0.
  Qed.

  Lemma sim_infimum : exists co occ e, basis_orbitals sp K B (pb_mask pb) co /\ cap occ /\ energy co occ = Ok e /\
    (forall co' occ', basis_orbitals sp K B (pb_mask pb) co' -> cap occ' -> exists e', energy co' occ' = Ok e' /\ e <= e') /\
    (forall p, reachable pb p0 p -> exists e', objective qr cqr xcd pb p = Ok e' /\ e <= e') /\
    (forall eps, 0 < eps -> exists p e', reachable pb p0 p /\ objective qr cqr xcd pb p = Ok e' /\ e' < e + eps) /\
    (never_both K B (INR (3 - sp) / INR K) occ -> exists p, reachable pb p0 p /\ objective qr cqr xcd pb p = Ok e).
  Proof.
    pose proof (setup_grids _ _ _ _ _ _ _ _ _ Hpb) as Hg. destruct (ae_parity _ _ _ _ _ _ Hpb) as (_ & Hpar & _). assert (HK : (1 <= K)%nat) by (destruct Hg as (? & ? & ? & _ & _ & HK); exact HK).
    destruct (driver_infimum erfc pkg read devices rnd rpw c pb p0 qr cqr lib vg Hq Hcq Hf Hr Hrp Hpb HA Hl Hi Hb Hfit HF) as (co & occ & e & Hst & HL & He & Min & Inf & Att).
    apply (sim_limits rnd rpw pb p0 qr HK Hi Hm Hpar Hb occ Hr0) in HL. exists co, occ, e. split; [apply Hst|]. split; [exact HL|]. split; [exact He|]. split; [exact (sim_below e Min)|]. split; [exact Min|]. split; [exact Inf|].
    intros Hn. apply Att. apply (sim_described rnd rpw pb p0 qr HK Hi Hm Hpar Hb occ Hr0). split; assumption.
  Qed.
End Ae.

(** Spin-restricted states of lowest energy with capped occupations. *)
Lemma sim_states lib vg xt A pos ch G kpts vol B n1 n2 n3 mask N co occ d e : let ns := [n1; n2; n3] in let K := length kpts in let xcd := xc_density lib vg in
  contains "gga" xt = false -> (forall t b, In t (split_on "+" xt) -> lib t b <> None) -> m3det A <> 0 -> 0 < vol -> g_vectors A ns = Ok G -> length ch = length pos -> tshape mask = ns ->
  basis_orbitals 1 K B mask co -> capped true K B N 0 occ -> density_grid co vol (Some occ) = Ok d -> (forall x, inb x ns -> ex_derive (local_particle lib (split_on "+" xt)) (tget d (0%nat :: x))) ->
  total_energy xcd co pos ch G kpts vol (Some occ) false xt = Ok e ->
  (forall co' occ', basis_orbitals 1 K B mask co' -> capped true K B N 0 occ' -> exists e', total_energy xcd co' pos ch G kpts vol (Some occ') false xt = Ok e' /\ e <= e') ->
  let matrix x := hamiltonian_matrix xcd x pos ch d G kpts vol xt true in
  kohn_sham_orbitals matrix ns K B mask co occ /\ filled_from_below matrix K B (2 / INR K) co occ /\ lowest_levels matrix ns K B mask (2 / INR K) co occ.
Proof.
  intros ns K xcd Hg Hlib HA Hv HG Hl Sm Hco Hcap Hd Hex He Min matrix. pose proof Hcap as (So & Hw & Ht & _). rewrite cap2 in Hw. cbn [num_spin] in So.
  assert (Cap : forall occ', tshape occ' = [1%nat; K; B] -> within 0 (2 / INR K) occ' -> total occ' = total occ -> capped true K B N 0 occ').
  { intros occ' S' W' T'. split; [exact S'|]. split; [rewrite cap2; exact W'|]. split; [congruence|discriminate]. }
  split; [|split].
  - apply (lowest_orbitals lib vg xt A co pos ch G kpts vol occ d B n1 n2 n3 mask e); try assumption. intros c' Hc'. apply Min; assumption.
  - apply (lowest_filling lib vg xt A co pos ch G kpts vol occ d B n1 n2 n3 (2 / INR K) e); try assumption; [destruct Hco as (S & _); rewrite Sm in S; exact S|]. intros occ' S' W' T'. apply Min; [exact Hco|apply Cap; assumption].
  - apply (lowest_basis lib vg xt A co pos ch G kpts vol occ d B n1 n2 n3 mask (2 / INR K) e); try assumption. intros c' occ' Hc' S' W' T'. apply Min; [exact Hc'|apply Cap; assumption].
Qed.

(** Parameters that reach the lowest energy leave one level to the electrons or to the holes. *)
Lemma sim_reached erfc pkg read devices rnd rpw c pb p0 p qr cqr lib vg e : reduced_qr qr -> complex_qr cqr -> qr_factors cqr -> shape_ok rnd -> pair_shape_ok rpw ->
  ae_problem erfc pkg read devices c = Ok pb -> m3det (cr_cell (pb_crystal pb)) <> 0 -> length (cr_charges (pb_crystal pb)) = length (cr_positions (pb_crystal pb)) ->
  ae_init rnd rpw pb = Ok p0 -> bands_hold (pb_method pb) (pb_electrons pb) (pb_spin pb) (pb_bands pb) -> bands_fit_basis pb ->
  pb_method pb = MSimplex -> pb_restricted pb = true -> pb_spin pb = 0%Z -> contains "gga" (pb_xc pb) = false ->
  (forall t, In t (split_on "+" (pb_xc pb)) -> continuous_functional lib false t) ->
  reachable pb p0 p -> objective qr cqr (xc_density lib vg) pb p = Ok e -> (forall p', reachable pb p0 p' -> exists e', objective qr cqr (xc_density lib vg) pb p' = Ok e' /\ e <= e') ->
  exists co occ d, get_coeff cqr pb p = Ok co /\ get_occupation qr pb p = Ok occ /\ density_grid co (pb_vol pb) (Some occ) = Ok d /\
    ((forall x, inb x (tshape (pb_G pb)) -> ex_derive (local_particle lib (split_on "+" (pb_xc pb))) (tget d (0%nat :: x))) ->
     exists M mu, hamiltonian_matrix (xc_density lib vg) co (cr_positions (pb_crystal pb)) (map IZR (cr_charges (pb_crystal pb))) d (pb_G pb) (pb_k pb) (pb_vol pb) (pb_xc pb) true = Ok M /\
       ((forall k b, (k < length (pb_k pb))%nat -> (b < pb_bands pb)%nat -> 0 < tget occ [0%nat; k; b] -> Re (tget M [0%nat; k; b; b]) = mu) \/
        (forall k b, (k < length (pb_k pb))%nat -> (b < pb_bands pb)%nat -> tget occ [0%nat; k; b] < 2 / INR (length (pb_k pb)) -> Re (tget M [0%nat; k; b; b]) = mu))).
Proof.
  intros Hq Hcq Hf Hr Hrp Hpb HA Hl Hi Hb Hfit Hm Er Es Hg HF Hre He Hmin. pose proof (setup_grids _ _ _ _ _ _ _ _ _ Hpb) as Hgr. destruct (ae_parity _ _ _ _ _ _ Hpb) as (_ & Hpar & Hio & Hir).
  assert (HK : (1 <= length (pb_k pb))%nat) by (destruct Hgr as (? & ? & ? & _ & _ & HK); exact HK). assert (HKp : 0 < INR (length (pb_k pb))) by (apply lt_0_INR; lia).
  destruct (grid_facts pb Hgr HA) as (n1 & n2 & n3 & HG & Sm & SG & Hp & Hv).
  assert (HF' : forall t, In t (split_on "+" (pb_xc pb)) -> continuous_functional lib (contains "gga" (pb_xc pb)) t) by (rewrite Hg; exact HF).
  assert (Hlib : forall t b, In t (split_on "+" (pb_xc pb)) -> lib t b <> None) by (intros t b Ht; destruct (HF t Ht b) as (f & -> & _); discriminate).
  pose proof (sim_below erfc pkg read devices rnd rpw c pb p0 qr cqr lib vg Hq Hcq Hf Hr Hrp Hpb HA Hl Hi Hb Hfit Hm (fun _ => Es) HF' e Hmin) as Bel.
  pose proof (xc_density_local lib vg false (pb_xc pb) (or_intror eq_refl)) as Hx.
  destruct (ae_objective erfc pkg read devices rnd rpw c pb p0 p qr cqr (xc_density lib vg) Hq Hcq Hr Hrp Hpb Hi Hre Hb Hfit Hx) as (co & occ & Ec & Eo & Hob).
  destruct (coeff_along rnd rpw pb p0 p cqr Hcq Hrp Hi (proj1 Hre) Hfit) as (co2 & Ec2 & Sc & Oc & Zc). rewrite Ec in Ec2. injection Ec2 as <-.
  assert (Hbo : basis_orbitals (num_spin (pb_restricted pb)) (length (pb_k pb)) (pb_bands pb) (pb_mask pb) co) by (split; [exact Sc|split; assumption]).
  assert (D : described qr pb p0 occ) by (exists p, occ; split; [exact Hre|]; split; [exact Eo|apply teq_refl']).
  apply (sim_described rnd rpw pb p0 qr HK Hi Hm Hpar Hb occ (fun _ => Es)) in D. destruct D as (Hcap & Hn). rewrite Er, Es in *. rewrite cap2 in Hn. cbn [num_spin] in *.
  assert (Sc' : tshape co = [1%nat; length (pb_k pb); pb_bands pb] ++ [n1; n2; n3]) by (rewrite Sc, Sm; reflexivity).
  assert (So : tshape occ = [1%nat; length (pb_k pb); pb_bands pb]) by apply Hcap.
  destruct (density_eq co (pb_vol pb) occ 1 _ _ n1 n2 n3 Sc' So) as (d & Ed & _). exists co, occ, d. split; [exact Ec|]. split; [exact Eo|]. split; [exact Ed|]. intros Hex. rewrite SG in Hex.
  assert (Hl' : length (map IZR (cr_charges (pb_crystal pb))) = length (cr_positions (pb_crystal pb))) by (rewrite map_length; exact Hl).
  destruct (sim_states lib vg (pb_xc pb) (cr_cell (pb_crystal pb)) _ _ (pb_G pb) (pb_k pb) (pb_vol pb) (pb_bands pb) n1 n2 n3 (pb_mask pb) (pb_electrons pb) co occ d e Hg Hlib HA Hv HG Hl' Sm Hbo Hcap Ed Hex (proj1 (Hob e) He) Bel) as (_ & Hfill & _).
  destruct Hcap as (_ & Hw & _). rewrite cap2 in Hw. apply (one_level _ _ _ _ _ _ Hfill Hw So Hn). apply Rgt_not_eq, Rdiv_lt_0_compat; lra.
Qed.
