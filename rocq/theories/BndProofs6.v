(** Band structures: the theorems about the two drivers in their final form, and example runs. *)
From Coq Require Import Reals Lra Lia.
From Coquelicot Require Import Coquelicot.
From Coq Require Import Ascii String List Arith ZArith Bool.
From Verif Require Import Base Sums Tensor DFT GridModel PadModel PadProofs Lin3 VecModel VecProofs PwModel PwSpec PwProofs BraketModel BraketSpec BraketProofs XcModel EnergyModel EnergySpec EnergyProofs ShiftProofs HamModel HamSpec HamProofs HamProofs2 HamProofs3.
From Verif Require Import OccModel OccSpec EwaldModel LocModel LocSpec LocProofs2 NlocModel NlocSpec NlocProofs NlocProofs2 NlocProofs4 CalcModel CalcSpec CalcProofs2 CalcProofs3 DrvModel DrvSpec DrvProofs2 DrvProofs3 DrvProofs4 TotalProofs.
From Verif Require Import EigSpec EigProofs BndModel BndSpec BndProofs BndProofs2 BndProofs3 BndProofs4 EigProofs2 DrvProofs5 DrvProofs6 BndProofs5 PropOcc.
Import ListNotations.
Local Open Scope R_scope.

Lemma position_length bp i : (i < waves bp)%nat -> length (nth i (mask_positions (bp_mask bp)) []) = length (tshape (bp_mask bp)).
Proof. intros Hi. pose proof (nth_In _ [] Hi) as H. apply mask_positions_in in H. destruct H as [H _]. apply (inb_length _ _ H). Qed.
Lemma spin_hermitian bp v h k : hermitian (waves bp) (spin_hamiltonian bp v h k).
Proof.
  intros i j Hi Hj. unfold spin_hamiltonian. rewrite Cconj_plus, Cconj_mult, Cconj_R, Cconj_sum. f_equal.
  - rewrite (Nat.eqb_sym j i). destruct (Nat.eqb_spec i j) as [->|]; rewrite Cconj_R; reflexivity.
  - f_equal. apply sumC_ext. intros x _. rewrite Cconj_mult, Cconj_R, cis_conj. f_equal. f_equal.
    rewrite !phase_sub_l by (unfold zs; rewrite !map_length, !position_length by assumption; reflexivity). ring.
Qed.
Lemma spin_spectrum bp v h k : exists lam, spectrum (waves bp) (spin_hamiltonian bp v h k) lam.
Proof. destruct (spectrum_exists _ _ (spin_hermitian bp v h k)) as [lam H]. exists lam. exact H. Qed.

Section AE.
  Context {Os : Type} (pkg : string) (read : string -> res ase_atoms) (devices : nat) (bandpath : m3 -> cval -> nat -> list v3)
    (gs : cfg -> res (run_output (D := tensor R))) (cqr : tensor C -> tensor C) (xcd : xcdens) (ev : nat -> (nat -> nat -> C) -> nat -> R)
    (bgrad : band_problem -> bparams -> v3 -> bparams) (alias : string -> option (cval -> list (string * cval) -> boptax Os)) (rnd : list nat -> tensor R * tensor R) (c : cfg) (bp : band_problem) (opt : boptax Os).
  Notation calc := (ae_band pkg read devices bandpath gs cqr xcd ev bgrad alias rnd c).
  Let p0 := ae_band_init rnd bp.
  Let stp := band_step (bgrad bp) (snd opt).
  Let sp := num_spin (bp_restricted bp).
  Let kp i := nth i (bp_path bp) vzero.
  Lemma ae_spin hk v out : complex_qr cqr -> eigvalsh_ok ev -> pair_shape_ok rnd -> ae_band_problem pkg read bandpath gs c = Ok bp -> create_optimizer alias c = Ok opt ->
    m3det (cr_cell (bp_crystal bp)) <> 0 -> (1 <= bp_bands bp)%nat -> (bp_bands bp <= waves bp)%nat ->
    effective_potential xcd bp = Ok v -> tshape v = hk :: tshape (bp_G bp) -> calc = Ok out ->
    tshape out = [sp; length (bp_path bp); bp_bands bp] /\
    forall i, (i < length (bp_path bp))%nat -> exists p t, solved_with stp bp devices (p0, fst opt p0) i p /\ ae_trace cqr xcd bp p (kp i) = Ok t /\
      (forall s, (s < sp)%nat -> ascending (bp_bands bp) (fun b => tget out [s; i; b]) /\
         separated (waves bp) (bp_bands bp) (fun a b => sumC (seq 0 hk) (fun h => spin_hamiltonian bp v h (kp i) a b)) (fun b => tget out [s; i; b])) /\
      t = sumR (seq 0 sp) (fun s => sumR (seq 0 (bp_bands bp)) (fun b => tget out [s; i; b])).
  Proof.
    intros Hq Hev Hrnd Hbp Hopt Hdet HB1 HBn Hv Sv H.
    destruct (ae_band_energies pkg read devices bandpath gs cqr xcd ev bgrad alias rnd c Hq Hev Hrnd bp opt hk Hbp Hopt Hdet (ex_intro _ v (conj Hv Sv)) HB1 HBn out H) as [So He].
    split; [exact So|]. intros i Hi. destruct (He i Hi) as (p & t & A & Hp & Ht & HA & Hs & Et). exists p, t. split; [exact Hp|]. split; [exact Ht|]. split; [|exact Et].
    intros s Hs'. destruct (Hs s Hs') as [Ha Hsep]. split; [exact Ha|]. apply (separated_ext _ _ (matrix_at A [0%nat])); [|exact Hsep].
    apply (basis_channels xcd bp v hk _ A (setup_grids' _ _ _ _ _ _ _ _ Hbp) Hdet Hv Sv HA).
  Qed.
  Context (Hq : complex_qr cqr) (Hev : eigvalsh_ok ev) (Hrnd : pair_shape_ok rnd) (Hbp : ae_band_problem pkg read bandpath gs c = Ok bp) (Hopt : create_optimizer alias c = Ok opt)
    (Hdet : m3det (cr_cell (bp_crystal bp)) <> 0) (HB1 : (1 <= bp_bands bp)%nat) (HBn : (bp_bands bp <= waves bp)%nat).
  (** One channel. *)
  Lemma ae_one v out : effective_potential xcd bp = Ok v -> tshape v = 1%nat :: tshape (bp_G bp) -> calc = Ok out ->
    tshape out = [sp; length (bp_path bp); bp_bands bp] /\
    forall i, (i < length (bp_path bp))%nat -> exists p t, solved_with stp bp devices (p0, fst opt p0) i p /\ ae_trace cqr xcd bp p (kp i) = Ok t /\
      t = sumR (seq 0 sp) (fun s => sumR (seq 0 (bp_bands bp)) (fun b => tget out [s; i; b])) /\
      (forall s, (s < sp)%nat -> ascending (bp_bands bp) (fun b => tget out [s; i; b]) /\ separated (waves bp) (bp_bands bp) (spin_hamiltonian bp v 0 (kp i)) (fun b => tget out [s; i; b])) /\
      forall lam, spectrum (waves bp) (spin_hamiltonian bp v 0 (kp i)) lam ->
        INR sp * sumR (seq 0 (bp_bands bp)) lam <= t /\ forall s b, (s < sp)%nat -> (b < bp_bands bp)%nat -> 0 <= tget out [s; i; b] - lam b <= t - INR sp * sumR (seq 0 (bp_bands bp)) lam.
  Proof.
    intros Hv Sv H. destruct (ae_spin 1 v out Hq Hev Hrnd Hbp Hopt Hdet HB1 HBn Hv Sv H) as [So He]. split; [exact So|]. intros i Hi. destruct (He i Hi) as (p & t & Hp & Ht & Hs & Et).
    assert (Hs1 : forall s, (s < sp)%nat -> separated (waves bp) (bp_bands bp) (spin_hamiltonian bp v 0 (kp i)) (fun b => tget out [s; i; b])).
    { intros s Hs'. apply (separated_ext _ _ (fun a b => sumC (seq 0 1) (fun h => spin_hamiltonian bp v h (kp i) a b))); [intros; cbn [seq sumC fold_right]; apply Cplus_0_r|apply Hs, Hs']. }
    exists p, t. split; [exact Hp|]. split; [exact Ht|]. split; [exact Et|]. split.
    - intros s Hs'. split; [apply Hs, Hs'|apply Hs1, Hs'].
    - intros lam Hl. rewrite Et. apply (separated_excess (waves bp) (bp_bands bp) (spin_hamiltonian bp v 0 (kp i)) lam sp (fun s b => tget out [s; i; b])); assumption.
  Qed.
  Lemma ae_one_full v out : effective_potential xcd bp = Ok v -> tshape v = 1%nat :: tshape (bp_G bp) -> calc = Ok out -> bp_bands bp = waves bp ->
    forall i s b lam, (i < length (bp_path bp))%nat -> (s < sp)%nat -> (b < bp_bands bp)%nat -> spectrum (waves bp) (spin_hamiltonian bp v 0 (kp i)) lam -> tget out [s; i; b] = lam b.
  Proof.
    intros Hv Sv H Hw i s b lam Hi Hs Hb Hl. destruct (ae_one v out Hv Sv H) as [_ He]. destruct (He i Hi) as (p & t & _ & _ & _ & Hsep & _). destruct (Hsep s Hs) as [_ H1]. rewrite Hw in H1, Hb.
    apply (separated_full (waves bp) _ (fun b => tget out [s; i; b]) lam b H1 Hl Hb).
  Qed.
  (** Two channels. *)
  Lemma ae_two_rows v out : effective_potential xcd bp = Ok v -> tshape v = 2%nat :: tshape (bp_G bp) -> calc = Ok out -> bp_bands bp = waves bp ->
    forall i s s' b, (i < length (bp_path bp))%nat -> (s < sp)%nat -> (s' < sp)%nat -> (b < bp_bands bp)%nat -> tget out [s; i; b] = tget out [s'; i; b].
  Proof.
    intros Hv Sv H Hw i s s' b Hi Hs Hs' Hb. destruct (ae_spin 2 v out Hq Hev Hrnd Hbp Hopt Hdet HB1 HBn Hv Sv H) as [_ He]. destruct (He i Hi) as (p & t & _ & _ & Hsep & _).
    rewrite Hw in Hsep, Hb. set (A := fun a b => sumC (seq 0 2) (fun h => spin_hamiltonian bp v h (kp i) a b)) in *.
    assert (HA : hermitian (waves bp) A).
    { intros x y Hx Hy. unfold A. rewrite Cconj_sum. apply sumC_ext. intros h _. apply spin_hermitian; assumption. }
    destruct (spectrum_exists _ _ HA) as [lam Hl].
    rewrite (separated_full (waves bp) A (fun b => tget out [s; i; b]) lam b (proj2 (Hsep s Hs)) Hl Hb). symmetry.
    apply (separated_full (waves bp) A (fun b => tget out [s'; i; b]) lam b (proj2 (Hsep s' Hs')) Hl Hb).
  Qed.
  Lemma ae_two_double v out : effective_potential xcd bp = Ok v -> tshape v = 2%nat :: tshape (bp_G bp) -> calc = Ok out ->
    (forall x, inb x (tshape (bp_G bp)) -> Re (tget v (1%nat :: x)) = Re (tget v (0%nat :: x))) ->
    forall i s b lam, (i < length (bp_path bp))%nat -> (s < sp)%nat -> (b < bp_bands bp)%nat -> spectrum (waves bp) (spin_hamiltonian bp v 0 (kp i)) lam ->
      2 * lam b <= tget out [s; i; b] <= 2 * lam (waves bp - bp_bands bp + b)%nat.
  Proof.
    intros Hv Sv H Heq i s b lam Hi Hs Hb Hl. destruct (ae_spin 2 v out Hq Hev Hrnd Hbp Hopt Hdet HB1 HBn Hv Sv H) as [_ He]. destruct (He i Hi) as (p & t & _ & _ & Hsep & _).
    destruct (Hsep s Hs) as [_ H1]. apply (H1 (fun b => 2 * lam b)); [|exact Hb].
    apply (spectrum_ext _ (fun a b => RtoC 2 * spin_hamiltonian bp v 0 (kp i) a b)%C); [intros a a' Ha Ha'; symmetry; apply (channels_equal bp v (kp i) (waves bp) Heq); assumption|].
    apply spectrum_scale; [lra|exact Hl].
  Qed.
End AE.

Lemma nc_given {Os PP GS} pkg read (nc us : crystal -> string -> res PP) valence pp_local pp_path devices bandpath (given : GS) gs cqr xcd ev bgrad (alias : string -> option (cval -> list (string * cval) -> boptax Os)) rnd c :
  nc_band pkg read nc us valence pp_local pp_path devices bandpath (Some given) gs cqr xcd ev bgrad alias rnd c = Err NameErr.
Proof. reflexivity. Qed.

(** * Example runs: diamond on an 8x8x8 grid, 6 points of a path on 2 devices *)
Definition ex_bandpath (_ : m3) (_ : cval) (n : nat) : list v3 := map (fun i => V3 (INR i) 0 0) (seq 0 n).
Definition ex_balias (_ : string) : option (cval -> list (string * cval) -> boptax unit) :=
  Some (fun lr _ => (fun _ => tt, fun g _ => ((tmap (Rmult (- match cfg_real lr with Ok r => r | Err _ => 0 end)) (fst g), tmap (Rmult (- match cfg_real lr with Ok r => r | Err _ => 0 end)) (snd g)), tt))).
Lemma ex_boptimizer occ r ps n : exists opt, create_optimizer ex_balias (ex_drv occ r ps n) = Ok opt.
Proof. eexists. reflexivity. Qed.

Lemma ex_band_setup pkg occ r ps cr g rr kk mask d electrons restricted N : create_crystal pkg ex_ase (ex_drv occ r ps 8) = Ok cr ->
  create_grids pkg ex_ase (ex_drv occ r ps 8) = Ok (g, rr, kk) -> create_freq_mask pkg ex_ase (ex_drv occ r ps 8) = Ok mask -> electrons cr = Ok N -> (0 <= N)%Z ->
  exists bp, band_setup pkg ex_ase ex_bandpath (ex_drv occ r ps 8) electrons (Ok d) restricted = Ok bp /\ bp_crystal bp = cr /\ bp_G bp = g /\ bp_mask bp = mask /\ bp_xc bp = "lda_x"%string /\
    bp_dens bp = d /\ length (bp_path bp) = 6%nat /\ bp_bands bp = Z.to_nat (num_bands N 4) /\ bp_restricted bp = restricted (VBool r) /\ bp_kpts bp = 6%nat /\ bp_parallel bp = true.
Proof.
  intros Hcr Hg Hm HN HN0. unfold band_setup. change (set_env_params (ex_drv occ r ps 8)) with (@Ok unit tt). change (getattr (ex_drv occ r ps 8) "seed") with (Ok (VInt 123)). cbn [bind].
  rewrite Hcr. cbn [bind]. rewrite HN. cbn [bind]. rewrite Hg. cbn [bind]. rewrite Hm. cbn [bind].
  change (getattr (ex_drv occ r ps 8) "xc") with (Ok (VStr "lda_x")). change (getattr (ex_drv occ r ps 8) "k_path_special_points") with (Ok (VStr "LGX")). change (getattr (ex_drv occ r ps 8) "num_kpoints") with (Ok (VInt 6)).
  change (getattr (ex_drv occ r ps 8) "parallel_over_k_path") with (Ok (VBool true)). change (getattr (ex_drv occ r ps 8) "band_structure_empty_bands") with (Ok (VInt 4)). change (getattr (ex_drv occ r ps 8) "spin_restricted") with (Ok (VBool r)).
  change (getattr (ex_drv occ r ps 8) "band_structure_epoch") with (Ok (VInt 20)). change (getattr (ex_drv occ r ps 8) "k_path_fine_tuning_epoch") with (Ok (VInt 5)). cbn [bind cfg_str cfg_int].
  destruct (Z.ltb_spec (num_bands N 4) 0) as [Hneg|_]; [exfalso; unfold num_bands in Hneg; assert (0 <= (N + 1) / 2)%Z by (apply Z.div_pos; lia); lia|].
  eexists. split; [reflexivity|]. cbn [bp_crystal bp_G bp_mask bp_xc bp_dens bp_path bp_bands bp_restricted bp_kpts bp_parallel truthy]. repeat (split; [reflexivity|]).
  reflexivity.
Qed.
Lemma ex_waves mask pkg occ r ps : create_freq_mask pkg ex_ase (ex_drv occ r ps 8) = Ok mask -> (10 <= length (mask_positions mask))%nat.
Proof.
  intros Hm. destruct (ex_setup (fun x => x) pkg occ r ps 8 8 (fun cr => Ok (num_electron cr)) (fun _ _ _ _ => Ok None) (fun r => r) 12 (fun _ _ _ => None) 2) as (pb & H & _ & _ & _ & _ & _ & _ & _ & _ & Sm & Gm);
    [reflexivity|lia|reflexivity|lia|reflexivity|reflexivity|].
  destruct (setup_inv _ _ _ _ _ _ _ _ _ H) as (_ & _ & _ & Hm' & _). rewrite Hm in Hm'. injection Hm' as ->. rewrite (ex_positions _ 8 Sm Gm). apply Nat.leb_le. vm_compute. reflexivity.
Qed.
Definition ex_gs erfc pkg grad : cfg -> res (run_output (D := tensor R)) := ae_calc erfc pkg ex_ase 2 ex_qr id_qr ex_xcd grad ex_alias ex_rnd ex_rpw.
Lemma ex_bands erfc pkg grad bgrad occ r : reduced_qr ex_qr -> complex_qr id_qr -> In occ ex_methods ->
  exists bp opt v out, ae_band_problem pkg ex_ase ex_bandpath (ex_gs erfc pkg grad) (ex_drv occ r false 8) = Ok bp /\ create_optimizer ex_balias (ex_drv occ r false 8) = Ok opt /\
    m3det (cr_cell (bp_crystal bp)) <> 0 /\ length (cr_charges (bp_crystal bp)) = length (cr_positions (bp_crystal bp)) /\ bp_bands bp = 10%nat /\ (bp_bands bp <= waves bp)%nat /\ bp_restricted bp = r /\ bp_xc bp = "lda_x"%string /\
    effective_potential ex_xcd bp = Ok v /\ tshape v = num_spin r :: tshape (bp_G bp) /\
    ae_band pkg ex_ase 2 ex_bandpath (ex_gs erfc pkg grad) id_qr ex_xcd eig_ev bgrad ex_balias ex_rpw (ex_drv occ r false 8) = Ok out /\ tshape out = [num_spin r; 6; 10]%nat.
Proof.
  intros Hq Hcq Ho. destruct (ex_run erfc pkg ex_qr id_qr grad occ r Hq Hcq Ho) as (pb & gout & Hpb & Hout & HN & Hsp & Hhold & Hfit & HA & Hmeth).
  destruct (ae_setup _ _ _ _ _ _ Hpb) as (Hcr & HN' & _ & (rr & Hgr) & Hm & _). rewrite HN in HN'.
  destruct (ex_band_setup pkg occ r false (pb_crystal pb) (pb_G pb) rr (pb_k pb) (pb_mask pb) (returned gout) (fun cr => Ok (num_electron cr)) truthy 12 Hcr Hgr Hm) as (bp & Hbp & Hc & HG & Hmk & Hx & Hd & Hlen & HB & Hr & Hk & Hpar); [rewrite <- HN'; reflexivity|lia|].
  assert (Hbp' : ae_band_problem pkg ex_ase ex_bandpath (ex_gs erfc pkg grad) (ex_drv occ r false 8) = Ok bp) by (unfold ae_band_problem, ex_gs; rewrite Hout; exact Hbp).
  destruct (ex_boptimizer occ r false 8) as [opt Hopt]. cbn [truthy] in Hr.
  assert (Hdet : m3det (cr_cell (bp_crystal bp)) <> 0) by (rewrite Hc; exact HA).
  assert (Hcl : length (cr_charges (bp_crystal bp)) = length (cr_positions (bp_crystal bp))) by (rewrite Hc; injection Hcr as <-; reflexivity).
  assert (HB10 : bp_bands bp = 10%nat) by (rewrite HB; reflexivity).
  assert (Hw : (bp_bands bp <= waves bp)%nat) by (unfold waves; rewrite HB10, Hmk; apply (ex_waves _ pkg occ r false Hm)).
  destruct (ae_lda_bands erfc pkg ex_ase 2 ex_bandpath ex_qr id_qr ex_lib (fun _ _ _ _ => Err ValueErr) grad ex_alias ex_rnd ex_rpw (ex_drv occ r false 8) bp Hq Hcq ex_rnd_ok ex_rpw_ok Hbp') as ((v & Hv & Sv) & _ & _); try assumption.
  - intros pb' Hpb'. rewrite Hpb in Hpb'. injection Hpb' as <-. split; assumption.
  - intros opt' Hopt'. rewrite ex_optimizer in Hopt'. injection Hopt' as <-. apply ex_opt_constants.
  - rewrite Hx. reflexivity.
  - discriminate.
  - rewrite Hr in Sv. assert (Hk1 : potential_channels ex_xcd bp (num_spin r)) by (exists v; split; assumption).
    destruct (proj2 (ae_band_returns pkg ex_ase 2 ex_bandpath (ex_gs erfc pkg grad) id_qr ex_xcd eig_ev bgrad ex_balias ex_rpw (ex_drv occ r false 8) Hcq eig_ev_ok ex_rpw_ok bp opt (num_spin r) Hbp' Hopt Hdet Hk1 ltac:(lia) Hw)) as [out Ho'].
    { rewrite Hlen. split; [exists 3%nat; lia|]. split; [left; exact Hpar|exact Hk]. }
    exists bp, opt, v, out. repeat (split; [assumption|]).
    destruct (ae_band_energies pkg ex_ase 2 ex_bandpath (ex_gs erfc pkg grad) id_qr ex_xcd eig_ev bgrad ex_balias ex_rpw (ex_drv occ r false 8) Hcq eig_ev_ok ex_rpw_ok bp opt (num_spin r) Hbp' Hopt Hdet Hk1 ltac:(lia) Hw out Ho') as [So _].
    rewrite So, Hr, Hlen, HB10. reflexivity.
Qed.

Definition ex_nlk (_ : list Z) (_ : crystal) (G : tensor v3) (_ : list v3) (k : v3) : res (tensor C) := Ok (mkT ([1; 1; 1]%nat ++ tshape G) (fun _ => RtoC 1)).
Definition ex_ngs erfc pkg grad : cfg -> res (run_output (D := tensor R)) := nc_calc erfc pkg ex_ase ex_loader ex_loader (fun l => l) ex_loc ex_nl 2 ex_qr id_qr ex_xcd grad ex_alias ex_rnd ex_rpw.
Lemma ex_nc_bands erfc pkg grad bgrad r : reduced_qr ex_qr -> complex_qr id_qr -> let cf := ex_drv "simplex-projector" r true 8 in
  exists bp opt V out, nc_band_problem pkg ex_ase ex_loader ex_loader (fun l => l) ex_bandpath (ex_ngs erfc pkg grad) cf = Ok bp /\ create_optimizer ex_balias cf = Ok opt /\
    create_pseudopotential pkg ex_ase ex_loader ex_loader cf = Ok [4; 4]%Z /\ ex_loc [4; 4]%Z (bp_crystal bp) (bp_G bp) (bp_vol bp) = Ok V /\ tshape V = tshape (bp_G bp) /\
    (forall k, exists nl nb nm, ex_nlk [4; 4]%Z (bp_crystal bp) (bp_G bp) (bp_path bp) k = Ok nl /\ tshape nl = [1; nb; nm]%nat ++ tshape (bp_G bp)) /\
    m3det (cr_cell (bp_crystal bp)) <> 0 /\ bp_bands bp = 8%nat /\ (bp_bands bp <= waves bp)%nat /\ tshape (bp_dens bp) = num_spin r :: tshape (bp_G bp) /\ xc_channels ex_xcd bp (num_spin r) /\
    nc_band pkg ex_ase ex_loader ex_loader (fun l => l) ex_loc ex_nlk 2 ex_bandpath (@None unit) (ex_ngs erfc pkg grad) id_qr ex_xcd eig_ev bgrad ex_balias ex_rpw cf = Ok out /\ tshape out = [num_spin r * 6; 8]%nat.
Proof.
  intros Hq Hcq cf. destruct (ex_nc erfc pkg "simplex-projector" r) as (pb & Hpb & HA & Hfit & Hpar & Hb & Hdv & Hxr & He & Hm & Hr & HN & _); [cbn; auto|]. change (method_of_name "simplex-projector") with MSimplex in Hm.
  destruct (nc_returns erfc pkg ex_ase ex_loader ex_loader (fun l => l) ex_loc ex_nl 2 ex_qr id_qr ex_xcd grad ex_alias ex_rnd ex_rpw cf pb ex_opt Hq Hcq ex_rnd_ok ex_rpw_ok ex_on_grid Hpb (ex_optimizer _ _ _ _) HA Hfit Hpar Hb) as [gout Hout];
    [rewrite Hm; discriminate|intros _; exact Hdv|intros _; apply ex_opt_constants|exact Hxr|exact He|].
  destruct (nc_setup _ _ _ _ _ _ _ _ _ _ _ Hpb) as (Hcr & (pp & Hpp & HN') & (rr & Hgr) & Hmk & _). injection Hpp as <-.
  destruct (ex_band_setup pkg "simplex-projector" r true (pb_crystal pb) (pb_G pb) rr (pb_k pb) (pb_mask pb) (returned gout) (fun _ => do pp <- create_pseudopotential pkg ex_ase ex_loader ex_loader cf; Ok (fold_right Z.add 0%Z pp)) (fun _ => true) 8 Hcr Hgr Hmk) as (bp & Hbp & Hc & HG & Hmk' & Hx & Hd & Hlen & HB & _ & Hk & Hpl); [reflexivity|lia|].
  assert (Hbp' : nc_band_problem pkg ex_ase ex_loader ex_loader (fun l => l) ex_bandpath (ex_ngs erfc pkg grad) cf = Ok bp) by (unfold nc_band_problem, ex_ngs; rewrite Hout; exact Hbp).
  destruct (ex_boptimizer "simplex-projector" r true 8) as [opt Hopt].
  assert (Hdet : m3det (cr_cell (bp_crystal bp)) <> 0) by (rewrite Hc; exact HA).
  assert (HB8 : bp_bands bp = 8%nat) by (rewrite HB; reflexivity).
  assert (Hw : (bp_bands bp <= waves bp)%nat) by (unfold waves; rewrite HB8, Hmk'; pose proof (ex_waves _ pkg _ r true Hmk); lia).
  set (V := mkT (tshape (bp_G bp)) (fun _ => RtoC 0)). assert (HV : ex_loc [4; 4]%Z (bp_crystal bp) (bp_G bp) (bp_vol bp) = Ok V) by reflexivity.
  assert (Hnl : forall k, exists nl nb nm, ex_nlk [4; 4]%Z (bp_crystal bp) (bp_G bp) (bp_path bp) k = Ok nl /\ tshape nl = [1; nb; nm]%nat ++ tshape (bp_G bp)) by (intros k; eexists; exists 1%nat, 1%nat; split; reflexivity).
  destruct (nc_lda_bands erfc pkg ex_ase ex_loader ex_loader (fun l => l) ex_loc ex_nl 2 ex_bandpath ex_qr id_qr ex_lib (fun _ _ _ _ => Err ValueErr) grad ex_alias ex_rnd ex_rpw cf bp Hq Hcq ex_rnd_ok ex_rpw_ok Hbp') as (rv & Hrv & Hxc & Sd & _); try assumption.
  - intros pb' Hpb'. assert (Ep : pb' = pb) by (unfold cf in Hpb'; congruence). rewrite Ep. repeat (split; [assumption|]). intros [h|h]; congruence.
  - intros opt' Hopt'. assert (Eo : opt' = ex_opt) by (unfold cf in Hopt'; rewrite ex_optimizer in Hopt'; congruence). rewrite Eo. apply ex_opt_constants.
  - rewrite Hx. reflexivity.
  - discriminate.
  - change (getattr cf "spin_restricted") with (Ok (VBool r)) in Hrv. injection Hrv as <-. cbn [truthy] in Hxc, Sd.
    assert (H1 : (1 <= num_spin r)%nat) by (destruct r; cbn; lia).
    destruct (proj2 (nc_band_returns (GS := unit) pkg ex_ase ex_loader ex_loader (fun l => l) ex_loc ex_nlk 2 ex_bandpath (ex_ngs erfc pkg grad) id_qr ex_xcd eig_ev bgrad ex_balias ex_rpw cf Hcq eig_ev_ok ex_rpw_ok bp opt [4; 4]%Z V (num_spin r) (num_spin r) Hbp' eq_refl HV Hopt Hdet Sd eq_refl Hnl Hxc H1 ltac:(lia) Hw)) as [out Ho'].
    { rewrite Hlen, Hpl. exists 3%nat. lia. }
    exists bp, opt, V, out. repeat (split; [first [assumption|reflexivity]|]).
    destruct (nc_band_energies (GS := unit) pkg ex_ase ex_loader ex_loader (fun l => l) ex_loc ex_nlk 2 ex_bandpath (ex_ngs erfc pkg grad) id_qr ex_xcd eig_ev bgrad ex_balias ex_rpw cf Hcq eig_ev_ok ex_rpw_ok bp opt [4; 4]%Z V (num_spin r) (num_spin r) Hbp' eq_refl HV Hopt Hdet Sd eq_refl Hnl Hxc H1 ltac:(lia) Hw out Ho') as [So _].
    rewrite So, Hlen, HB8. reflexivity.
Qed.
(** * Example: two orbitals exchanged *)
Definition ex_swap (i j : nat) : C := if (i + j =? 1)%nat then RtoC 1 else RtoC 0.
Definition ex_coeff : tensor C := mkT [1; 1; 2; 2; 1; 1]%nat (fun i => if (nth 2 i 0 =? nth 3 i 0)%nat then RtoC 1 else RtoC 0).
Definition ex_coeff' : tensor C := mkT [1; 1; 2; 2; 1; 1]%nat (fun i => sumC (seq 0 2) (fun b => tget ex_coeff ([0; 0; b]%nat ++ skipn 3 i) * ex_swap b (nth 2 i 0%nat))%C).
Lemma ex_rotation : exists v M M' e e', let G := mkT [2; 1; 1]%nat (fun i => V3 (INR (hd 0%nat i)) 0 0) in let dens := mkT [1; 2; 1; 1]%nat (fun i => 1 + INR (nth 1 i 0%nat)) in
  effective_sum ex_xcd dens [] [] G 1 "lda_x" true = Ok v /\ tshape v = [1; 2; 1; 1]%nat /\
  hamiltonian_matrix ex_xcd ex_coeff [] [] dens G [vzero] 1 "lda_x" true = Ok M /\ hamiltonian_matrix ex_xcd ex_coeff' [] [] dens G [vzero] 1 "lda_x" true = Ok M' /\
  jnp_eigvalsh eig_ev M = Ok e /\ jnp_eigvalsh eig_ev M' = Ok e' /\
  combines [2; 1; 1]%nat 2 2 ex_coeff ex_coeff' (fun b => [0; 0; b]%nat) (fun b => [0; 0; b]%nat) ex_swap /\ orthonormal_columns 2 2 ex_swap.
Proof.
  set (G := mkT [2; 1; 1]%nat (fun i => V3 (INR (hd 0%nat i)) 0 0)). set (dens := mkT [1; 2; 1; 1]%nat (fun i => 1 + INR (nth 1 i 0%nat))).
  destruct (lda_channels ex_lib (fun _ _ _ _ => Err ValueErr) "lda_x" dens [] [] G 1 true 1 2 1 1 (or_introl eq_refl) eq_refl ltac:(discriminate) eq_refl eq_refl eq_refl) as (v & Hv & Sv).
  destruct (wave_grid_eq ex_coeff 1 [1; 1; 2]%nat [2; 1; 1]%nat eq_refl eq_refl) as (w & Hw & _). destruct (wave_grid_eq ex_coeff' 1 [1; 1; 2]%nat [2; 1; 1]%nat eq_refl eq_refl) as (w' & Hw' & _).
  destruct (matrix_value ex_xcd ex_coeff [] [] dens G [vzero] 1 "lda_x" true 1 2 1 2 1 1 v w eq_refl eq_refl Hv Sv Hw) as (M & HM & SM & _).
  destruct (matrix_value ex_xcd ex_coeff' [] [] dens G [vzero] 1 "lda_x" true 1 2 1 2 1 1 v w' eq_refl eq_refl Hv Sv Hw') as (M' & HM' & SM' & _).
  destruct (eigvalsh_value eig_ev M 1 1 2 (SM ltac:(lia))) as (e & He & _). destruct (eigvalsh_value eig_ev M' 1 1 2 (SM' ltac:(lia))) as (e' & He' & _).
  exists v, M, M', e, e'. cbv zeta. repeat (split; [assumption|]). split.
  - intros j g Hj Hg. reflexivity.
  - intros i j Hi Hj. destruct i as [|[|i]]; [| |lia]; (destruct j as [|[|j]]; [| |lia]); cbn [seq sumC fold_right]; unfold ex_swap, kron; cbn [Nat.eqb Nat.add]; rewrite !Cconj_R; apply injective_projections; cbn; ring.
Qed.
Lemma ae_band_setup pkg read bandpath gs c bp : ae_band_problem pkg read bandpath gs c = Ok bp ->
  create_crystal pkg read c = Ok (bp_crystal bp) /\ (exists r k, create_grids pkg read c = Ok (bp_G bp, r, k)) /\ create_freq_mask pkg read c = Ok (bp_mask bp) /\ getattr c "xc" = Ok (VStr (bp_xc bp)) /\
  (exists out, gs c = Ok out /\ bp_dens bp = returned out) /\ (exists v, getattr c "spin_restricted" = Ok v /\ bp_restricted bp = truthy v) /\
  (exists e v, getattr c "band_structure_empty_bands" = Ok v /\ cfg_int v = Ok e /\ Z.of_nat (bp_bands bp) = num_bands (num_electron (bp_crystal bp)) e) /\
  (exists special, getattr c "k_path_special_points" = Ok special /\ bp_path bp = get_k_path (fun cell _ n => bandpath cell special n) (cr_cell (bp_crystal bp)) EmptyString (bp_kpts bp) false).
Proof.
  intros H. destruct (setup_inv' _ _ _ _ _ _ _ _ H) as (H1 & (N & e & v & HN & Hv & He & HB) & H3 & H4 & H5 & Hd & H7 & H8). step Hd out Ho. injection Hd as Hd. injection HN as HN.
  split; [exact H1|]. split; [exact H3|]. split; [exact H4|]. split; [exact H5|]. split; [exists out; split; [exact Ho|congruence]|]. split; [exact H7|].
  split; [exists e, v; rewrite HN; auto|exact H8].
Qed.
