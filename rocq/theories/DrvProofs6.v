(** main.py; a configuration the driver theorems apply to. *)
From Coq Require Import Reals Lra Lia.
From Coquelicot Require Import Complex.
From Coq Require Import Ascii String List Arith ZArith Bool.
From Verif Require Import Base Sums Tensor DFT Lin3 VecModel VecProofs OccModel OccSpec OccProofs PadModel PwModel PwSpec PwProofs BraketModel EnergyModel EnergySpec EnergyProofs
  EwaldModel GridModel RespProofs TotalProofs XcModel XcProofs XcProofs3 LocModel LocProofs2 NlocModel NlocProofs4 CalcSpec CalcModel CalcProofs CalcProofs2 CalcProofs3 DrvModel DrvSpec DrvProofs DrvProofs2 DrvProofs3 DrvProofs4 DrvProofs5.
Import ListNotations.
Local Open Scope R_scope.

(** ** main *)
Lemma main_inv mode file load d : main mode file load = Ok d <->
  exists c u, get_config (Some file) = Ok c /\ getattr c "use_pseudopotential" = Ok u /\
    ((mode = None \/ mode = Some "energy"%string) /\ d = (if truthy u then EnergyNormcons else EnergyAllElectrons) \/
     mode = Some "band"%string /\ d = (if truthy u then BandNormcons else BandAllElectrons)).
Proof.
  unfold main. split.
  - set (m := match mode with Some m => m | None => "energy"%string end). destruct (String.eqb_spec m "energy") as [E|E]; [|destruct (String.eqb_spec m "band") as [E'|E']]; cbn [orb negb]; try discriminate;
      intros H; apply bind_ok in H; destruct H as (c & Hc & H); apply bind_ok in H; destruct H as (o & Ho & H); unfold dispatch in Ho; rewrite ?E, ?E' in Ho; cbn [String.eqb Ascii.eqb Bool.eqb] in Ho;
      apply bind_ok in Ho; destruct Ho as (u & Hu & Ho); injection Ho as <-; injection H as <-; exists c, u; (split; [exact Hc|]); (split; [exact Hu|]).
    + left. split; [|reflexivity]. subst m. destruct mode as [m|]; [right; congruence|left; reflexivity].
    + right. split; [|reflexivity]. subst m. destruct mode as [m|]; [congruence|discriminate].
  - intros (c & u & Hc & Hu & [[[->| ->] ->]|[-> ->]]); cbn [String.eqb Ascii.eqb Bool.eqb orb negb]; rewrite Hc; cbn [bind]; unfold dispatch; cbn [String.eqb Ascii.eqb Bool.eqb]; rewrite Hu; reflexivity.
Qed.
Lemma main_load mode file l l' : main mode file l = main mode file l'.
Proof. reflexivity. Qed.
Lemma main_mode mode file load : mode <> "energy"%string -> mode <> "band"%string -> main (Some mode) file load = Err SystemExitErr.
Proof. intros H1 H2. unfold main. destruct (String.eqb_spec mode "energy"); [contradiction|]. destruct (String.eqb_spec mode "band"); [contradiction|]. reflexivity. Qed.

(** ** an example: diamond, spin 2, gradient descent *)
Definition ex_ase (_ : string) : res ase_atoms := Ok (Ase [6; 6]%Z [vzero; V3 1 1 1] (m3scale 4 m3id)).
Definition ex_drv (occ : string) (restricted pseudo : bool) (grid : Z) : cfg :=
  [ ("crystal", VStr "diamond"); ("spin", VInt 2); ("xc", VStr "lda_x"); ("use_pseudopotential", VBool pseudo); ("pseudopotential_type", VStr "nc"); ("pseudopotential_file_dir", VNone);
    ("freq_mask_method", VStr "cubic"); ("grid_sizes", VInt grid); ("k_grid_sizes", VInt 2); ("occupation", VStr occ); ("smearing", VReal (1 / 1000));
    ("empty_bands", VInt 8); ("spin_restricted", VBool restricted);
    ("ewald_args", VDict [("ewald_eta", VReal (1 / 10)); ("ewald_cutoff", VReal 20000)]);
    ("epoch", VInt 10); ("optimizer", VStr "sgd"); ("optimizer_args", VDict [("learning_rate", VReal (1 / 100))]);
    ("scheduler", VNone); ("convergence_window_size", VInt 20); ("convergence_condition", VReal (1 / 10000));
    ("seed", VInt 123); ("parallel_over_k_mesh", VBool true); ("jax_enable_x64", VBool true);
    ("jax_debug_nans", VBool false); ("verbose", VBool true); ("eps", VReal (1 / 100000000));
    ("k_path_special_points", VStr "LGX"); ("num_kpoints", VInt 6); ("parallel_over_k_path", VBool true);
    ("band_structure_empty_bands", VInt 4); ("band_structure_epoch", VInt 20); ("k_path_fine_tuning_epoch", VInt 5) ]%string.
Definition ex_scale (a : R) (p : params) : params :=
  Params (tmap (Rmult a) (p_re p)) (tmap (Rmult a) (p_im p)) (match p_occ p with PArr o => PArr (tmap (Rmult a) o) | PDict u d => PDict (tmap (Rmult a) u) (tmap (Rmult a) d) end).
Definition ex_alias (_ : string) : option (cval -> list (string * cval) -> optax unit) :=
  Some (fun lr _ => (fun _ => tt, fun g _ => (ex_scale (- match cfg_real lr with Ok r => r | Err _ => 0 end) g, tt))).
Definition ex_opt : optax unit := (fun _ => tt, fun g _ => (ex_scale (- (1 / 100)) g, tt)).
Definition ex_rnd (sh : list nat) : tensor R := mkT sh (fun _ => 1).
Definition ex_rpw (sh : list nat) : tensor R * tensor R := (mkT sh (fun _ => 1), mkT sh (fun _ => 1)).
Definition ex_lib : xclib := fun _ _ => Some (fun a b => 0).

Lemma ex_opt_constants : leaves_constants ex_opt.
Proof.
  intros p0 gs g _ Hg. unfold ex_opt, no_occ in *. cbn [fst snd ex_scale p_occ] in *. unfold ex_scale. cbn [p_occ]. destruct (p_occ g) as [a b|o]; cbn [tmap tget].
  - destruct Hg as [Ha Hb]. split; intros i; rewrite ?Ha, ?Hb; ring.
  - intros i. rewrite Hg. ring.
Qed.
Lemma ex_optimizer occ r ps n : create_optimizer ex_alias (ex_drv occ r ps n) = Ok ex_opt.
Proof. reflexivity. Qed.
Lemma ex_rnd_ok : shape_ok ex_rnd.
Proof. intros sh. reflexivity. Qed.
Lemma ex_rpw_ok : pair_shape_ok ex_rpw.
Proof. intros sh. split; reflexivity. Qed.
Definition ex_crystal : crystal := crystal_of_ase (Ase [6; 6]%Z [vzero; V3 1 1 1] (m3scale 4 m3id)) (Some 2%Z).
Lemma a2b_pos : 0 < angstrom2bohr.
Proof. unfold angstrom2bohr. lra. Qed.
Lemma ex_cell_det : m3det (cr_cell ex_crystal) <> 0.
Proof. unfold ex_crystal, crystal_of_ase. cbn [cr_cell a_cell]. pose proof a2b_pos as Ha.
  match goal with |- ?X <> 0 => replace X with ((angstrom2bohr * 4) * ((angstrom2bohr * 4) * (angstrom2bohr * 4))) by (unfold m3det, m3scale, m3id, cross, dot, vscale; cbn; ring) end.
  repeat apply Rmult_integral_contrapositive_currified; lra. Qed.
Lemma ex_setup erfc pkg occ r ps grid n electrons ions init N io devices : 
  fft_factor grid = Ok n -> (1 <= n)%Z -> electrons ex_crystal = Ok N -> (0 <= N)%Z ->
  (forall G k vol, g_vectors (cr_cell ex_crystal) (nats [n; n; n]) = Ok G -> tshape G = nats [n; n; n] -> length k = 8%nat -> ions ex_crystal G k vol = Ok (io G k vol)) -> (8 mod devices = 0)%nat ->
  exists pb, setup erfc pkg ex_ase devices (ex_drv occ r ps grid) electrons ions init = Ok pb /\ pb_crystal pb = ex_crystal /\ pb_electrons pb = N /\
    pb_bands pb = Z.to_nat (num_bands N 8) /\ pb_method pb = method_of_name occ /\ pb_restricted pb = r /\ pb_xc pb = "lda_x"%string /\ pb_epoch pb = 10%nat /\ pb_devices pb = devices /\
    tshape (pb_mask pb) = nats [n; n; n] /\ (forall i, tget (pb_mask pb) i = match cubic_mask [n; n; n] with Ok f => f (map Z.of_nat i) | Err _ => false end).
Proof.
  intros Hn Hn1 HN HN0 Hio Hd.
  assert (Hc : create_crystal pkg ex_ase (ex_drv occ r ps grid) = Ok ex_crystal) by reflexivity.
  assert (HB : proper_grid_size (GScalar grid) = Ok [n; n; n]) by (cbn [proper_grid_size mapM]; rewrite Hn; reflexivity).
  assert (H2 : proper_grid_size (GScalar 2) = Ok [2; 2; 2]%Z) by reflexivity.
  destruct (vector_grid_ok (reciprocal_vectors (cr_cell ex_crystal)) (Z.to_nat n) (Z.to_nat n) (Z.to_nat n) false) as [g Hg]; [lia..|].
  destruct (vector_grid_ok (cr_cell ex_crystal) (Z.to_nat n) (Z.to_nat n) (Z.to_nat n) true) as [rr Hr]; [lia..|].
  assert (Hk : exists k, k_vectors (cr_cell ex_crystal) [2; 2; 2]%nat = Ok k /\ length k = 8%nat) by (eexists; split; [reflexivity|]; rewrite map_length; reflexivity). destruct Hk as (k & Hk & Lk).
  assert (Hgr : create_grids pkg ex_ase (ex_drv occ r ps grid) = Ok (g, rr, k)).
  { unfold create_grids. rewrite Hc. cbn [bind]. change (getattr (ex_drv occ r ps grid) "grid_sizes") with (Ok (VInt grid)). change (getattr (ex_drv occ r ps grid) "k_grid_sizes") with (Ok (VInt 2)). cbn [bind cfg_grid].
    rewrite HB, H2. cbn [bind]. unfold g_vectors, r_vectors. cbn [nats map]. rewrite Hg, Hr. cbn [bind]. change (Z.to_nat 2) with 2%nat. rewrite Hk. reflexivity. }
  assert (Hm : exists mask, create_freq_mask pkg ex_ase (ex_drv occ r ps grid) = Ok mask /\ tshape mask = nats [n; n; n] /\ forall i, tget mask i = match cubic_mask [n; n; n] with Ok f => f (map Z.of_nat i) | Err _ => false end).
  { unfold create_freq_mask. rewrite Hc. cbn [bind]. change (getattr (ex_drv occ r ps grid) "grid_sizes") with (Ok (VInt grid)). change (getattr (ex_drv occ r ps grid) "freq_mask_method") with (Ok (VStr "cubic")). cbn [bind cfg_grid].
    rewrite HB. cbn [bind]. cbn [String.eqb Ascii.eqb Bool.eqb]. unfold cubic_mask. cbn [bind].
    destruct (estimate_ok (cr_cell ex_crystal) (Z.to_nat n) (Z.to_nat n) (Z.to_nat n)) with (f := fun i : list nat => match map Z.of_nat i with [i1; i2; i3] => cubic_mask_axis n i1 && cubic_mask_axis n i2 && cubic_mask_axis n i3 | _ => false end) as [E HE]; [lia..|].
    cbn [nats map]. rewrite HE. cbn [bind]. eexists. split; [reflexivity|]. split; [reflexivity|]. intros i. reflexivity. }
  destruct Hm as (mask & Hm & Sm & Gm).
  assert (Ht : exists T, translation_vectors (cr_cell ex_crystal) 20000 = Ok T).
  { apply translation_ok. split; [|lra]. intros H. apply (f_equal vx) in H. unfold row_sum, ex_crystal, crystal_of_ase, m3scale, m3id, vadd, vscale, vzero in H. cbn in H. pose proof a2b_pos. nra. }
  destruct Ht as [T Ht].
  assert (He : exists ew, get_ewald_coulomb_repulsion erfc pkg ex_ase (ex_drv occ r ps grid) = Ok ew).
  { unfold get_ewald_coulomb_repulsion. rewrite Hc. cbn [bind]. change (getattr (ex_drv occ r ps grid) "ewald_args") with (Ok (VDict [("ewald_eta", VReal (1 / 10)); ("ewald_cutoff", VReal 20000)]%string)). cbn [bind assoc String.eqb Ascii.eqb Bool.eqb cfg_real].
    rewrite Ht. cbn [bind]. rewrite Hgr. cbn [bind]. unfold ewald_coulomb_repulsion. cbn [ex_crystal crystal_of_ase cr_charges cr_positions a_numbers a_positions map length Nat.eqb negb]. eexists. reflexivity. }
  destruct He as [ew He].
  assert (Sg : tshape g = nats [n; n; n]) by (apply (vector_grid_shape _ _ _ _ Hg)).
  unfold setup. change (set_env_params (ex_drv occ r ps grid)) with (@Ok unit tt).
  change (getattr (ex_drv occ r ps grid) "seed") with (Ok (VInt 123)). change (getattr (ex_drv occ r ps grid) "smearing") with (Ok (VReal (1 / 1000))). cbn [bind cfg_real]. rewrite Hc. cbn [bind]. rewrite HN. cbn [bind].
  change (getattr (ex_drv occ r ps grid) "eps") with (Ok (VReal (1 / 100000000))). change (getattr (ex_drv occ r ps grid) "parallel_over_k_mesh") with (Ok (VBool true)). cbn [bind cfg_real truthy]. rewrite Hgr. cbn [bind].
  change (getattr (ex_drv occ r ps grid) "empty_bands") with (Ok (VInt 8)). change (getattr (ex_drv occ r ps grid) "xc") with (Ok (VStr "lda_x")). change (getattr (ex_drv occ r ps grid) "occupation") with (Ok (VStr occ)). cbn [bind cfg_int cfg_str].
  rewrite Hm. cbn [bind]. rewrite He. cbn [bind]. change (create_convergence_checker (ex_drv occ r ps grid)) with (Ok (new_checker 20 (1 / 10000))). cbn [bind]. rewrite (Hio g k _ Hg Sg Lk). cbn [bind].
  rewrite Lk. destruct (Nat.eqb_spec (8 mod devices) 0); [|contradiction]. cbn [bind].
  change (getattr (ex_drv occ r ps grid) "spin_restricted") with (Ok (VBool r)). change (getattr (ex_drv occ r ps grid) "epoch") with (Ok (VInt 10)). cbn [bind cfg_int truthy].
  destruct (Z.ltb_spec (num_bands N 8) 0) as [Hneg|_]; [exfalso; unfold num_bands in Hneg; assert (0 <= (N + 1) / 2)%Z by (apply Z.div_pos; lia); lia|].
  eexists. split; [reflexivity|]. cbn [pb_crystal pb_electrons pb_bands pb_method pb_restricted pb_xc pb_epoch pb_devices pb_mask]. repeat split; auto.
Qed.
Definition ex_methods : list string := ["uniform"; "gamma"; "idempotent"; "simplex-projector"]%string.
Lemma ex_positions (mask : tensor bool) n : tshape mask = nats [n; n; n] -> (forall i, tget mask i = match cubic_mask [n; n; n] with Ok f => f (map Z.of_nat i) | Err _ => false end) ->
  length (mask_positions mask) = length (filter (fun i => match cubic_mask [n; n; n] with Ok f => f (map Z.of_nat i) | Err _ => false end) (indices (nats [n; n; n]))).
Proof. intros S G. unfold mask_positions. rewrite S. f_equal. apply filter_ext. exact G. Qed.
Lemma ex_ae erfc pkg occ r : In occ ex_methods ->
  exists pb, ae_problem erfc pkg ex_ase 2 (ex_drv occ r false 8) = Ok pb /\ m3det (cr_cell (pb_crystal pb)) <> 0 /\ bands_fit_basis pb /\
    bands_hold (pb_method pb) (pb_electrons pb) (pb_spin pb) (pb_bands pb) /\ length (cr_charges (pb_crystal pb)) = length (cr_positions (pb_crystal pb)) /\
    xc_returns (xc_density ex_lib (fun _ _ _ _ => Err ValueErr)) pb /\ (1 <= pb_epoch pb)%nat /\ pb_method pb = method_of_name occ /\ pb_restricted pb = r /\ pb_electrons pb = 12%Z /\ pb_spin pb = 2%Z.
Proof.
  intros Ho. destruct (ex_setup erfc pkg occ r false 8 8 (fun cr => Ok (num_electron cr)) (fun _ _ _ _ => Ok None) (fun r => r) 12 (fun _ _ _ => None) 2) as (pb & H & Hc & HN & HB & Hm & Hr & Hx & He & Hd & Sm & Gm);
    [reflexivity|lia|reflexivity|lia|reflexivity|reflexivity|].
  exists pb. unfold pb_spin. rewrite Hc, HN, HB, He, Hm. split; [exact H|]. split; [apply ex_cell_det|].
  split; [unfold bands_fit_basis; rewrite HB, (ex_positions _ 8 Sm Gm); apply Nat.leb_le; vm_compute; reflexivity|].
  split; [repeat (destruct Ho as [<-|Ho]; [vm_compute; repeat split; intros X; discriminate X|]); destruct Ho|].
  split; [reflexivity|]. split; [apply lda_xc_returns; [rewrite Hx; reflexivity|discriminate]|]. split; [lia|]. repeat split; auto.
Qed.
Lemma ex_ae_few erfc pkg : exists pb, ae_problem erfc pkg ex_ase 2 (ex_drv "uniform" true false 4) = Ok pb /\ (1 < length (mask_positions (pb_mask pb)) < pb_bands pb)%nat.
Proof.
  destruct (ex_setup erfc pkg "uniform" true false 4 4 (fun cr => Ok (num_electron cr)) (fun _ _ _ _ => Ok None) (fun r => r) 12 (fun _ _ _ => None) 2) as (pb & H & Hc & HN & HB & Hm & Hr & Hx & He & Hd & Sm & Gm);
    [reflexivity|lia|reflexivity|lia|reflexivity|reflexivity|].
  exists pb. split; [exact H|]. rewrite HB, (ex_positions _ 4 Sm Gm). split; apply Nat.ltb_lt; vm_compute; reflexivity.
Qed.

Definition ex_loader (_ : crystal) (_ : string) : res (list Z) := Ok [4; 4]%Z.
Definition ex_loc (_ : list Z) (_ : crystal) (G : tensor v3) (_ : R) : res (tensor C) := Ok (mkT (tshape G) (fun _ => RtoC 0)).
Definition ex_nl (_ : list Z) (_ : crystal) (G : tensor v3) (k : list v3) : res (tensor C) := Ok (mkT ([length k; 1; 1]%nat ++ tshape G) (fun _ => RtoC 1)).
Lemma ex_on_grid : on_grid ex_loc ex_nl.
Proof. split; [intros pp cr G vol V H; injection H as <-; reflexivity|]. intros pp cr G k psi H. injection H as <-. exists 1%nat, 1%nat. reflexivity. Qed.
Lemma ex_nc erfc pkg occ r : In occ ex_methods ->
  exists pb, nc_problem erfc pkg ex_ase ex_loader ex_loader (fun l => l) ex_loc ex_nl 2 (ex_drv occ r true 8) = Ok pb /\ m3det (cr_cell (pb_crystal pb)) <> 0 /\ bands_fit_basis pb /\
    (pb_electrons pb mod 2 = pb_spin pb mod 2)%Z /\ bands_hold (pb_method pb) (pb_electrons pb) (pb_spin pb) (pb_bands pb) /\ (pb_bands pb mod pb_devices pb = 0)%nat /\
    xc_returns (xc_density ex_lib (fun _ _ _ _ => Err ValueErr)) pb /\ (1 <= pb_epoch pb)%nat /\ pb_method pb = method_of_name occ /\ pb_restricted pb = r /\ pb_electrons pb = 8%Z /\ pb_spin pb = 2%Z.
Proof.
  intros Ho. destruct (ex_setup erfc pkg occ r true 8 8 (fun _ => do pp <- create_pseudopotential pkg ex_ase ex_loader ex_loader (ex_drv occ r true 8); Ok (fold_right Z.add 0%Z pp))
    (fun cr g k vol => do pp <- create_pseudopotential pkg ex_ase ex_loader ex_loader (ex_drv occ r true 8); do V <- ex_loc pp cr g vol; do psi <- ex_nl pp cr g k; Ok (Some (V, psi)))
    (fun _ => true) 8 (fun G k _ => Some (mkT (tshape G) (fun _ => RtoC 0), mkT ([length k; 1; 1]%nat ++ tshape G) (fun _ => RtoC 1))) 2) as (pb & H & Hc & HN & HB & Hm & Hr & Hx & He & Hd & Sm & Gm);
    [reflexivity|lia|reflexivity|lia|reflexivity|reflexivity|].
  exists pb. unfold pb_spin. rewrite Hc, HN, HB, He, Hm, Hd. split; [exact H|]. split; [apply ex_cell_det|].
  split; [unfold bands_fit_basis; rewrite HB, (ex_positions _ 8 Sm Gm); apply Nat.leb_le; vm_compute; reflexivity|]. split; [reflexivity|].
  split; [repeat (destruct Ho as [<-|Ho]; [vm_compute; repeat split; intros X; discriminate X|]); destruct Ho|]. split; [reflexivity|].
  split; [apply lda_xc_returns; [rewrite Hx; reflexivity|discriminate]|]. split; [lia|]. repeat split; auto.
Qed.

(** ** what is minimised *)
Lemma update_spec {Os} qr cqr xcd pb grad (optimizer : params -> Os -> params * Os) p o T p' o' f e h :
  drv_update qr cqr xcd pb grad optimizer p o T = Ok (p', o', f, (e, h)) <->
  objective qr cqr xcd pb p = Ok e /\ get_entropy qr pb p = Ok h /\ f = e - T * h /\
  p' = apply_updates p (fst (optimizer (stop_gradient (pb_method pb) (grad T p)) o)) /\ o' = snd (optimizer (stop_gradient (pb_method pb) (grad T p)) o).
Proof.
  unfold drv_update, free_energy_of. split.
  - intros H. step H x Hx. step Hx e' He. step Hx h' Hh. injection Hx as <-. destruct (optimizer _ o) as [u o2] eqn:E. cbn [fst snd] in *. injection H as <- <- <- <- <-. auto.
  - intros (-> & -> & -> & -> & ->). cbn [bind]. destruct (optimizer _ o) as [u o2] eqn:E. reflexivity.
Qed.
Lemma update_entropy {Os} qr cqr xcd pb grad (optimizer : params -> Os -> params * Os) p o T p' o' f e h :
  drv_update qr cqr xcd pb grad optimizer p o T = Ok (p', o', f, (e, h)) <->
  objective qr cqr xcd pb p = Ok e /\ (exists occ, get_occupation qr pb p = Ok occ /\ fermi_dirac occ (pb_eps pb) = Ok h) /\ f = e - T * h /\
  p' = apply_updates p (fst (optimizer (stop_gradient (pb_method pb) (grad T p)) o)) /\ o' = snd (optimizer (stop_gradient (pb_method pb) (grad T p)) o).
Proof.
  rewrite update_spec. assert (E : get_entropy qr pb p = Ok h <-> exists occ, get_occupation qr pb p = Ok occ /\ fermi_dirac occ (pb_eps pb) = Ok h); [|tauto].
  unfold get_entropy. destruct (get_occupation qr pb p) as [occ|er]; cbn [bind]; split.
  - intros H. exists occ. split; [reflexivity|exact H].
  - intros (occ' & E & H). injection E as ->. exact H.
  - intros H. discriminate.
  - intros (occ' & E & _). discriminate.
Qed.
Lemma ae_objective erfc pkg read devices rnd rpw c pb p0 p qr cqr xcd : reduced_qr qr -> complex_qr cqr -> shape_ok rnd -> pair_shape_ok rpw ->
  ae_problem erfc pkg read devices c = Ok pb -> ae_init rnd rpw pb = Ok p0 -> reachable pb p0 p -> bands_hold (pb_method pb) (pb_electrons pb) (pb_spin pb) (pb_bands pb) -> bands_fit_basis pb ->
  xc_local xcd false (pb_xc pb) ->
  exists co occ, get_coeff cqr pb p = Ok co /\ get_occupation qr pb p = Ok occ /\
    forall e, objective qr cqr xcd pb p = Ok e <->
      total_energy xcd co (cr_positions (pb_crystal pb)) (map IZR (cr_charges (pb_crystal pb))) (pb_G pb) (pb_k pb) (pb_vol pb) (Some occ) false (pb_xc pb) = Ok e.
Proof.
  intros Hq Hcq Hr Hrp Hpb Hi Hre Hb Hfit Hx. pose proof (setup_grids _ _ _ _ _ _ _ _ _ Hpb) as Hg. destruct (ae_parity _ _ _ _ _ _ Hpb) as (_ & Hpar & Hio & Hir).
  destruct (coeff_along rnd rpw pb p0 p cqr Hcq Hrp Hi (proj1 Hre) Hfit) as (co & Ec & Sc & _). destruct (occ_along rnd rpw pb p0 p qr Hq Hr Hg Hi Hre Hpar (fun _ => Hir) Hb) as (occ & Eo & So & _).
  destruct Hg as (n1 & n2 & n3 & _ & Sm & _). rewrite Sm in Sc. exists co, occ. split; [exact Ec|]. split; [exact Eo|]. intros e. rewrite (objective_unfold qr cqr xcd pb p co occ Ec Eo).
  apply (ae_objective_at xcd pb co occ e _ _ _ n1 n2 n3 Hio Hx Sc So).
Qed.
Lemma nc_objective {PP} erfc pkg read (nc us : crystal -> string -> res PP) valence pp_local pp_nonlocal devices rnd rpw c pb p0 p qr cqr xcd :
  reduced_qr qr -> complex_qr cqr -> shape_ok rnd -> pair_shape_ok rpw -> on_grid pp_local pp_nonlocal ->
  nc_problem erfc pkg read nc us valence pp_local pp_nonlocal devices c = Ok pb -> m3det (cr_cell (pb_crystal pb)) <> 0 ->
  nc_init rnd rpw pb = Ok p0 -> reachable pb p0 p -> (pb_electrons pb mod 2 = pb_spin pb mod 2)%Z -> bands_hold (pb_method pb) (pb_electrons pb) (pb_spin pb) (pb_bands pb) -> bands_fit_basis pb ->
  (fixed_occ (pb_method pb) -> pb_restricted pb = true) ->
  exists pp V psi co occ d D w Hl Hn, create_pseudopotential pkg read nc us c = Ok pp /\ pp_local pp (pb_crystal pb) (pb_G pb) (pb_vol pb) = Ok V /\ pp_nonlocal pp (pb_crystal pb) (pb_G pb) (pb_k pb) = Ok psi /\
    get_coeff cqr pb p = Ok co /\ get_occupation qr pb p = Ok occ /\
    density_grid co (pb_vol pb) (Some occ) = Ok d /\ fftn3 (tmap RtoC d) = Ok D /\ wave_grid co (pb_vol pb) = Ok w /\
    hamiltonian_local w V (pb_vol pb) = Ok Hl /\ hamiltonian_nonlocal co psi (pb_vol pb) = Ok Hn /\
    forall e, objective qr cqr xcd pb p = Ok e <->
      exists ek eh ex, e_kinetic (pb_G pb) (pb_k pb) co (Some occ) = Ok ek /\ e_hartree D (pb_G pb) (pb_vol pb) false = Ok eh /\ e_xc xcd d (pb_G pb) (pb_vol pb) (pb_xc pb) false = Ok ex /\
        e = tget ek [] + eh + sumR (seq 0 (num_spin (pb_restricted pb))) (fun s => sumR (seq 0 (length (pb_k pb))) (fun k => sumR (seq 0 (pb_bands pb)) (fun b =>
              tget occ [s; k; b] * (Re (tget Hl [s; k; b; b]) + Re (tget Hn [s; k; b; b]))))) + ex.
Proof.
  intros Hq Hcq Hr Hrp [Hon1 Hon2] Hpb HA Hi Hre Hpar Hb Hfit Hres. destruct (nc_facts _ _ _ _ _ _ _ _ _ c pb Hpb) as (Hg & Hir & _ & pp & V & psi & Hpp & _ & HV & Hpsi & Hio).
  destruct (nc_init_inv rnd rpw pb p0 Hi) as [Hi' _].
  destruct (coeff_along rnd rpw pb p0 p cqr Hcq Hrp Hi' (proj1 Hre) Hfit) as (co & Ec & Sc & _).
  destruct (occ_along rnd rpw pb p0 p qr Hq Hr Hg Hi' Hre Hpar) as (occ & Eo & So & _); [intros h; rewrite (Hres h); exact Hir|exact Hb|].
  destruct (grid_facts pb Hg HA) as (n1 & n2 & n3 & HG & Sm & SG & Hp & Hv). rewrite Sm in Sc.
  pose proof (Hon1 _ _ _ _ _ HV) as SV. destruct (Hon2 _ _ _ _ _ Hpsi) as (nb & nm & Sp). rewrite SG in SV, Sp.
  destruct (nc_objective_at xcd pb co occ 0 V psi _ _ _ nb nm n1 n2 n3 Hio Hp Sc So SV Sp) as (d & D & w & Hl & Hn & Ed & ED & Ew & EHl & EHn & _).
  exists pp, V, psi, co, occ, d, D, w, Hl, Hn. do 10 (split; [assumption|]). intros e. rewrite (objective_unfold qr cqr xcd pb p co occ Ec Eo).
  destruct (nc_objective_at xcd pb co occ e V psi _ _ _ nb nm n1 n2 n3 Hio Hp Sc So SV Sp) as (d' & D' & w' & Hl' & Hn' & Ed' & ED' & Ew' & EHl' & EHn' & _ & _ & Hiff).
  rewrite Ed in Ed'. injection Ed' as <-. rewrite ED in ED'. injection ED' as <-. rewrite Ew in Ew'. injection Ew' as <-. rewrite EHl in EHl'. injection EHl' as <-. rewrite EHn in EHn'. injection EHn' as <-. exact Hiff.
Qed.

Lemma ae_setup erfc pkg read devices c pb : ae_problem erfc pkg read devices c = Ok pb ->
  create_crystal pkg read c = Ok (pb_crystal pb) /\ pb_electrons pb = num_electron (pb_crystal pb) /\ (pb_electrons pb mod 2 = pb_spin pb mod 2)%Z /\
  (exists r, create_grids pkg read c = Ok (pb_G pb, r, pb_k pb)) /\ create_freq_mask pkg read c = Ok (pb_mask pb) /\ tshape (pb_mask pb) = tshape (pb_G pb) /\
  get_ewald_coulomb_repulsion erfc pkg read c = Ok (pb_ewald pb) /\
  (exists e v, getattr c "empty_bands" = Ok v /\ cfg_int v = Ok e /\ Z.of_nat (pb_bands pb) = num_bands (pb_electrons pb) e) /\
  (exists v, getattr c "occupation" = Ok (VStr v) /\ pb_method pb = method_of_name v) /\ (exists v, getattr c "spin_restricted" = Ok v /\ pb_restricted pb = truthy v) /\
  (length (pb_k pb) mod pb_devices pb = 0)%nat.
Proof.
  intros H. destruct (setup_inv _ _ _ _ _ _ _ _ _ H) as (H1 & _ & H3 & H4 & _ & H6 & H7 & H8 & H9 & _ & _ & H12). destruct (ae_parity _ _ _ _ _ _ H) as (P1 & P2 & _).
  destruct (setup_grids _ _ _ _ _ _ _ _ _ H) as (n1 & n2 & n3 & G1 & G2 & _). assert (G3 : tshape (pb_G pb) = [n1; n2; n3]) by (apply (vector_grid_shape _ _ _ _ G1)).
  repeat (split; [first [assumption|congruence]|]). assumption.
Qed.
Lemma nc_setup {PP} erfc pkg read (nc us : crystal -> string -> res PP) valence pp_local pp_nonlocal devices c pb : nc_problem erfc pkg read nc us valence pp_local pp_nonlocal devices c = Ok pb ->
  create_crystal pkg read c = Ok (pb_crystal pb) /\ (exists pp, create_pseudopotential pkg read nc us c = Ok pp /\ pb_electrons pb = fold_right Z.add 0%Z (valence pp)) /\
  (exists r, create_grids pkg read c = Ok (pb_G pb, r, pb_k pb)) /\ create_freq_mask pkg read c = Ok (pb_mask pb) /\ tshape (pb_mask pb) = tshape (pb_G pb) /\
  get_ewald_coulomb_repulsion erfc pkg read c = Ok (pb_ewald pb) /\
  (exists e v, getattr c "empty_bands" = Ok v /\ cfg_int v = Ok e /\ Z.of_nat (pb_bands pb) = num_bands (pb_electrons pb) e) /\
  (exists v, getattr c "occupation" = Ok (VStr v) /\ pb_method pb = method_of_name v) /\ (exists v, getattr c "spin_restricted" = Ok v /\ pb_restricted pb = truthy v) /\
  (length (pb_k pb) mod pb_devices pb = 0)%nat.
Proof.
  intros H. destruct (setup_inv _ _ _ _ _ _ _ _ _ H) as (H1 & _ & H3 & H4 & _ & H6 & H7 & H8 & H9 & _ & _ & H12). destruct (nc_facts _ _ _ _ _ _ _ _ _ c pb H) as (_ & _ & _ & pp & _ & _ & Hpp & HN & _).
  destruct (setup_grids _ _ _ _ _ _ _ _ _ H) as (n1 & n2 & n3 & G1 & G2 & _). assert (G3 : tshape (pb_G pb) = [n1; n2; n3]) by (apply (vector_grid_shape _ _ _ _ G1)).
  split; [assumption|]. split; [exists pp; auto|]. repeat (split; [first [assumption|congruence]|]). assumption.
Qed.

(** ** configurations whose density does not integrate to the number of electrons *)
Definition ex_xcd : xcdens := xc_density ex_lib (fun _ _ _ _ => Err ValueErr).
Lemma ex_xc_local : xc_local ex_xcd false "lda_x".
Proof. apply xc_density_local. right. reflexivity. Qed.
Lemma ex_run erfc pkg qr cqr grad occ r : reduced_qr qr -> complex_qr cqr -> In occ ex_methods ->
  exists pb out, ae_problem erfc pkg ex_ase 2 (ex_drv occ r false 8) = Ok pb /\ ae_calc erfc pkg ex_ase 2 qr cqr ex_xcd grad ex_alias ex_rnd ex_rpw (ex_drv occ r false 8) = Ok out /\
    pb_electrons pb = 12%Z /\ pb_spin pb = 2%Z /\ bands_hold (pb_method pb) (pb_electrons pb) (pb_spin pb) (pb_bands pb) /\ bands_fit_basis pb /\ m3det (cr_cell (pb_crystal pb)) <> 0 /\ pb_method pb = method_of_name occ.
Proof.
  intros Hq Hcq Ho. destruct (ex_ae erfc pkg occ r Ho) as (pb & Hpb & HA & Hfit & Hb & Hlen & Hxr & He & Hm & Hr & HN & Hs).
  assert (Hx : pb_xc pb = "lda_x"%string).
  { destruct (ex_setup erfc pkg occ r false 8 8 (fun cr => Ok (num_electron cr)) (fun _ _ _ _ => Ok None) (fun r => r) 12 (fun _ _ _ => None) 2) as (pb' & H & _ & _ & _ & _ & _ & Hx & _); [reflexivity|lia|reflexivity|lia|reflexivity|reflexivity|].
    unfold ae_problem in Hpb. rewrite Hpb in H. injection H as <-. exact Hx. }
  destruct (ae_returns erfc pkg ex_ase 2 qr cqr ex_xcd grad ex_alias ex_rnd ex_rpw (ex_drv occ r false 8) pb ex_opt Hq Hcq ex_rnd_ok ex_rpw_ok Hpb (ex_optimizer _ _ _ _) HA Hfit Hb (fun _ => ex_opt_constants) Hlen) as [out Hout];
    [rewrite Hx; apply ex_xc_local|exact Hxr|exact He|].
  exists pb, out. repeat (split; [assumption|]). exact Hm.
Qed.
Lemma ex_idempotent erfc pkg qr cqr grad : reduced_qr qr -> complex_qr cqr ->
  exists c pb out, ae_problem erfc pkg ex_ase 2 c = Ok pb /\ bands_hold (pb_method pb) (pb_electrons pb) (pb_spin pb) (pb_bands pb) /\ bands_fit_basis pb /\ m3det (cr_cell (pb_crystal pb)) <> 0 /\
    ae_calc erfc pkg ex_ase 2 qr cqr ex_xcd grad ex_alias ex_rnd ex_rpw c = Ok out /\ pb_electrons pb = 12%Z /\ cell_integral (pb_vol pb) (returned out) = 14.
Proof.
  intros Hq Hcq. destruct (ex_run erfc pkg qr cqr grad "idempotent" true Hq Hcq) as (pb & out & Hpb & Hout & HN & Hs & Hb & Hfit & HA & Hm); [cbn; auto|].
  exists (ex_drv "idempotent" true false 8), pb, out. repeat (split; [assumption|]).
  destruct (ae_density erfc pkg ex_ase 2 qr cqr ex_xcd grad ex_alias ex_rnd ex_rpw _ pb ex_opt out Hq Hcq ex_rnd_ok ex_rpw_ok Hpb (ex_optimizer _ _ _ _) HA Hfit Hb (fun _ => ex_opt_constants) Hout) as (_ & _ & H & _).
  rewrite H, Hm, HN, Hs. reflexivity.
Qed.
Lemma ex_nc_double erfc pkg qr cqr grad : reduced_qr qr -> complex_qr cqr ->
  exists c pb out, nc_problem erfc pkg ex_ase ex_loader ex_loader (fun l => l) ex_loc ex_nl 2 c = Ok pb /\ bands_hold (pb_method pb) (pb_electrons pb) (pb_spin pb) (pb_bands pb) /\ bands_fit_basis pb /\
    m3det (cr_cell (pb_crystal pb)) <> 0 /\ (pb_electrons pb mod 2 = pb_spin pb mod 2)%Z /\
    nc_calc erfc pkg ex_ase ex_loader ex_loader (fun l => l) ex_loc ex_nl 2 qr cqr ex_xcd grad ex_alias ex_rnd ex_rpw c = Ok out /\ pb_electrons pb = 8%Z /\ cell_integral (pb_vol pb) (returned out) = 16.
Proof.
  intros Hq Hcq. destruct (ex_nc erfc pkg "uniform" false) as (pb & Hpb & HA & Hfit & Hpar & Hb & Hdv & Hxr & He & Hm & Hr & HN & Hs); [cbn; auto|]. change (method_of_name "uniform") with MUniform in Hm.
  destruct (nc_returns erfc pkg ex_ase ex_loader ex_loader (fun l => l) ex_loc ex_nl 2 qr cqr ex_xcd grad ex_alias ex_rnd ex_rpw (ex_drv "uniform" false true 8) pb ex_opt Hq Hcq ex_rnd_ok ex_rpw_ok ex_on_grid Hpb (ex_optimizer _ _ _ _) HA Hfit Hpar Hb) as [out Hout];
    [rewrite Hm; discriminate|intros _; exact Hdv|intros _; apply ex_opt_constants|exact Hxr|exact He|].
  exists (ex_drv "uniform" false true 8), pb, out. repeat (split; [assumption|]).
  destruct (nc_double erfc pkg ex_ase ex_loader ex_loader (fun l => l) ex_loc ex_nl 2 qr cqr ex_xcd grad ex_alias ex_rnd ex_rpw _ pb ex_opt out Hcq ex_rpw_ok Hpb (ex_optimizer _ _ _ _) HA Hfit Hpar Hb (or_introl Hm) ex_opt_constants Hr Hout) as (H & _).
  rewrite H, HN. lra.
Qed.
Lemma ex_ae_init erfc pkg occ r : In occ ex_methods ->
  exists pb p0, ae_problem erfc pkg ex_ase 2 (ex_drv occ r false 8) = Ok pb /\ ae_init ex_rnd ex_rpw pb = Ok p0 /\ reachable pb p0 p0 /\
    bands_hold (pb_method pb) (pb_electrons pb) (pb_spin pb) (pb_bands pb) /\ bands_fit_basis pb /\ xc_local ex_xcd false "lda_x".
Proof.
  intros Ho. destruct (ex_ae erfc pkg occ r Ho) as (pb & Hpb & HA & Hfit & Hb & _). destruct (ae_parity _ _ _ _ _ _ Hpb) as (_ & Hpar & _).
  destruct (init_returns ex_rnd ex_rpw pb (setup_grids _ _ _ _ _ _ _ _ _ Hpb) Hpar Hb) as [p0 Hi]. exists pb, p0. split; [exact Hpb|]. split; [exact Hi|].
  split; [apply (traj_reachable pb (fun _ p => p) ex_opt ex_rnd ex_rpw p0 0 Hi (fun _ => ex_opt_constants))|]. split; [exact Hb|]. split; [exact Hfit|apply ex_xc_local].
Qed.
Lemma ex_nc_init erfc pkg r :
  exists pb p0, nc_problem erfc pkg ex_ase ex_loader ex_loader (fun l => l) ex_loc ex_nl 2 (ex_drv "simplex-projector" r true 8) = Ok pb /\ nc_init ex_rnd ex_rpw pb = Ok p0 /\ reachable pb p0 p0 /\
    m3det (cr_cell (pb_crystal pb)) <> 0 /\ (pb_electrons pb mod 2 = pb_spin pb mod 2)%Z /\ bands_hold (pb_method pb) (pb_electrons pb) (pb_spin pb) (pb_bands pb) /\ bands_fit_basis pb /\
    (fixed_occ (pb_method pb) -> pb_restricted pb = true) /\ on_grid ex_loc ex_nl.
Proof.
  destruct (ex_nc erfc pkg "simplex-projector" r) as (pb & Hpb & HA & Hfit & Hpar & Hb & Hdv & _ & _ & Hm & _); [cbn; auto|]. change (method_of_name "simplex-projector") with MSimplex in Hm.
  pose proof (setup_grids _ _ _ _ _ _ _ _ _ Hpb) as Hg. destruct (init_returns ex_rnd ex_rpw pb Hg Hpar Hb) as [p0 Hi]. exists pb, p0. split; [exact Hpb|].
  split; [unfold nc_init; rewrite Hi; cbn [bind]; rewrite (proj2 (place_iff ex_rnd ex_rpw pb p0 Hi Hg (proj2 (proj2 (proj2 (proj2 (proj2 (proj2 (proj2 (proj2 (proj2 (nc_setup _ _ _ _ _ _ _ _ _ _ _ Hpb)))))))))))); [reflexivity|]; split; [rewrite Hm; discriminate|intros _; exact Hdv]|].
  split; [apply (traj_reachable pb (fun _ p => p) ex_opt ex_rnd ex_rpw p0 0 Hi (fun _ => ex_opt_constants))|]. do 4 (split; [assumption|]). split; [intros [h|h]; congruence|apply ex_on_grid].
Qed.
