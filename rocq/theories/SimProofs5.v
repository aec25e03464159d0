(** A closed-shell configuration the theorems on capped-simplex occupations apply to (C153). *)
From Coq Require Import Reals Lra Lia.
From Coquelicot Require Import Complex.
From Coq Require Import Ascii String List Arith ZArith Bool.
From Verif Require Import Base Sums Tensor DFT Lin3 VecModel VecProofs OccModel OccSpec OccProofs PadModel PwModel PwSpec PwProofs BraketModel EnergyModel EnergySpec EnergyProofs
  EwaldModel GridModel RespProofs TotalProofs XcModel XcProofs XcProofs3 LocModel LocProofs2 NlocModel NlocProofs4 CalcSpec CalcModel CalcProofs CalcProofs2 CalcProofs3 DrvModel DrvSpec DrvProofs DrvProofs2 DrvProofs3 DrvProofs4 DrvProofs5 DrvProofs6 SimSpec.
Import ListNotations.
Local Open Scope R_scope.

Definition ex_drv0 (occ : string) (restricted pseudo : bool) (grid : Z) : cfg :=
  [ ("crystal", VStr "diamond"); ("spin", VInt 0); ("xc", VStr "lda_x"); ("use_pseudopotential", VBool pseudo); ("pseudopotential_type", VStr "nc"); ("pseudopotential_file_dir", VNone);
    ("freq_mask_method", VStr "cubic"); ("grid_sizes", VInt grid); ("k_grid_sizes", VInt 2); ("occupation", VStr occ); ("smearing", VReal (1 / 1000));
    ("empty_bands", VInt 8); ("spin_restricted", VBool restricted);
    ("ewald_args", VDict [("ewald_eta", VReal (1 / 10)); ("ewald_cutoff", VReal 20000)]);
    ("epoch", VInt 10); ("optimizer", VStr "sgd"); ("optimizer_args", VDict [("learning_rate", VReal (1 / 100))]);
    ("scheduler", VNone); ("convergence_window_size", VInt 20); ("convergence_condition", VReal (1 / 10000));
    ("seed", VInt 123); ("parallel_over_k_mesh", VBool true); ("jax_enable_x64", VBool true);
    ("jax_debug_nans", VBool false); ("verbose", VBool true); ("eps", VReal (1 / 100000000));
    ("k_path_special_points", VStr "LGX"); ("num_kpoints", VInt 6); ("parallel_over_k_path", VBool true);
    ("band_structure_empty_bands", VInt 4); ("band_structure_epoch", VInt 20); ("k_path_fine_tuning_epoch", VInt 5) ]%string.
Definition ex_crystal0 : crystal := crystal_of_ase (Ase [6; 6]%Z [vzero; V3 1 1 1] (m3scale 4 m3id)) (Some 0%Z).
Lemma ex_cell_det0 : m3det (cr_cell ex_crystal0) <> 0.
Proof. unfold ex_crystal0, crystal_of_ase. cbn [cr_cell a_cell]. pose proof a2b_pos as Ha.
  match goal with |- ?X <> 0 => replace X with ((angstrom2bohr * 4) * ((angstrom2bohr * 4) * (angstrom2bohr * 4))) by (unfold m3det, m3scale, m3id, cross, dot, vscale; cbn; ring) end.
  repeat apply Rmult_integral_contrapositive_currified; lra. Qed.
Lemma ex_setup0 erfc pkg occ r ps grid n electrons ions init N io devices : 
  fft_factor grid = Ok n -> (1 <= n)%Z -> electrons ex_crystal0 = Ok N -> (0 <= N)%Z ->
  (forall G k vol, g_vectors (cr_cell ex_crystal0) (nats [n; n; n]) = Ok G -> tshape G = nats [n; n; n] -> length k = 8%nat -> ions ex_crystal0 G k vol = Ok (io G k vol)) -> (8 mod devices = 0)%nat ->
  exists pb, setup erfc pkg ex_ase devices (ex_drv0 occ r ps grid) electrons ions init = Ok pb /\ pb_crystal pb = ex_crystal0 /\ pb_electrons pb = N /\
    pb_bands pb = Z.to_nat (num_bands N 8) /\ pb_method pb = method_of_name occ /\ pb_restricted pb = r /\ pb_xc pb = "lda_x"%string /\ pb_epoch pb = 10%nat /\ pb_devices pb = devices /\
    tshape (pb_mask pb) = nats [n; n; n] /\ (forall i, tget (pb_mask pb) i = match cubic_mask [n; n; n] with Ok f => f (map Z.of_nat i) | Err _ => false end).
Proof.
  intros Hn Hn1 HN HN0 Hio Hd.
  assert (Hc : create_crystal pkg ex_ase (ex_drv0 occ r ps grid) = Ok ex_crystal0) by reflexivity.
  assert (HB : proper_grid_size (GScalar grid) = Ok [n; n; n]) by (cbn [proper_grid_size mapM]; rewrite Hn; reflexivity).
  assert (H2 : proper_grid_size (GScalar 2) = Ok [2; 2; 2]%Z) by reflexivity.
  destruct (vector_grid_ok (reciprocal_vectors (cr_cell ex_crystal0)) (Z.to_nat n) (Z.to_nat n) (Z.to_nat n) false) as [g Hg]; [lia..|].
  destruct (vector_grid_ok (cr_cell ex_crystal0) (Z.to_nat n) (Z.to_nat n) (Z.to_nat n) true) as [rr Hr]; [lia..|].
  assert (Hk : exists k, k_vectors (cr_cell ex_crystal0) [2; 2; 2]%nat = Ok k /\ length k = 8%nat) by (eexists; split; [reflexivity|]; rewrite map_length; reflexivity). destruct Hk as (k & Hk & Lk).
  assert (Hgr : create_grids pkg ex_ase (ex_drv0 occ r ps grid) = Ok (g, rr, k)).
  { unfold create_grids. rewrite Hc. cbn [bind]. change (getattr (ex_drv0 occ r ps grid) "grid_sizes") with (Ok (VInt grid)). change (getattr (ex_drv0 occ r ps grid) "k_grid_sizes") with (Ok (VInt 2)). cbn [bind cfg_grid].
    rewrite HB, H2. cbn [bind]. unfold g_vectors, r_vectors. cbn [nats map]. rewrite Hg, Hr. cbn [bind]. change (Z.to_nat 2) with 2%nat. rewrite Hk. reflexivity. }
  assert (Hm : exists mask, create_freq_mask pkg ex_ase (ex_drv0 occ r ps grid) = Ok mask /\ tshape mask = nats [n; n; n] /\ forall i, tget mask i = match cubic_mask [n; n; n] with Ok f => f (map Z.of_nat i) | Err _ => false end).
  { unfold create_freq_mask. rewrite Hc. cbn [bind]. change (getattr (ex_drv0 occ r ps grid) "grid_sizes") with (Ok (VInt grid)). change (getattr (ex_drv0 occ r ps grid) "freq_mask_method") with (Ok (VStr "cubic")). cbn [bind cfg_grid].
    rewrite HB. cbn [bind]. cbn [String.eqb Ascii.eqb Bool.eqb]. unfold cubic_mask. cbn [bind].
    destruct (estimate_ok (cr_cell ex_crystal0) (Z.to_nat n) (Z.to_nat n) (Z.to_nat n)) with (f := fun i : list nat => match map Z.of_nat i with [i1; i2; i3] => cubic_mask_axis n i1 && cubic_mask_axis n i2 && cubic_mask_axis n i3 | _ => false end) as [E HE]; [lia..|].
    cbn [nats map]. rewrite HE. cbn [bind]. eexists. split; [reflexivity|]. split; [reflexivity|]. intros i. reflexivity. }
  destruct Hm as (mask & Hm & Sm & Gm).
  assert (Ht : exists T, translation_vectors (cr_cell ex_crystal0) 20000 = Ok T).
  { apply translation_ok. split; [|lra]. intros H. apply (f_equal vx) in H. unfold row_sum, ex_crystal0, crystal_of_ase, m3scale, m3id, vadd, vscale, vzero in H. cbn in H. pose proof a2b_pos. nra. }
  destruct Ht as [T Ht].
  assert (He : exists ew, get_ewald_coulomb_repulsion erfc pkg ex_ase (ex_drv0 occ r ps grid) = Ok ew).
  { unfold get_ewald_coulomb_repulsion. rewrite Hc. cbn [bind]. change (getattr (ex_drv0 occ r ps grid) "ewald_args") with (Ok (VDict [("ewald_eta", VReal (1 / 10)); ("ewald_cutoff", VReal 20000)]%string)). cbn [bind assoc String.eqb Ascii.eqb Bool.eqb cfg_real].
    rewrite Ht. cbn [bind]. rewrite Hgr. cbn [bind]. unfold ewald_coulomb_repulsion. cbn [ex_crystal0 crystal_of_ase cr_charges cr_positions a_numbers a_positions map length Nat.eqb negb]. eexists. reflexivity. }
  destruct He as [ew He].
  assert (Sg : tshape g = nats [n; n; n]) by (apply (vector_grid_shape _ _ _ _ Hg)).
  unfold setup. change (set_env_params (ex_drv0 occ r ps grid)) with (@Ok unit tt).
  change (getattr (ex_drv0 occ r ps grid) "seed") with (Ok (VInt 123)). change (getattr (ex_drv0 occ r ps grid) "smearing") with (Ok (VReal (1 / 1000))). cbn [bind cfg_real]. rewrite Hc. cbn [bind]. rewrite HN. cbn [bind].
  change (getattr (ex_drv0 occ r ps grid) "eps") with (Ok (VReal (1 / 100000000))). change (getattr (ex_drv0 occ r ps grid) "parallel_over_k_mesh") with (Ok (VBool true)). cbn [bind cfg_real truthy]. rewrite Hgr. cbn [bind].
  change (getattr (ex_drv0 occ r ps grid) "empty_bands") with (Ok (VInt 8)). change (getattr (ex_drv0 occ r ps grid) "xc") with (Ok (VStr "lda_x")). change (getattr (ex_drv0 occ r ps grid) "occupation") with (Ok (VStr occ)). cbn [bind cfg_int cfg_str].
  rewrite Hm. cbn [bind]. rewrite He. cbn [bind]. change (create_convergence_checker (ex_drv0 occ r ps grid)) with (Ok (new_checker 20 (1 / 10000))). cbn [bind]. rewrite (Hio g k _ Hg Sg Lk). cbn [bind].
  rewrite Lk. destruct (Nat.eqb_spec (8 mod devices) 0); [|contradiction]. cbn [bind].
  change (getattr (ex_drv0 occ r ps grid) "spin_restricted") with (Ok (VBool r)). change (getattr (ex_drv0 occ r ps grid) "epoch") with (Ok (VInt 10)). cbn [bind cfg_int truthy].
  destruct (Z.ltb_spec (num_bands N 8) 0) as [Hneg|_]; [exfalso; unfold num_bands in Hneg; assert (0 <= (N + 1) / 2)%Z by (apply Z.div_pos; lia); lia|].
  eexists. split; [reflexivity|]. cbn [pb_crystal pb_electrons pb_bands pb_method pb_restricted pb_xc pb_epoch pb_devices pb_mask]. repeat split; auto.
Qed.
Lemma ex_closed erfc pkg r : exists pb p0, ae_problem erfc pkg ex_ase 2 (ex_drv0 "simplex-projector" r false 8) = Ok pb /\ m3det (cr_cell (pb_crystal pb)) <> 0 /\
  length (cr_charges (pb_crystal pb)) = length (cr_positions (pb_crystal pb)) /\ ae_init ex_rnd ex_rpw pb = Ok p0 /\ bands_hold (pb_method pb) (pb_electrons pb) (pb_spin pb) (pb_bands pb) /\ bands_fit_basis pb /\
  pb_method pb = MSimplex /\ pb_restricted pb = r /\ pb_electrons pb = 12%Z /\ pb_spin pb = 0%Z /\ pb_bands pb = 14%nat /\ pb_xc pb = "lda_x"%string /\
  tshape (pb_mask pb) = [8; 8; 8]%nat /\ forall i, tget (pb_mask pb) i = match cubic_mask [8; 8; 8]%Z with Ok f => f (map Z.of_nat i) | Err _ => false end.
Proof.
  destruct (ex_setup0 erfc pkg "simplex-projector" r false 8 8 (fun cr => Ok (num_electron cr)) (fun _ _ _ _ => Ok None) (fun r => r) 12 (fun _ _ _ => None) 2) as (pb & H & Hc & HN & HB & Hm & Hr & Hx & He & Hd & Sm & Gm);
    [reflexivity|lia|reflexivity|lia|reflexivity|reflexivity|].
  change (ae_problem erfc pkg ex_ase 2 (ex_drv0 "simplex-projector" r false 8) = Ok pb) in H. destruct (ae_parity _ _ _ _ _ _ H) as (_ & Hpar & _).
  assert (Hb : bands_hold (pb_method pb) (pb_electrons pb) (pb_spin pb) (pb_bands pb)) by (unfold pb_spin; rewrite Hc, HN, HB, Hm; vm_compute; repeat split; intros X; discriminate X).
  pose proof (setup_grids _ _ _ _ _ _ _ _ _ H) as Hg. destruct (init_returns ex_rnd ex_rpw pb Hg Hpar Hb) as [p0 Hi].
  exists pb, p0. split; [exact H|]. split; [rewrite Hc; apply ex_cell_det0|]. split; [rewrite Hc; reflexivity|]. split; [exact Hi|]. split; [exact Hb|].
  split; [unfold bands_fit_basis; rewrite HB, (ex_positions _ 8 Sm Gm); apply Nat.leb_le; vm_compute; reflexivity|].
  split; [rewrite Hm; reflexivity|]. split; [exact Hr|]. split; [exact HN|]. split; [unfold pb_spin; rewrite Hc; reflexivity|]. split; [rewrite HB; reflexivity|]. split; [exact Hx|]. split; [exact Sm|exact Gm].
Qed.
