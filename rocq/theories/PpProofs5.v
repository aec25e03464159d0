(** An example run on files: diamond with a carbon file of four valence electrons. *)
From Coq Require Import Reals Lra Lia.
From Coquelicot Require Import Complex.
From Coq Require Import Ascii String List Arith ZArith Bool.
From Verif Require Import PropOcc PwSpec PwProofs XcModel HamModel EigSpec EigProofs EigProofs2 BndProofs5 Base Sums Tensor Lin3 GridModel GridProofs VecModel VecProofs OccModel OccSpec PadModel PwModel EwaldModel EnergyModel CalcSpec CalcModel CalcProofs3 UpfModel UpfSpec UpfProofs2 SbtModel LocModel LocSpec NlocModel NlocSpec DrvModel DrvSpec DrvProofs2 DrvProofs5 DrvProofs6 BndModel BndSpec BndProofs6 PpModel PpSpec PpProofs PpProofs2 PpProofs3 PpProofs4.
Import ListNotations.
Local Open Scope R_scope.

Definition ex_numbers : list (string * R) := [("0", 0); ("1", 1); ("2", 2); ("4.00", 4); ("-4", -4); ("-3", -3); ("-2", -2)]%string.
Definition ex_float (s : string) : option R := match List.find (fun x => String.eqb s (fst x)) ex_numbers with Some x => Some (snd x) | None => Some 1 end.
Definition carbon_upf : elem := El "UPF" [] None
  [ El "PP_INFO" [] (Some usual_info) [];
    El "PP_HEADER" [("z_valence", "4.00"); ("l_max", "1")] None [];
    El "PP_MESH" [] None [El "PP_R" [] (Some "0 1 2") []; El "PP_RAB" [] (Some "1 1 1") []];
    El "PP_LOCAL" [] (Some "-4 -3 -2") [];
    El "PP_NONLOCAL" [] None [beta_elem "PP_BETA.1" "1" "0 2 1"; El "PP_DIJ" [] (Some "2") []] ]%string.
Definition ex_symbol (z : Z) : string := if (z =? 6)%Z then "C"%string else "X"%string.
Definition ex_listdir (_ : string) : res (list string) := Ok ["readme.txt"; "C.upf"]%string.
Definition ex_xml (_ : string) : res elem := Ok carbon_upf.
Definition ex_junk (_ _ _ : nat) : R := 99.

Lemma carbon_parsed : exists u, parse_upf pi1 ex_float carbon_upf = Ok u /\ u_header u "z_valence" = Some "4.00"%string /\ u_header u "l_max" = Some "1"%string /\ u_header u "l_max_rho" = None /\
  u_r u = [0; 1; 2] /\ u_rab u = [1; 1; 1] /\ u_local u = [-4; -3; -2] /\ u_nonlocal u = PPNonlocal (Some [Beta (Some "1"%string) None [0; 2; 1]]) (Some [2]) None.
Proof.
  unfold parse_upf. change (child carbon_upf "PP_INFO") with (Some (El "PP_INFO" [] (Some usual_info) [])). cbn [text_of].
  destruct (parse_pp_info pi1 ex_float (strip usual_info)) as [info|e] eqn:E; [|exfalso; revert E; vm_compute; discriminate]. cbn [bind].
  eexists. split; [reflexivity|]. repeat (split; [reflexivity|]). reflexivity.
Qed.
Lemma carbon_atom : exists b, (forall j, rmap (fun u => nc_create_atom pi1 ex_float j u) (parse_upf pi1 ex_float carbon_upf) = Ok (Ok b)) /\ c_valence b = 4%Z /\ c_l b = [1%Z] /\ c_r b = [1; 2] /\ c_beta b = [[2 / 1; 1 / 2]] /\ c_local b = [-3 / 2; -2 / 2] /\ c_d b = [[2 / 2]].
Proof.
  destruct carbon_parsed as (u & E & H1 & H2 & H3 & H4 & H5 & H6 & H7).
  assert (T : trunc 4 = 4%Z).
  { destruct (trunc_spec 4) as [H _]. specialize (H ltac:(lra)). assert (IZR (trunc 4) <= 4 < IZR (trunc 4) + 1) as [A B] by exact H.
    assert (trunc 4 <= 4)%Z by (apply le_IZR; exact A). assert (4 < trunc 4 + 1)%Z by (apply lt_IZR; rewrite plus_IZR; exact B). lia. }
  exists (NcAtom 4 [1; 2] [1; 1] 1 None [-3 / 2; -2 / 2] 1 [[2 / 1; 1 / 2]] [[2 / 2]] [1%Z] (u_valence u) (CutText None)). split.
  - intros j. rewrite E. cbn [rmap]. f_equal. unfold nc_create_atom, required. rewrite H1, H2, H3, H4, H5, H6, H7. unfold of_text, ex_float. cbn [ex_numbers List.find fst snd String.eqb Ascii.eqb Bool.eqb bind].
    unfold pos, map. destruct (Rlt_dec 0 0); [exfalso; lra|]. destruct (Rlt_dec 0 1); [|exfalso; lra]. destruct (Rlt_dec 0 2); [|exfalso; lra].
    rewrite T. reflexivity.
  - repeat (split; [reflexivity|]). reflexivity.
Qed.
Definition carbon_load pkg : exists b, c_valence b = 4%Z /\ c_l b = [1%Z] /\ c_r b = [1; 2] /\ length (c_d b) = 1%nat /\
  load_nc pi1 ex_float ex_symbol ex_listdir ex_xml ex_junk ex_crystal (append pkg "/pseudopotential/normconserving/") = Ok [b; b].
Proof.
  destruct carbon_atom as (b & Hb & H1 & H2 & H3 & _ & _ & H5). exists b. split; [exact H1|]. split; [exact H2|]. split; [exact H3|]. split; [rewrite H5; reflexivity|].
  unfold load_nc, ex_listdir. cbn [bind]. unfold nc_create. change (map ex_symbol (cr_charges ex_crystal)) with ["C"; "C"]%string.
  destruct (parse_upf pi1 ex_float carbon_upf) as [u|e] eqn:E; [|specialize (Hb (fun _ _ => 0)); discriminate].
  assert (F : (do p <- find_upf ["readme.txt"; "C.upf"]%string (append pkg "/pseudopotential/normconserving/") "C"; parse_file pi1 ex_float ex_xml p) = Ok u) by exact E.
  cbn [mapM]. rewrite F. cbn [bind length seq List.combine mapM fst snd].
  assert (G : forall j, nc_create_atom pi1 ex_float j u = Ok b) by (intros j; specialize (Hb j); cbn [rmap] in Hb; congruence).
  rewrite !G. reflexivity.
Qed.

(** Two grid vectors differ by more than twice the smallest wave number kept. *)
Lemma ex_enough G kpts : g_vectors (cr_cell ex_crystal) [8; 8; 8]%nat = Ok G -> kpts <> [] ->
  exists k x, (k < length kpts)%nat /\ inb x [8; 8; 8]%nat /\ / 10000 < norm (vadd (nth k kpts vzero) (tget G x)).
Proof.
  intros HG Hk. destruct (vector_grid_get _ _ _ _ _ _ HG) as [_ V]. destruct kpts as [|k0 kr]; [contradiction|]. clear Hk.
  assert (X : forall v e, 0 < e -> norm v <= e -> - e <= vx v <= e).
  { intros v e He Hv. assert (norm v ^ 2 <= e ^ 2) by (apply pow_incr; split; [apply sqrt_pos|exact Hv]). rewrite norm_sq in H. unfold norm2, dot in H. split; nra. }
  destruct (Rlt_dec (/ 10000) (norm (vadd k0 (tget G [0; 0; 0]%nat)))) as [H0|H0].
  { exists 0%nat, [0; 0; 0]%nat. split; [cbn; lia|]. split; [repeat constructor; lia|exact H0]. }
  exists 0%nat, [1; 0; 0]%nat. split; [cbn; lia|]. split; [repeat constructor; lia|]. cbn [nth].
  apply Rnot_le_lt. intros H1. apply Rnot_lt_le in H0. apply (X _ (/ 10000)) in H0; [|lra]. apply (X _ (/ 10000)) in H1; [|lra]. rewrite V in H0, H1.
  destruct (recip_dots (cr_cell ex_crystal) (V3 (coef false 8 0) (coef false 8 0) (coef false 8 0)) ex_cell_det) as (D0 & _ & _).
  destruct (recip_dots (cr_cell ex_crystal) (V3 (coef false 8 1) (coef false 8 0) (coef false 8 0)) ex_cell_det) as (D1 & _ & _).
  set (v0 := vmul (V3 (coef false 8 0) _ _) _) in *. set (v1 := vmul (V3 (coef false 8 1) _ _) _) in *.
  change (coef false 8 0) with 0 in D0. change (coef false 8 1) with 1 in D1. cbn [vx] in D0, D1.
  unfold dot, ex_crystal, crystal_of_ase, m3scale, m3id, vscale, vadd in *. cbn [cr_cell a_cell m0 vx vy vz] in *. unfold angstrom2bohr in *. pose proof PI2_3_2. nra.
Qed.

Section E.
Variable eigmax : list (list R) -> R.
Variable jn : Z -> R -> R.
Variables spline spline' : list R -> list R -> R -> R.
Variable Y : Z -> Z -> R -> R -> C.
Variable eigh : list (list R) -> list R * list (list R).
Variable cpus : nat.
Notation load_nc := (load_nc pi1 ex_float ex_symbol ex_listdir ex_xml ex_junk).
Notation load_us := (load_us pi1 ex_float ex_symbol ex_listdir ex_xml ex_junk eigmax).
Notation file_local := (file_local jn spline).
Notation file_nonlocal := (file_nonlocal jn spline' Y eigh cpus).
Notation file_path := (file_path jn spline' Y eigh cpus).
Notation file_problem := (file_problem pi1 ex_float ex_symbol ex_listdir ex_xml ex_junk eigmax jn spline spline' Y eigh cpus).
Notation file_calc := (file_calc pi1 ex_float ex_symbol ex_listdir ex_xml ex_junk eigmax jn spline spline' Y eigh cpus).
Notation file_band_problem := (file_band_problem pi1 ex_float ex_symbol ex_listdir ex_xml ex_junk eigmax).
Notation file_band := (file_band pi1 ex_float ex_symbol ex_listdir ex_xml ex_junk eigmax jn spline spline' Y eigh cpus).

Lemma ex_potentials pkg G kpts vol b : (2 <= cpus)%nat -> c_l b = [1%Z] -> c_r b = [1; 2] -> load_nc ex_crystal (append pkg "/pseudopotential/normconserving/") = Ok [b; b] ->
  g_vectors (cr_cell ex_crystal) [8; 8; 8]%nat = Ok G -> kpts <> [] ->
  (exists V, file_local [b; b] ex_crystal G vol = Ok V) /\ exists psi, file_nonlocal [b; b] ex_crystal G kpts = Ok psi.
Proof.
  intros Hc Hl Hr Hb HG Hk. destruct (potentials_exist pi1 ex_float ex_symbol ex_listdir ex_xml ex_junk jn spline spline' Y eigh cpus ex_crystal _ [b; b] (cr_cell ex_crystal) 8 8 8 G kpts vol Hb eq_refl HG) as [H1 H2]. split.
  - apply H1. discriminate.
  - apply H2. split; [exact Hc|]. split; [exists b; split; [left; reflexivity|rewrite Hl; discriminate]|]. split; [|exact (ex_enough G kpts HG Hk)].
    assert (K : Forall (fun l => (0 <= l)%Z) (c_l b) /\ c_r b <> []) by (rewrite Hl, Hr; split; [repeat constructor; lia|discriminate]). repeat constructor; apply K.
Qed.
Lemma ex_create pkg occ r n b : load_nc ex_crystal (append pkg "/pseudopotential/normconserving/") = Ok [b; b] -> create_pseudopotential pkg ex_ase load_nc load_us (ex_drv occ r true n) = Ok [b; b].
Proof. intros H. change (create_pseudopotential pkg ex_ase load_nc load_us (ex_drv occ r true n)) with (load_nc ex_crystal (append pkg "/pseudopotential/normconserving/")). exact H. Qed.
Lemma ex_file erfc pkg occ r : (2 <= cpus)%nat -> In occ ex_methods ->
  exists pb, file_problem erfc pkg ex_ase 2 (ex_drv occ r true 8) = Ok pb /\ m3det (cr_cell (pb_crystal pb)) <> 0 /\ bands_fit_basis pb /\
    (pb_electrons pb mod 2 = pb_spin pb mod 2)%Z /\ bands_hold (pb_method pb) (pb_electrons pb) (pb_spin pb) (pb_bands pb) /\ (pb_bands pb mod pb_devices pb = 0)%nat /\
    xc_returns (xc_density ex_lib (fun _ _ _ _ => Err ValueErr)) pb /\ (1 <= pb_epoch pb)%nat /\ pb_method pb = method_of_name occ /\ pb_restricted pb = r /\ pb_electrons pb = 8%Z /\ pb_crystal pb = ex_crystal.
Proof.
  intros Hcpu Ho. destruct (carbon_load pkg) as (b & Hz & Hl & Hr & _ & Hb). pose proof (ex_create pkg occ r 8 b Hb) as Hpp.
  destruct (ex_setup erfc pkg occ r true 8 8 (fun _ => do pp <- create_pseudopotential pkg ex_ase load_nc load_us (ex_drv occ r true 8); Ok (fold_right Z.add 0%Z (valences pp)))
    (fun cr g k vol => do pp <- create_pseudopotential pkg ex_ase load_nc load_us (ex_drv occ r true 8); do V <- file_local pp cr g vol; do psi <- file_nonlocal pp cr g k; Ok (Some (V, psi)))
    (fun _ => true) 8 (fun G k vol => match file_local [b; b] ex_crystal G vol, file_nonlocal [b; b] ex_crystal G k with Ok V, Ok psi => Some (V, psi) | _, _ => None end) 2) as (pb & H & Hc & HN & HB & Hm & Hre & Hx & He & Hd & Sm & Gm);
    [reflexivity|lia| |lia| |reflexivity|].
  - rewrite Hpp. cbn [bind valences map fold_right]. rewrite Hz. reflexivity.
  - intros G k vol HG SG Lk. rewrite Hpp. cbn [bind]. destruct (ex_potentials pkg G k vol b Hcpu Hl Hr Hb HG) as [[V HV] [psi Hp]]; [intros ->; discriminate|]. rewrite HV, Hp. reflexivity.
  - exists pb. unfold pb_spin. rewrite Hc, HN, HB, He, Hm, Hd. split; [exact H|]. split; [apply ex_cell_det|].
    split; [unfold bands_fit_basis; rewrite HB, (ex_positions _ 8 Sm Gm); apply Nat.leb_le; vm_compute; reflexivity|]. split; [reflexivity|].
    split; [repeat (destruct Ho as [<-|Ho]; [vm_compute; repeat split; intros X; discriminate X|]); destruct Ho|]. split; [reflexivity|].
    split; [apply lda_xc_returns; [rewrite Hx; reflexivity|discriminate]|]. split; [lia|]. repeat split; auto.
Qed.
Definition ex_file_gs erfc pkg grad : cfg -> res (run_output (D := tensor R)) := file_calc erfc pkg ex_ase 2 ex_qr id_qr ex_xcd grad ex_alias ex_rnd ex_rpw.
Lemma ex_file_bands erfc pkg grad bgrad r : reduced_qr ex_qr -> complex_qr id_qr -> (2 <= cpus)%nat -> let cf := ex_drv "simplex-projector" r true 8 in
  exists bp opt pp V psi out, file_band_problem pkg ex_ase ex_bandpath (ex_file_gs erfc pkg grad) cf = Ok bp /\ create_optimizer ex_balias cf = Ok opt /\
    create_pseudopotential pkg ex_ase load_nc load_us cf = Ok pp /\ file_local pp (bp_crystal bp) (bp_G bp) (bp_vol bp) = Ok V /\ file_nonlocal pp (bp_crystal bp) (bp_G bp) (bp_path bp) = Ok psi /\
    m3det (cr_cell (bp_crystal bp)) <> 0 /\ bp_bands bp = 8%nat /\ (bp_bands bp <= waves bp)%nat /\ tshape (bp_dens bp) = num_spin r :: tshape (bp_G bp) /\ xc_channels ex_xcd bp (num_spin r) /\
    file_band pkg ex_ase 2 ex_bandpath (@None unit) (ex_file_gs erfc pkg grad) id_qr ex_xcd eig_ev bgrad ex_balias ex_rpw cf = Ok out /\ tshape out = [num_spin r * 6; 8]%nat.
Proof.
  intros Hq Hcq Hcpu cf. destruct (carbon_load pkg) as (b & Hz & Hl & Hrr & _ & Hb). pose proof (ex_create pkg "simplex-projector" r 8 b Hb) as Hpp. fold cf in Hpp.
  destruct (ex_file erfc pkg "simplex-projector" r Hcpu) as (pb & Hpb & HA & Hfit & Hpar & Hbh & Hdv & Hxr & He & Hm & Hr & HN & Hcx); [cbn; auto|]. change (method_of_name "simplex-projector") with MSimplex in Hm. fold cf in Hpb.
  destruct (file_returns pi1 ex_float ex_symbol ex_listdir ex_xml ex_junk eigmax jn spline spline' Y eigh cpus erfc pkg ex_ase 2 ex_qr id_qr ex_xcd grad ex_alias ex_rnd ex_rpw cf pb ex_opt Hq Hcq ex_rnd_ok ex_rpw_ok Hpb (ex_optimizer _ _ _ _) HA Hfit Hpar Hbh) as [gout Hout];
    [rewrite Hm; discriminate|intros _; exact Hdv|intros _; apply ex_opt_constants|exact Hxr|exact He|].
  destruct (nc_setup _ _ _ _ _ _ _ _ _ _ _ Hpb) as (Hcr & _ & (rr & Hgr) & Hmk & _). fold cf in Hcr, Hgr, Hmk.
  destruct (ex_band_setup pkg "simplex-projector" r true (pb_crystal pb) (pb_G pb) rr (pb_k pb) (pb_mask pb) (returned gout) (fun _ => do pp <- create_pseudopotential pkg ex_ase load_nc load_us cf; Ok (fold_right Z.add 0%Z (valences pp))) (fun _ => true) 8 Hcr Hgr Hmk) as (bp & Hbp & Hc & HG & Hmk' & Hx & Hd & Hlen & HB & _ & Hk & Hpl);
    [rewrite Hpp; cbn [bind valences map fold_right]; rewrite Hz; reflexivity|lia|].
  assert (Hbp' : file_band_problem pkg ex_ase ex_bandpath (ex_file_gs erfc pkg grad) cf = Ok bp) by (unfold PpModel.file_band_problem, nc_band_problem, ex_file_gs; rewrite Hout; exact Hbp).
  destruct (ex_boptimizer "simplex-projector" r true 8) as [opt Hopt].
  assert (Hdet : m3det (cr_cell (bp_crystal bp)) <> 0) by (rewrite Hc; exact HA).
  assert (HB8 : bp_bands bp = 8%nat) by (rewrite HB; reflexivity).
  assert (Hw : (bp_bands bp <= waves bp)%nat) by (unfold waves; rewrite HB8, Hmk'; pose proof (ex_waves _ pkg _ r true Hmk); lia).
  assert (HGv : g_vectors (cr_cell ex_crystal) [8; 8; 8]%nat = Ok (bp_G bp)).
  { rewrite HG. unfold create_grids in Hgr. rewrite Hcr, Hcx in Hgr. cbn [bind] in Hgr. change (getattr cf "grid_sizes") with (Ok (VInt 8)) in Hgr. change (getattr cf "k_grid_sizes") with (Ok (VInt 2)) in Hgr. cbn [bind cfg_grid] in Hgr.
    change (proper_grid_size (GScalar 8)) with (Ok [8; 8; 8]%Z) in Hgr. change (proper_grid_size (GScalar 2)) with (Ok [2; 2; 2]%Z) in Hgr. cbn [bind] in Hgr. change (nats [8; 8; 8]%Z) with [8; 8; 8]%nat in Hgr.
    step Hgr g Eg. step Hgr x1 E1. step Hgr x2 E2. injection Hgr as E0 _ _. rewrite <- E0. exact Eg. }
  assert (Hne : bp_path bp <> []) by (intros E; rewrite E in Hlen; discriminate Hlen).
  pose proof (ex_potentials pkg (bp_G bp) (bp_path bp) (bp_vol bp) b Hcpu Hl Hrr Hb HGv Hne) as Hpot. destruct Hpot as [[V HV] [psi Hpsi]].
  rewrite <- Hcx, <- Hc in HV, Hpsi.
  destruct (nc_lda_bands erfc pkg ex_ase load_nc load_us valences file_local file_nonlocal 2 ex_bandpath ex_qr id_qr ex_lib (fun _ _ _ _ => Err ValueErr) grad ex_alias ex_rnd ex_rpw cf bp Hq Hcq ex_rnd_ok ex_rpw_ok Hbp') as (rv & Hrv & Hxc & Sd & _); try assumption.
  - intros pb' Hpb'. assert (Ep : pb' = pb) by (unfold PpModel.file_problem in Hpb; congruence). rewrite Ep. repeat (split; [assumption|]). intros [h|h]; congruence.
  - intros opt' Hopt'. assert (Eo : opt' = ex_opt) by (unfold cf in Hopt'; rewrite ex_optimizer in Hopt'; congruence). rewrite Eo. apply ex_opt_constants.
  - rewrite Hx. reflexivity.
  - discriminate.
  - change (getattr cf "spin_restricted") with (Ok (VBool r)) in Hrv. injection Hrv as <-. cbn [truthy] in Hxc, Sd.
    assert (H1 : (1 <= num_spin r)%nat) by (destruct r; cbn; lia).
    destruct (file_bands (GS := unit) pi1 ex_float ex_symbol ex_listdir ex_xml ex_junk eigmax jn spline spline' Y eigh cpus pkg ex_ase 2 ex_bandpath (ex_file_gs erfc pkg grad) id_qr ex_xcd eig_ev bgrad ex_balias ex_rpw cf bp opt [b; b] V psi (num_spin r) (num_spin r) Hcq eig_ev_ok ex_rpw_ok Hbp' Hpp HV Hpsi Hopt Hdet Sd Hxc H1 ltac:(lia) Hw) as [Hret Hval].
    destruct (proj2 Hret) as [out Ho']. { rewrite Hlen, Hpl. exists 3%nat. lia. }
    exists bp, opt, [b; b], V, psi, out. repeat (split; [first [assumption|reflexivity]|]).
    destruct (Hval out Ho') as [So _]. rewrite So, Hlen, HB8. reflexivity.
Qed.
End E.
