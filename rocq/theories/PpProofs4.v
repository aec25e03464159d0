(** Proofs about runs on pseudopotential files: the drivers. *)
From Coq Require Import Reals Lra Lia.
From Coquelicot Require Import Complex.
From Coq Require Import Ascii String List Arith ZArith Bool.
From Verif Require Import Base Sums Tensor DFT Lin3 GridModel GridProofs PwSpec BraketSpec SbtSpec VecModel EwaldModel EnergySpec CalcSpec CalcModel OccModel OccSpec PadModel PwModel EnergyModel DrvModel DrvSpec UpfModel SbtModel LocModel LocSpec LocProofs NlocModel NlocSpec NlocProofs NlocProofs2 NlocProofs5 DrvProofs2 DrvProofs5 DrvProofs6 DrvProofs7 BndModel BndSpec XcModel HamModel HamSpec EigSpec BndProofs BndProofs2 BndProofs4 BndProofs7 CryProofs CalcProofs3 UpfProofs2 PpModel PpSpec PpProofs PpProofs2 PpProofs3.
Import ListNotations.
Local Open Scope R_scope.

Lemma setup_mono erfc pkg read devices c electrons electrons' ions ions' init pb : (forall cr N, electrons cr = Ok N -> electrons' cr = Ok N) -> (forall cr g k vol io, ions cr g k vol = Ok io -> ions' cr g k vol = Ok io) ->
  setup erfc pkg read devices c electrons ions init = Ok pb -> setup erfc pkg read devices c electrons' ions' init = Ok pb.
Proof.
  intros He Hi H. unfold setup in *. step H u0 E0. rewrite E0. cbn [bind]. step H u1 E1. rewrite E1. cbn [bind]. step H u2 E2. rewrite E2. cbn [bind]. step H sm E3. rewrite E3. cbn [bind]. step H cr E4. rewrite E4. cbn [bind].
  step H N E5. rewrite (He _ _ E5). cbn [bind]. step H u6 E6. rewrite E6. cbn [bind]. step H eps E7. rewrite E7. cbn [bind]. step H par E8. rewrite E8. cbn [bind].
  cbv zeta in *. step H grids E9. rewrite E9. cbn [bind]. destruct grids as [[g r] k]. step H eb E10. rewrite E10. cbn [bind]. step H ebz E11. rewrite E11. cbn [bind]. step H xc E12. rewrite E12. cbn [bind]. step H xcs E13. rewrite E13. cbn [bind]. step H oc E14. rewrite E14. cbn [bind]. step H ocs E15. rewrite E15. cbn [bind].
  step H mask E16. rewrite E16. cbn [bind]. step H ew E17. rewrite E17. cbn [bind]. step H ck E18. rewrite E18. cbn [bind]. step H io E19. rewrite (Hi _ _ _ _ _ E19). cbn [bind]. step H u20 E20. rewrite E20. cbn [bind]. exact H.
Qed.

Section D.
Variable pi : string -> option Z.
Variable pf : string -> option R.
Variable symbol : Z -> string.
Variable listdir : string -> res (list string).
Variable read_xml : string -> res elem.
Variable junk : nat -> nat -> nat -> R.
Variable eigmax : list (list R) -> R.
Variable jn : Z -> R -> R.
Variables spline spline' : list R -> list R -> R -> R.
Variable Y : Z -> Z -> R -> R -> C.
Variable eigh : list (list R) -> list R * list (list R).
Variable cpus : nat.
Notation load_nc := (load_nc pi pf symbol listdir read_xml junk).
Notation load_us := (load_us pi pf symbol listdir read_xml junk eigmax).
Notation file_for := (file_for pi pf listdir read_xml).
Notation file_local := (file_local jn spline).
Notation file_nonlocal := (file_nonlocal jn spline' Y eigh cpus).
Notation file_path := (file_path jn spline' Y eigh cpus).
Notation file_problem := (file_problem pi pf symbol listdir read_xml junk eigmax jn spline spline' Y eigh cpus).
Notation file_calc := (file_calc pi pf symbol listdir read_xml junk eigmax jn spline spline' Y eigh cpus).

Lemma problem_inv erfc pkg read devices c pb : file_problem erfc pkg read devices c = Ok pb ->
  exists dir pp us V psi, pseudo_directory pkg c dir /\ load_nc (pb_crystal pb) dir = Ok pp /\
    Forall2 (fun z u => file_for dir (symbol z) u) (cr_charges (pb_crystal pb)) us /\ Forall2 (fun u b => forall j, nc_create_atom pi pf j u = Ok b) us pp /\
    Forall2 (header_valence pf) us (valences pp) /\ pb_electrons pb = fold_right Z.add 0%Z (valences pp) /\
    file_local pp (pb_crystal pb) (pb_G pb) (pb_vol pb) = Ok V /\ file_nonlocal pp (pb_crystal pb) (pb_G pb) (pb_k pb) = Ok psi /\ pb_ions pb = Some (V, psi).
Proof.
  intros H. unfold PpModel.file_problem in H. pose proof (nc_setup _ _ _ _ _ _ _ _ _ _ _ H) as (Hcr & (pp & Hpp & HN) & _).
  destruct (nc_settings _ _ _ _ _ _ _ _ _ _ _ H) as (_ & _ & pp' & V & psi & Hpp' & HV & Hp & Hi). rewrite Hpp in Hpp'. injection Hpp' as <-.
  destruct (create_directory _ _ _ _ _ _ _ _ _ _ _ _ Hcr Hpp) as (dir & Hd & Hl). exists dir, pp.
  pose proof (load_nc_each _ _ _ _ _ _ _ _ _ Hl) as F.
  assert (K : exists us, Forall2 (fun z u => file_for dir (symbol z) u) (cr_charges (pb_crystal pb)) us /\ Forall2 (fun u b => forall j, nc_create_atom pi pf j u = Ok b) us pp /\ Forall2 (header_valence pf) us (valences pp)).
  { clear -F. induction F as [|z b l l' (u & Hf & Hu) F (us & I1 & I2 & I3)]; [exists []; repeat split; constructor|]. exists (u :: us). repeat split; constructor; try assumption. exact (proj1 (nc_charges _ _ _ _ _ (Hu (fun _ _ => 0)))). }
  destruct K as (us & K1 & K2 & K3). exists us, V, psi. repeat (split; [assumption|]). assumption.
Qed.
Lemma electrons erfc pkg read devices c pb : file_problem erfc pkg read devices c = Ok pb ->
  exists dir us zs, pseudo_directory pkg c dir /\ Forall2 (fun z u => file_for dir (symbol z) u) (cr_charges (pb_crystal pb)) us /\ Forall2 (header_valence pf) us zs /\ pb_electrons pb = fold_right Z.add 0%Z zs.
Proof. intros H. destruct (problem_inv _ _ _ _ _ _ H) as (dir & pp & us & V & psi & Hd & _ & H1 & _ & H3 & H4 & _). exists dir, us, (valences pp). auto. Qed.
Lemma one_processor {Os} erfc pkg read devices qr cqr xcd grad (alias : string -> option (cval -> list (string * cval) -> optax Os)) rnd rpw c : (cpus < 2)%nat -> raises (file_calc erfc pkg read devices qr cqr xcd grad alias rnd rpw c).
Proof.
  intros Hc. destruct (file_calc erfc pkg read devices qr cqr xcd grad alias rnd rpw c) as [out|e] eqn:E; [exfalso|exists e; reflexivity].
  unfold PpModel.file_calc, nc_calc in E. step E pb Hp. change (file_problem erfc pkg read devices c = Ok pb) in Hp. destruct (problem_inv _ _ _ _ _ _ Hp) as (dir & pp & us & V & psi & _ & _ & _ & _ & _ & _ & _ & Hn & _).
  unfold PpModel.file_nonlocal in Hn. step Hn ls Hls. step Hn b Hb. apply pre_calc_inv in Hb. destruct Hb as [Hb _]. lia.
Qed.
Lemma ultrasoft {Os} erfc pkg read devices qr cqr xcd grad (alias : string -> option (cval -> list (string * cval) -> optax Os)) rnd rpw c out : file_calc erfc pkg read devices qr cqr xcd grad alias rnd rpw c = Ok out ->
  nc_calc erfc pkg read load_nc load_nc valences file_local file_nonlocal devices qr cqr xcd grad alias rnd rpw c = Ok out.
Proof.
  intros H. assert (K : forall pp, create_pseudopotential pkg read load_nc load_us c = Ok pp -> create_pseudopotential pkg read load_nc load_nc c = Ok pp).
  { unfold create_pseudopotential. intros pp E. step E u Eu. rewrite Eu. cbn [bind]. destruct (negb (truthy u)); [discriminate|]. step E cr Ec. rewrite Ec. cbn [bind]. step E t Et. rewrite Et. cbv zeta in *. cbn [bind]. destruct t; try discriminate.
    destruct (existsb _ _); [exact E|]. destruct (existsb _ _); [|discriminate]. step E path Ep. rewrite Ep. cbn [bind]. apply load_us_nc in E. exact E. }
  unfold PpModel.file_calc, nc_calc in H |- *. step H pb Hp. assert (Hp' : nc_problem erfc pkg read load_nc load_nc valences file_local file_nonlocal devices c = Ok pb); [|rewrite Hp'; exact H].
  clear H. unfold nc_problem in Hp |- *. revert Hp. apply setup_mono; [|].
  - intros cr N E. step E pp Ep. rewrite (K _ Ep). exact E.
  - intros cr g k vol io E. step E pp Ep. rewrite (K _ Ep). exact E.
Qed.
End D.

(** *** Values *)
Section V.
Variable pi : string -> option Z.
Variable pf : string -> option R.
Variable symbol : Z -> string.
Variable listdir : string -> res (list string).
Variable read_xml : string -> res elem.
Variable junk : nat -> nat -> nat -> R.
Notation load_nc := (load_nc pi pf symbol listdir read_xml junk).
Variable jn : Z -> R -> R.
Variables spline spline' : list R -> list R -> R -> R.
Variable Y : Z -> Z -> R -> R -> C.
Variable eigh : list (list R) -> list R * list (list R).
Variable cpus : nat.
Notation file_local := (file_local jn spline).
Notation file_nonlocal := (file_nonlocal jn spline' Y eigh cpus).
Notation file_path := (file_path jn spline' Y eigh cpus).

Lemma potentials_exist cr dir pp A n1 n2 n3 G kpts vol : load_nc cr dir = Ok pp -> length (cr_positions cr) = length (cr_charges cr) -> g_vectors A [n1; n2; n3] = Ok G ->
  ((exists V, file_local pp cr G vol = Ok V) <-> cr_charges cr <> []) /\
  ((exists psi, file_nonlocal pp cr G kpts = Ok psi) <-> (2 <= cpus)%nat /\ (exists b, In b pp /\ c_l b <> []) /\ Forall (fun b => Forall (fun l => (0 <= l)%Z) (c_l b) /\ c_r b <> []) pp /\
     exists k x, (k < length kpts)%nat /\ inb x [n1; n2; n3] /\ / 10000 < norm (vadd (nth k kpts vzero) (tget G x))).
Proof.
  intros Hl L HG. destruct (load_good _ _ _ _ _ _ _ _ _ Hl) as [Lp Hg]. pose proof (vector_grid_shape _ _ _ _ HG) as S. split.
  - rewrite (local_exists jn spline A n1 n2 n3 pp cr G vol); [|congruence|exact Hg|exact HG]. split; intros H E; apply H; [destruct pp; [reflexivity|rewrite E in Lp; discriminate]|rewrite E in Lp; destruct (cr_charges cr); [reflexivity|discriminate]].
  - rewrite (nonlocal_exists jn spline' Y eigh cpus pp cr G kpts); [|congruence|exact Hg|unfold ndim; rewrite S; reflexivity]. unfold enough. rewrite S.
    assert (K2 : natural pp /\ Forall (fun b => c_r b <> []) pp <-> Forall (fun b => Forall (fun l => (0 <= l)%Z) (c_l b) /\ c_r b <> []) pp) by (unfold natural; rewrite !Forall_forall; split; [intros [H1 H2] b Hb; split; auto|intros H; split; intros b Hb; apply (H b Hb)]).
    assert (K : concat (map c_l pp) <> [] <-> exists b, In b pp /\ c_l b <> []).
    { clear. induction pp as [|b pp IH]; cbn [map concat]; [split; [intros H; contradiction H; reflexivity|intros (b & [] & _)]|]. split.
      - intros H. destruct (c_l b) as [|l r] eqn:E; [|exists b; split; [left; reflexivity|congruence]]. cbn [app] in H. destruct (proj1 IH H) as (b' & H1 & H2). exists b'. split; [right; exact H1|exact H2].
      - intros (b' & [<-|H1] & H2) E; apply app_eq_nil in E; destruct E as [E1 E2]; [contradiction|]. apply (proj2 IH); [exists b'; auto|exact E2]. }
    rewrite K, <- K2. tauto.
Qed.
Lemma local_value cr dir pp A n1 n2 n3 G vol V : let ns := [n1; n2; n3] in load_nc cr dir = Ok pp -> length (cr_positions cr) = length (cr_charges cr) -> g_vectors A ns = Ok G -> file_local pp cr G vol = Ok V ->
  exists kmax, (exists x, inb x ns /\ kmax = norm (tget G x)) /\ (forall x, inb x ns -> norm (tget G x) <= kmax) /\ tshape V = ns /\
    (forall x, at_origin x -> tget V x = RtoC 0) /\
    forall x, inb x ns -> ~ at_origin x -> tget V x = (RtoC (INR (nprod ns) / vol) * sumC (loc_atoms cr pp) (fun a =>
      let ks := linspace (/ 10000) kmax (2 * length (a_r a)) in
      RtoC (4 * PI * (spline ks (map (radial_sum jn (a_r a) (screened a)) ks) (norm (tget G x)) - a_z a / norm2 (tget G x)))
      * cis (- dot (tget G x) (a_pos a))))%C.
Proof.
  intros ns Hl L HG HV. destruct (load_good _ _ _ _ _ _ _ _ _ Hl) as [Lp Hg]. rewrite file_local_of in HV by congruence.
  destruct (local_formula jn spline A n1 n2 n3 G vol _ V HG HV) as (km & H1 & H2 & H3 & H4). exists km. split; [exact H1|]. split; [exact H2|]. split; [exact H3|]. split; [|exact H4].
  intros x Hx. exact (local_origin _ _ _ _ _ _ _ _ HV Hx).
Qed.
Lemma nonlocal_file_value cr dir pp G kpts psi c vol sp B : load_nc cr dir = Ok pp -> length (cr_positions cr) = length (cr_charges cr) ->
  Forall (fun b => orthogonal_columns (length (c_l b)) (snd (eigh (c_d b)))) pp -> file_nonlocal pp cr G kpts = Ok psi -> tshape c = [sp; length kpts; B] ++ tshape G ->
  exists kmax betas H, NlocSpec.largest G kpts kmax /\ / 10000 < kmax /\ radial_parts jn spline' pp G kpts kmax betas /\ hamiltonian_nonlocal c psi vol = Ok H /\ tshape H = [sp; length kpts; B; B] /\
    forall s k b1 b2, tget H [s; k; b1; b2] = formula Y eigh (nl_atoms cr pp betas) G kpts c vol s k b1 b2.
Proof.
  intros Hl L He Hn Sc. destruct (load_good _ _ _ _ _ _ _ _ _ Hl) as [Lp Hg]. assert (L' : length (cr_positions cr) = length pp) by congruence.
  pose proof Hn as H0. unfold PpModel.file_nonlocal in H0. step H0 ls Hls. step H0 betas Hb. apply momenta_inv in Hls. destruct Hls as [Hnat _]. clear H0.
  rewrite (file_nonlocal_of jn spline' Y eigh cpus pp cr G kpts betas L' Hnat Hb) in Hn.
  destruct (proj1 (psi_of_returns _ _ _ _ _ _ _ _ _ _) (ex_intro _ psi Hn)) as (H1 & H2 & H3 & H4 & H5).
  destruct (proj2 (nonlocal_returns jn spline' Y eigh (nl_atoms cr pp betas) G kpts (map c_r pp) (map c_beta pp) NlSbt c vol)) as (H & EH); [repeat (split; [assumption|]); eauto|].
  assert (Hcol : columns eigh (nl_atoms cr pp betas)).
  { unfold columns, nl_atoms. apply Forall_map, Forall_forall. intros [[p b] t] Hx. apply in_combine_l in Hx. apply in_combine_r in Hx. cbn [p_l p_D fst snd]. rewrite map_length. rewrite Forall_forall in He. apply He, Hx. }
  destruct (nonlocal_formula jn spline' Y eigh _ G kpts _ _ NlSbt c vol H Hcol EH) as (sp' & B' & Sc' & SH & VH). rewrite Sc in Sc'. injection Sc' as <- <-.
  unfold nonlocal_of in EH. rewrite Hn in EH. cbn [bind] in EH.
  assert (Hkm : exists kmax, NlocSpec.largest G kpts kmax /\ / 10000 < kmax).
  { pose proof Hb as Hb'. apply pre_calc_inv in Hb'. destruct Hb' as (_ & _ & Hb'). destruct pp as [|b pp']; [exfalso; apply H4; unfold nl_atoms; destruct (cr_positions cr); reflexivity|].
    destruct (Hb' 0%nat b eq_refl) as (t & _ & Et). apply single_ok in Et. destruct Et as (_ & _ & _ & km & Hm & Hm' & _). exists km. split; assumption. }
  destruct Hkm as (kmax & Hm & Hm'). exists kmax, betas, H. split; [exact Hm|]. split; [exact Hm'|]. split; [apply (pre_calc_radial jn spline' cpus); assumption|]. auto.
Qed.
Lemma path_point cr dir pp G path psi i : load_nc cr dir = Ok pp -> file_nonlocal pp cr G path = Ok psi -> (i < length path)%nat ->
  exists nl, file_path pp cr G path (nth i path vzero) = Ok nl /\ tshape nl = 1%nat :: tl (tshape psi) /\ forall j, tget nl (0%nat :: j) = tget psi (i :: j).
Proof. intros Hl Hn Hi. destruct (load_good _ _ _ _ _ _ _ _ _ Hl) as [Lp Hg]. exact (path_selects _ _ _ _ _ _ _ _ _ _ _ Hg Hn Hi). Qed.
End V.

Section R.
Variable pi : string -> option Z.
Variable pf : string -> option R.
Variable symbol : Z -> string.
Variable listdir : string -> res (list string).
Variable read_xml : string -> res elem.
Variable junk : nat -> nat -> nat -> R.
Variable eigmax : list (list R) -> R.
Variable jn : Z -> R -> R.
Variables spline spline' : list R -> list R -> R -> R.
Variable Y : Z -> Z -> R -> R -> C.
Variable eigh : list (list R) -> list R * list (list R).
Variable cpus : nat.
Notation load_nc := (load_nc pi pf symbol listdir read_xml junk).
Notation load_us := (load_us pi pf symbol listdir read_xml junk eigmax).
Notation file_for := (file_for pi pf listdir read_xml).
Notation file_local := (file_local jn spline).
Notation file_nonlocal := (file_nonlocal jn spline' Y eigh cpus).
Notation file_path := (file_path jn spline' Y eigh cpus).
Notation file_problem := (file_problem pi pf symbol listdir read_xml junk eigmax jn spline spline' Y eigh cpus).
Notation file_calc := (file_calc pi pf symbol listdir read_xml junk eigmax jn spline spline' Y eigh cpus).
Notation file_band_problem := (file_band_problem pi pf symbol listdir read_xml junk eigmax).
Notation file_band := (file_band pi pf symbol listdir read_xml junk eigmax jn spline spline' Y eigh cpus).

Lemma file_density {Os} erfc pkg read devices qr cqr xcd grad (alias : string -> option (cval -> list (string * cval) -> optax Os)) rnd rpw c pb opt out :
  reduced_qr qr -> complex_qr cqr -> shape_ok rnd -> pair_shape_ok rpw ->
  file_problem erfc pkg read devices c = Ok pb -> create_optimizer alias c = Ok opt -> m3det (cr_cell (pb_crystal pb)) <> 0 -> bands_fit_basis pb ->
  (pb_electrons pb mod 2 = pb_spin pb mod 2)%Z -> bands_hold (pb_method pb) (pb_electrons pb) (pb_spin pb) (pb_bands pb) ->
  (fixed_occ (pb_method pb) -> leaves_constants opt /\ pb_restricted pb = true) ->
  file_calc erfc pkg read devices qr cqr xcd grad alias rnd rpw c = Ok out ->
  exists dir us zs, pseudo_directory pkg c dir /\ Forall2 (fun z u => file_for dir (symbol z) u) (cr_charges (pb_crystal pb)) us /\ Forall2 (header_valence pf) us zs /\
    (forall i, inb i (tshape (returned out)) -> 0 <= tget (returned out) i) /\ DrvSpec.cell_integral (pb_vol pb) (returned out) = IZR (fold_right Z.add 0%Z zs).
Proof.
  intros Hq Hc Hr Hp Hpb Hopt Hdet Hfit Hpar Hb Hfx Ho. destruct (electrons _ _ _ _ _ _ _ _ _ _ _ _ _ _ _ _ _ _ _ Hpb) as (dir & us & zs & H1 & H2 & H3 & H4).
  destruct (nc_density _ _ _ _ _ _ _ _ _ _ _ _ _ _ _ _ _ _ _ _ Hq Hc Hr Hp Hpb Hopt Hdet Hfit Hpar Hb Hfx Ho) as (_ & H5 & H6 & _). exists dir, us, zs. rewrite H6, H4. auto.
Qed.
Lemma file_returns {Os} erfc pkg read devices qr cqr xcd grad (alias : string -> option (cval -> list (string * cval) -> optax Os)) rnd rpw c pb opt :
  reduced_qr qr -> complex_qr cqr -> shape_ok rnd -> pair_shape_ok rpw ->
  file_problem erfc pkg read devices c = Ok pb -> create_optimizer alias c = Ok opt -> m3det (cr_cell (pb_crystal pb)) <> 0 -> bands_fit_basis pb ->
  (pb_electrons pb mod 2 = pb_spin pb mod 2)%Z -> bands_hold (pb_method pb) (pb_electrons pb) (pb_spin pb) (pb_bands pb) ->
  pb_method pb <> MIdempotent -> (pb_method pb = MSimplex -> (pb_bands pb mod pb_devices pb = 0)%nat) ->
  (fixed_occ (pb_method pb) -> leaves_constants opt) -> xc_returns xcd pb -> (1 <= pb_epoch pb)%nat ->
  exists out, file_calc erfc pkg read devices qr cqr xcd grad alias rnd rpw c = Ok out.
Proof.
  intros Hq Hc Hr Hp Hpb Hopt Hdet Hfit Hpar Hb Hm Hs Hfx Hx He.
  exact (nc_returns _ _ _ _ _ _ _ _ _ _ _ _ _ _ _ _ _ _ _ Hq Hc Hr Hp (file_on_grid jn spline spline' Y eigh cpus) Hpb Hopt Hdet Hfit Hpar Hb Hm Hs Hfx Hx He).
Qed.
Lemma band_files pkg read bandpath gs c bp : file_band_problem pkg read bandpath gs c = Ok bp ->
  exists dir pp us zs e v, pseudo_directory pkg c dir /\ create_pseudopotential pkg read load_nc load_us c = Ok pp /\ load_nc (bp_crystal bp) dir = Ok pp /\
    Forall2 (fun z u => file_for dir (symbol z) u) (cr_charges (bp_crystal bp)) us /\ Forall2 (header_valence pf) us zs /\ getattr c "band_structure_empty_bands" = Ok v /\ cfg_int v = Ok e /\ Z.of_nat (bp_bands bp) = num_bands (fold_right Z.add 0%Z zs) e.
Proof.
  intros H. destruct (nc_band_setup _ _ _ _ _ _ _ _ _ H) as (Hcr & _ & _ & _ & _ & _ & (pp & e & v & Hpp & Hv & He & HB) & _).
  destruct (create_directory _ _ _ _ _ _ _ _ _ _ _ _ Hcr Hpp) as (dir & Hd & Hl). destruct (valence_sum _ _ _ _ _ _ _ _ _ Hl) as (us & H1 & H2).
  exists dir, pp, us, (valences pp), e, v. auto 9.
Qed.
Lemma file_bands {Os GS} pkg read devices bandpath gs cqr xcd ev bgrad (alias : string -> option (cval -> list (string * cval) -> boptax Os)) rnd c bp opt pp V psi sp' hk :
  complex_qr cqr -> eigvalsh_ok ev -> pair_shape_ok rnd -> file_band_problem pkg read bandpath gs c = Ok bp -> create_pseudopotential pkg read load_nc load_us c = Ok pp ->
  file_local pp (bp_crystal bp) (bp_G bp) (bp_vol bp) = Ok V -> file_nonlocal pp (bp_crystal bp) (bp_G bp) (bp_path bp) = Ok psi -> create_optimizer alias c = Ok opt ->
  m3det (cr_cell (bp_crystal bp)) <> 0 -> tshape (bp_dens bp) = sp' :: tshape (bp_G bp) ->
  xc_channels xcd bp hk -> (1 <= hk)%nat -> (1 <= bp_bands bp)%nat -> (bp_bands bp <= waves bp)%nat ->
  let D := if bp_parallel bp then devices else 1%nat in let K := length (bp_path bp) in
  ((exists out, file_band pkg read devices bandpath (@None GS) gs cqr xcd ev bgrad alias rnd c = Ok out) <-> exists n, (1 <= D)%nat /\ (1 <= n)%nat /\ K = (D * n)%nat) /\
  forall out, file_band pkg read devices bandpath (@None GS) gs cqr xcd ev bgrad alias rnd c = Ok out ->
    tshape out = [(hk * K)%nat; bp_bands bp] /\
    forall i, (i < K)%nat -> exists nl A, nc_basis_hamiltonian xcd bp V nl (nth i (bp_path bp) vzero) = Ok A /\
      tshape nl = 1%nat :: tl (tshape psi) /\ (forall j, tget nl (0%nat :: j) = tget psi (i :: j)) /\
      forall h, (h < hk)%nat -> ascending (bp_bands bp) (fun b => tget out [(h * K + i)%nat; b]) /\
        separated (waves bp) (bp_bands bp) (hermitian_part (matrix_at A [0%nat; h])) (fun b => tget out [(h * K + i)%nat; b]).
Proof.
  intros Hq Hev Hr Hbp Hpp HV Hpsi Hopt Hdet Sd Hx Hk HB HW D K. pose proof (nc_band_setup _ _ _ _ _ _ _ _ _ Hbp) as (Hcr & _). destruct (create_directory _ _ _ _ _ _ _ _ _ _ _ _ Hcr Hpp) as (dir & _ & Hl). destruct (load_good _ _ _ _ _ _ _ _ _ Hl) as [_ Hg].
  pose proof (path_returns _ _ _ _ _ _ _ _ _ _ Hg Hpsi) as Hnl. pose proof (file_local_shape _ _ _ _ _ _ _ HV) as SV. split.
  - exact (nc_band_returns (GS := GS) pkg read load_nc load_us valences file_local file_path devices bandpath gs cqr xcd ev bgrad alias rnd c Hq Hev Hr bp opt pp V sp' hk Hbp Hpp HV Hopt Hdet Sd SV Hnl Hx Hk HB HW).
  - intros out Ho. destruct (nc_band_energies (GS := GS) pkg read load_nc load_us valences file_local file_path devices bandpath gs cqr xcd ev bgrad alias rnd c Hq Hev Hr bp opt pp V sp' hk Hbp Hpp HV Hopt Hdet Sd SV Hnl Hx Hk HB HW out Ho) as [So Hi].
    split; [exact So|]. intros i Li. destruct (Hi i Li) as (p & nl & co & t & A & one & _ & En & _ & _ & EA & _ & Hs & _).
    destruct (path_selects _ _ _ _ _ _ _ _ _ _ _ Hg Hpsi Li) as (nl' & En' & S1 & S2). rewrite En in En'. injection En' as <-. exists nl, A. auto.
Qed.
End R.
