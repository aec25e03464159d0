(** The two ground-state drivers from the configuration to the returned density. *)
From Coq Require Import Reals Lra Lia.
From Coquelicot Require Import Complex.
From Coq Require Import Ascii String List Arith ZArith Bool.
From Verif Require Import Base Sums Tensor DFT Lin3 VecModel VecProofs OccModel OccSpec OccProofs PadModel PwModel PwSpec PwProofs BraketModel EnergyModel EnergySpec
  EwaldModel GridModel RespProofs TotalProofs XcModel XcProofs XcProofs3 LocModel LocProofs2 NlocModel NlocProofs4 CalcSpec CalcModel CalcProofs CalcProofs2 CalcProofs3 DrvModel DrvSpec DrvProofs DrvProofs2 DrvProofs3.
Import ListNotations.
Local Open Scope R_scope.

(** ** initial parameters *)
Lemma init_returns rnd rpw pb : has_grids pb -> (pb_electrons pb mod 2 = pb_spin pb mod 2)%Z -> bands_hold (pb_method pb) (pb_electrons pb) (pb_spin pb) (pb_bands pb) ->
  exists p0, ae_init rnd rpw pb = Ok p0.
Proof.
  intros (_ & _ & _ & _ & _ & HK) Hpar Hb. unfold ae_init. cbv zeta. destruct (pb_method pb); cbn [occ_param_init bands_hold] in *.
  - unfold idempotent_param_init. assert (E : check_spin_number (pb_electrons pb) (pb_spin pb) = Ok tt) by (apply check_spin_ok; exact Hpar). rewrite E. cbn [bind].
    assert (0 <= (pb_electrons pb + pb_spin pb) / 2)%Z by (apply Z.div_pos; lia). destruct (Z.ltb_spec ((pb_electrons pb + pb_spin pb) / 2 * Z.of_nat (length (pb_k pb))) 0); [nia|]. cbn [bind]. eauto.
  - unfold uniform. destruct (Nat.eqb_spec (length (pb_k pb)) 0); [lia|]. cbn [bind]. eauto.
  - unfold gamma. cbn [bind]. eauto.
  - cbn [bind]. eauto.
  - contradiction.
Qed.

Lemma occ_shape rnd rpw pb p0 p qr occ : reduced_qr qr -> shape_ok rnd -> has_grids pb -> ae_init rnd rpw pb = Ok p0 -> same_shapes p p0 -> get_occupation qr pb p = Ok occ ->
  exists S, tshape occ = [S; length (pb_k pb); pb_bands pb].
Proof.
  intros Hq Hr (_ & _ & _ & _ & _ & HK) Hi (_ & _ & Hso) Ho. unfold ae_init in Hi. cbv zeta in Hi. step Hi o Hoi. injection Hi as <-. cbn [p_occ] in Hso. unfold get_occupation in Ho.
  destruct (pb_method pb); cbn [occ_param_init] in Hoi.
  - step Hoi p' Hp'. injection Hoi as <-. destruct (idem_init_inv rnd _ _ _ _ true p' Hr HK Hp') as (_ & _ & _ & Su & Sd). destruct (p_occ p) as [u d|]; [|contradiction]. destruct Hso as [Hu Hd]. rewrite Su in Hu. rewrite Sd in Hd.
    cbn [occupation] in Ho. destruct (idempotent_spec qr u d _ _ occ _ _ _ Hq Hu Hd Ho) as ((B' & HB' & So) & _). assert (B' = pb_bands pb) by nia. subst B'. eauto.
  - step Hoi u Hu. injection Hoi as <-. destruct (p_occ p) as [|a]; [contradiction|]. cbn [occupation] in Ho. injection Ho as <-. destruct (uniform_total _ _ _ _ _ _ Hu) as (H1 & _). rewrite Hso, H1. cbn [nb_of]. eauto.
  - step Hoi u Hu. injection Hoi as <-. destruct (p_occ p) as [|a]; [contradiction|]. cbn [occupation] in Ho. injection Ho as <-. destruct (gamma_total _ _ _ _ _ _ HK Hu) as (H1 & _). rewrite Hso, H1. cbn [nb_of]. eauto.
  - injection Hoi as <-. destruct (p_occ p) as [u d|]; [|contradiction]. destruct Hso as [Hu Hd]. cbn [occupation] in Ho. unfold simplex_projector in Ho. rewrite Hu in Ho. cbn [simplex_projector_init tshape] in Ho.
    destruct (Nat.eqb _ _); [discriminate|]. destruct (Nat.eqb _ _); [|discriminate]. injection Ho as <-. destruct (pb_restricted pb); cbn [sum_spin tshape tl]; eauto.
  - discriminate.
Qed.

(** Fewer plane waves than bands: the first evaluation of the objective raises. *)
Lemma few_waves_raise {Os} rnd rpw pb p0 qr cqr xcd grad (opt : optax Os) : reduced_qr qr -> complex_qr cqr -> shape_ok rnd -> pair_shape_ok rpw -> has_grids pb -> ae_init rnd rpw pb = Ok p0 ->
  (1 < length (mask_positions (pb_mask pb)) < pb_bands pb)%nat -> raises (drv_run qr cqr xcd pb grad (fst opt) (snd opt) p0).
Proof.
  intros Hq Hcq Hr Hrp Hg Hi HB. assert (Ho : raises (objective qr cqr xcd pb p0)).
  { unfold objective. destruct (get_coeff cqr pb p0) as [c|x] eqn:Ec; cbn [bind]; [|eexists; reflexivity]. destruct (get_occupation qr pb p0) as [occ|x] eqn:Eo; cbn [bind]; [|eexists; reflexivity].
    destruct (occ_shape rnd rpw pb p0 p0 qr occ Hq Hr Hg Hi (same_shapes_refl p0) Eo) as (S & So). destruct Hg as (n1 & n2 & n3 & _ & Sm & HK).
    assert (Hsh : tshape (p_re p0) = pw_param_shape (pb_bands pb) (length (pb_k pb)) (pb_mask pb) (pb_restricted pb) /\ tshape (p_im p0) = pw_param_shape (pb_bands pb) (length (pb_k pb)) (pb_mask pb) (pb_restricted pb)).
    { unfold ae_init in Hi. cbv zeta in Hi. step Hi o Hoi. injection Hi as <-. apply Hrp. }
    destruct Hsh as [H1 H2]. destruct (coeff_orthonormal cqr (p_re p0) (p_im p0) (pb_mask pb) _ _ _ _ Hcq H1 H2 eq_refl) as (c' & Hc & Sc & _). unfold get_coeff in Ec. rewrite Ec in Hc. injection Hc as <-. rewrite Sm, Nat.min_l in Sc by lia.
    assert (Em : density_grid c (pb_vol pb) (Some occ) = Err ValueErr).
    { eapply density_mismatch; [exact Sc|]. rewrite So. unfold bshape. cbn [rev app bshape_rev].
      assert (F : forall s, (if (length (mask_positions (pb_mask pb)) =? pb_bands pb)%nat then Some (length (mask_positions (pb_mask pb)) :: s) else if (length (mask_positions (pb_mask pb)) =? 1)%nat then Some (pb_bands pb :: s) else if (pb_bands pb =? 1)%nat then Some (length (mask_positions (pb_mask pb)) :: s) else None) = None).
      { intros s. destruct (Nat.eqb_spec (length (mask_positions (pb_mask pb))) (pb_bands pb)); [lia|]. destruct (Nat.eqb_spec (length (mask_positions (pb_mask pb))) 1); [lia|]. destruct (Nat.eqb_spec (pb_bands pb) 1); [lia|]. reflexivity. }
      match goal with |- context [match ?X with Some _ => _ | None => None end] => destruct X as [l|] end; [rewrite F|]; reflexivity. }
    rewrite Em. eexists. reflexivity. }
  destruct Ho as [x Hx]. unfold drv_run. destruct (pb_epoch pb) as [|ep]; cbn [seq drv_loop bind].
  - cbn [ls_params]. rewrite Hx. cbn [bind]. eexists. reflexivity.
  - unfold drv_update, free_energy_of. cbn [ls_params]. rewrite Hx. cbn [bind]. eexists. reflexivity.
Qed.

(** ** all electrons *)
Lemma ae_inv {Os} erfc pkg read devices qr cqr xcd grad (alias : string -> option (cval -> list (string * cval) -> optax Os)) rnd rpw c out :
  ae_calc erfc pkg read devices qr cqr xcd grad alias rnd rpw c = Ok out ->
  exists pb opt p0, ae_problem erfc pkg read devices c = Ok pb /\ create_optimizer alias c = Ok opt /\ ae_init rnd rpw pb = Ok p0 /\ drv_run qr cqr xcd pb (grad pb) (fst opt) (snd opt) p0 = Ok out.
Proof. unfold ae_calc. intros H. step H pb Hpb. step H opt Hopt. step H p0 Hp0. exists pb, opt, p0. auto. Qed.

Lemma ae_density {Os} erfc pkg read devices qr cqr xcd grad (alias : string -> option (cval -> list (string * cval) -> optax Os)) rnd rpw c pb opt out :
  reduced_qr qr -> complex_qr cqr -> shape_ok rnd -> pair_shape_ok rpw ->
  ae_problem erfc pkg read devices c = Ok pb -> create_optimizer alias c = Ok opt -> m3det (cr_cell (pb_crystal pb)) <> 0 -> bands_fit_basis pb ->
  bands_hold (pb_method pb) (pb_electrons pb) (pb_spin pb) (pb_bands pb) -> (fixed_occ (pb_method pb) -> leaves_constants opt) ->
  ae_calc erfc pkg read devices qr cqr xcd grad alias rnd rpw c = Ok out ->
  tshape (returned out) = num_spin (pb_restricted pb) :: tshape (pb_G pb) /\ (forall i, inb i (tshape (returned out)) -> 0 <= tget (returned out) i) /\
  cell_integral (pb_vol pb) (returned out) = IZR (kept_electrons (pb_method pb) (pb_electrons pb) (pb_spin pb)) /\
  (pb_restricted pb = false -> channel_integral (pb_vol pb) (returned out) 0 - channel_integral (pb_vol pb) (returned out) 1 = IZR (kept_spin (pb_method pb) (pb_spin pb))).
Proof.
  intros Hq Hcq Hr Hrp Hpb Hopt HA Hfit Hb Hl H. destruct (ae_inv _ _ _ _ _ _ _ _ _ _ _ _ _ H) as (pb' & opt' & p0 & Hpb' & Hopt' & Hi & Hrun).
  rewrite Hpb in Hpb'. injection Hpb' as <-. rewrite Hopt in Hopt'. injection Hopt' as <-.
  destruct (setup_inv _ _ _ _ _ _ _ _ _ Hpb) as (_ & _ & _ & _ & _ & _ & _ & _ & _ & _ & (w & thr & Hck) & _). destruct (ae_parity _ _ _ _ _ _ Hpb) as (_ & Hpar & _ & Hir).
  destruct (run_spec qr cqr xcd pb (grad pb) opt p0 out w thr Hck Hrun) as (n & e & _ & _ & Hd & _).
  apply (reachable_density rnd rpw pb p0 (fst (run_traj pb (grad pb) opt p0 n)) qr cqr (returned out) Hq Hcq Hr Hrp (setup_grids _ _ _ _ _ _ _ _ _ Hpb) HA Hi); auto.
  apply (traj_reachable pb (grad pb) opt rnd rpw p0 n Hi Hl).
Qed.

Lemma ae_returns {Os} erfc pkg read devices qr cqr xcd grad (alias : string -> option (cval -> list (string * cval) -> optax Os)) rnd rpw c pb opt :
  reduced_qr qr -> complex_qr cqr -> shape_ok rnd -> pair_shape_ok rpw ->
  ae_problem erfc pkg read devices c = Ok pb -> create_optimizer alias c = Ok opt -> m3det (cr_cell (pb_crystal pb)) <> 0 -> bands_fit_basis pb ->
  bands_hold (pb_method pb) (pb_electrons pb) (pb_spin pb) (pb_bands pb) -> (fixed_occ (pb_method pb) -> leaves_constants opt) ->
  length (cr_charges (pb_crystal pb)) = length (cr_positions (pb_crystal pb)) -> xc_local xcd false (pb_xc pb) -> xc_returns xcd pb -> (1 <= pb_epoch pb)%nat ->
  exists out, ae_calc erfc pkg read devices qr cqr xcd grad alias rnd rpw c = Ok out.
Proof.
  intros Hq Hcq Hr Hrp Hpb Hopt HA Hfit Hb Hl Hlen Hx Hxr He. pose proof (setup_grids _ _ _ _ _ _ _ _ _ Hpb) as Hg. destruct (ae_parity _ _ _ _ _ _ Hpb) as (_ & Hpar & Hio & Hir).
  destruct (init_returns rnd rpw pb Hg Hpar Hb) as [p0 Hi]. unfold ae_calc. rewrite Hpb. cbn [bind]. rewrite Hopt. cbn [bind]. rewrite Hi. cbn [bind].
  apply run_returns; [exact He|]. intros m. apply (ae_reachable_returns rnd rpw pb p0); auto. apply (traj_reachable pb (grad pb) opt rnd rpw p0 m Hi Hl).
Qed.

Lemma ae_few_waves {Os} erfc pkg read devices qr cqr xcd grad (alias : string -> option (cval -> list (string * cval) -> optax Os)) rnd rpw c pb :
  reduced_qr qr -> complex_qr cqr -> shape_ok rnd -> pair_shape_ok rpw ->
  ae_problem erfc pkg read devices c = Ok pb -> (1 < length (mask_positions (pb_mask pb)) < pb_bands pb)%nat ->
  raises (ae_calc erfc pkg read devices qr cqr xcd grad alias rnd rpw c).
Proof.
  intros Hq Hcq Hr Hrp Hpb HB. unfold ae_calc. rewrite Hpb. cbn [bind]. destruct (create_optimizer alias c) as [opt|x]; cbn [bind]; [|eexists; reflexivity].
  destruct (ae_init rnd rpw pb) as [p0|x] eqn:Hi; cbn [bind]; [|eexists; reflexivity].
  apply (few_waves_raise rnd rpw pb p0 qr cqr xcd (grad pb) opt Hq Hcq Hr Hrp (setup_grids _ _ _ _ _ _ _ _ _ Hpb) Hi HB).
Qed.

Lemma ae_report {Os} erfc pkg read devices qr cqr xcd grad (alias : string -> option (cval -> list (string * cval) -> optax Os)) rnd rpw c pb opt out :
  ae_problem erfc pkg read devices c = Ok pb -> create_optimizer alias c = Ok opt -> ae_calc erfc pkg read devices qr cqr xcd grad alias rnd rpw c = Ok out ->
  exists p0 w thr n e, let traj := run_traj pb (grad pb) opt p0 in ae_init rnd rpw pb = Ok p0 /\ pb_checker pb = new_checker w thr /\ (1 <= n <= pb_epoch pb)%nat /\ num_updates out = n /\
    get_density qr cqr pb (fst (traj n)) = Ok (returned out) /\ objective qr cqr xcd pb (fst (traj (n - 1)%nat)) = Ok e /\ logged_total out = e + pb_ewald pb /\
    (exists es, length es = n /\ (forall m, (m < n)%nat -> objective qr cqr xcd pb (fst (traj m)) = Ok (nth m es 0)) /\
       (forall m, (1 <= m < n)%nat -> ~ settled w thr (firstn m es)) /\ (logged_converged out = true <-> settled w thr es)) /\
    (logged_converged out = false -> n = pb_epoch pb).
Proof.
  intros Hpb Hopt H. destruct (ae_inv _ _ _ _ _ _ _ _ _ _ _ _ _ H) as (pb' & opt' & p0 & Hpb' & Hopt' & Hi & Hrun).
  rewrite Hpb in Hpb'. injection Hpb' as <-. rewrite Hopt in Hopt'. injection Hopt' as <-.
  destruct (setup_inv _ _ _ _ _ _ _ _ _ Hpb) as (_ & _ & _ & _ & _ & _ & _ & _ & _ & _ & (w & thr & Hck) & _).
  destruct (run_spec qr cqr xcd pb (grad pb) opt p0 out w thr Hck Hrun) as (n & e & R). exists p0, w, thr, n, e. cbv zeta. tauto.
Qed.
