(** The norm-conserving driver; the exchange-correlation functionals. *)
From Coq Require Import Reals Lra Lia.
From Coquelicot Require Import Complex.
From Coq Require Import Ascii String List Arith ZArith Bool.
From Verif Require Import Base Sums Tensor DFT Lin3 VecModel VecProofs OccModel OccSpec OccProofs PadModel PwModel PwSpec PwProofs BraketModel EnergyModel EnergySpec EnergyProofs
  EwaldModel GridModel RespProofs TotalProofs XcModel XcProofs XcProofs3 LocModel LocProofs2 NlocModel NlocProofs4 CalcSpec CalcModel CalcProofs CalcProofs2 CalcProofs3 DrvModel DrvSpec DrvProofs DrvProofs2 DrvProofs3 DrvProofs4.
Import ListNotations.
Local Open Scope R_scope.

Lemma lda_xc_returns lib vg pb : contains "gga" (pb_xc pb) = false -> (forall t b, In t (split_on "+" (pb_xc pb)) -> lib t b <> None) -> xc_returns (xc_density lib vg) pb.
Proof.
  intros Hg Hl d Sd. apply (xc_lda_returns lib vg (pb_xc pb) (pb_G pb) false (num_spin (pb_restricted pb)) (tshape (pb_G pb)) d); auto. destruct (pb_restricted pb); cbn; auto.
Qed.

(** The occupations of one channel where two are expected. *)
Lemma spread_along rnd rpw pb p0 p qr : has_grids pb -> ae_init rnd rpw pb = Ok p0 -> reachable pb p0 p -> fixed_occ (pb_method pb) -> pb_init_restricted pb = true ->
  (pb_electrons pb mod 2 = pb_spin pb mod 2)%Z -> bands_hold (pb_method pb) (pb_electrons pb) (pb_spin pb) (pb_bands pb) ->
  exists occ, get_occupation qr pb p = Ok occ /\ tshape occ = [1; length (pb_k pb); pb_bands pb]%nat /\ (forall i, inb i (tshape occ) -> 0 <= tget occ i) /\ total occ = IZR (pb_electrons pb).
Proof.
  intros (_ & _ & _ & _ & _ & HK) Hi [_ Hfx] Hm Hir Hpar Hb. destruct (Hfx Hm) as (o & o' & E0 & E1 & So & Go). unfold ae_init in Hi. cbv zeta in Hi. step Hi q Hq. injection Hi as <-. cbn [p_occ] in E0. subst q.
  unfold get_occupation. rewrite E1. rewrite Hir in Hq. assert (T : teq o' o) by (split; [exact So|intros; apply Go]).
  destruct Hm as [Hm|Hm]; rewrite Hm in *; cbn [occ_param_init bands_hold occupation] in *; step Hq u Hu; injection Hq as Hq; subst u; exists o'; (split; [reflexivity|]); rewrite So, (total_ext o' o T).
  - destruct (uniform_holds _ _ _ _ _ _ Hu Hpar) as (H1 & H2 & H3 & _); [lia|intros b Eb; injection Eb as <-; lia|]. split; [exact H1|]. split; [intros i Hi; rewrite Go; apply H3, Hi|exact H2].
  - destruct (gamma_holds _ _ _ _ _ _ HK Hu Hpar) as (H1 & H2 & H3 & _); [lia|intros b Eb; injection Eb as <-; lia|]. split; [exact H1|]. split; [intros i Hi; rewrite Go; apply H3, Hi|exact H2].
Qed.
Lemma spread_channels occ K B : tshape occ = [1; K; B]%nat -> forall s, channel (spread 2 occ) s = total occ.
Proof.
  intros So s. rewrite (total_channels occ 1 [K; B] So). cbn [seq sumR fold_right map]. unfold sumR. cbn. rewrite Rplus_0_r. unfold channel, spread. cbn [tshape tget tl]. reflexivity.
Qed.

Section NC.
  Context {PP : Type}.
  Variables (erfc : R -> R) (pkg : string) (read : string -> res ase_atoms) (nc us : crystal -> string -> res PP) (valence : PP -> list Z)
    (pp_local : PP -> crystal -> tensor v3 -> R -> res (tensor C)) (pp_nonlocal : PP -> crystal -> tensor v3 -> list v3 -> res (tensor C)) (devices : nat).

  Lemma nc_facts c pb : nc_problem erfc pkg read nc us valence pp_local pp_nonlocal devices c = Ok pb ->
    has_grids pb /\ pb_init_restricted pb = true /\ (exists w thr, pb_checker pb = new_checker w thr) /\
    (exists pp V psi, create_pseudopotential pkg read nc us c = Ok pp /\ pb_electrons pb = fold_right Z.add 0%Z (valence pp) /\
       pp_local pp (pb_crystal pb) (pb_G pb) (pb_vol pb) = Ok V /\ pp_nonlocal pp (pb_crystal pb) (pb_G pb) (pb_k pb) = Ok psi /\ pb_ions pb = Some (V, psi)).
  Proof.
    intros H. pose proof (setup_grids _ _ _ _ _ _ _ _ _ H) as Hg. destruct (setup_inv _ _ _ _ _ _ _ _ _ H) as (_ & HN & _ & _ & Hi & _ & _ & _ & _ & Hir & Hck & _).
    split; [exact Hg|]. split; [exact Hir|]. split; [exact Hck|]. step HN pp Hpp. injection HN as HN. rewrite Hpp in Hi. cbn [bind] in Hi. step Hi V HV. step Hi psi Hpsi. injection Hi as Hi.
    exists pp, V, psi. auto.
  Qed.

  Lemma nc_reachable_returns rnd rpw c pb p0 p qr cqr xcd : reduced_qr qr -> complex_qr cqr -> shape_ok rnd -> pair_shape_ok rpw -> on_grid pp_local pp_nonlocal ->
    nc_problem erfc pkg read nc us valence pp_local pp_nonlocal devices c = Ok pb -> m3det (cr_cell (pb_crystal pb)) <> 0 -> xc_returns xcd pb ->
    ae_init rnd rpw pb = Ok p0 -> reachable pb p0 p -> (pb_electrons pb mod 2 = pb_spin pb mod 2)%Z ->
    bands_hold (pb_method pb) (pb_electrons pb) (pb_spin pb) (pb_bands pb) -> bands_fit_basis pb ->
    (exists e, objective qr cqr xcd pb p = Ok e) /\ exists h, get_entropy qr pb p = Ok h.
  Proof.
    intros Hq Hcq Hr Hrp [Hon1 Hon2] Hpb HA Hxr Hi Hre Hpar Hb Hfit. destruct (nc_facts c pb Hpb) as (Hg & Hir & _ & pp & V & psi & _ & _ & HV & Hpsi & Hio).
    destruct (coeff_along rnd rpw pb p0 p cqr Hcq Hrp Hi (proj1 Hre) Hfit) as (co & Ec & Sc & _).
    destruct (grid_facts pb Hg HA) as (n1 & n2 & n3 & HG & Sm & SG & Hp & Hv). rewrite Sm in Sc.
    pose proof (Hon1 _ _ _ _ _ HV) as SV. destruct (Hon2 _ _ _ _ _ Hpsi) as (nb & nm & Sp). rewrite SG in SV, Sp.
    assert (Hgo : forall occ, tshape occ = [num_spin (pb_restricted pb); length (pb_k pb); pb_bands pb] -> exists e, objective_at xcd pb co occ = Ok e).
    { intros occ So. destruct (nc_objective_at xcd pb co occ 0 V psi _ _ _ nb nm n1 n2 n3 Hio Hp Sc So SV Sp) as (d & D & w & Hl & Hn & Ed & ED & Ew & EHl & EHn & _).
      destruct (density_eq co (pb_vol pb) occ _ _ _ n1 n2 n3 Sc So) as (d' & Ed' & Sd & _). rewrite Ed in Ed'. injection Ed' as <-.
      destruct (fftn3_eq (tmap RtoC d) [num_spin (pb_restricted pb)] [n1; n2; n3] eq_refl Sd) as (D' & ED' & SD & _). rewrite ED in ED'. injection ED' as <-.
      destruct (kinetic_some (pb_G pb) (pb_k pb) co occ _ _ n1 n2 n3 SG Sc So) as (t & Et & _).
      assert (Hh : exists eh, e_hartree D (pb_G pb) (pb_vol pb) false = Ok eh).
      { eexists. apply (e_hartree_eq D (pb_G pb) (pb_vol pb) false _ n1 n2 n3 SD SG). intros x Hx Hox. apply (g_nonzero (cr_cell (pb_crystal pb)) n1 n2 n3 (pb_G pb) x HA HG Hx Hox). }
      destruct Hh as [eh Eh]. destruct (Hxr d) as (ex & Ex & Sx); [rewrite SG; exact Sd|]. rewrite SG in Sx.
      destruct (e_xc_returns xcd d (pb_G pb) (pb_vol pb) (pb_xc pb) false _ n1 n2 n3 ex Sd Ex Sx) as [y Ey].
      destruct (nc_objective_at xcd pb co occ (tget t [] + eh + sumR (seq 0 (num_spin (pb_restricted pb))) (fun s => sumR (seq 0 (length (pb_k pb))) (fun k => sumR (seq 0 (pb_bands pb)) (fun b => tget occ [s; k; b] * (Re (tget Hl [s; k; b; b]) + Re (tget Hn [s; k; b; b]))))) + y) V psi _ _ _ nb nm n1 n2 n3 Hio Hp Sc So SV Sp)
        as (d2 & D2 & w2 & Hl2 & Hn2 & Ed2 & ED2 & Ew2 & EHl2 & EHn2 & _ & _ & Hiff).
      rewrite Ed in Ed2. injection Ed2 as <-. rewrite ED in ED2. injection ED2 as <-. rewrite EHn in EHn2. injection EHn2 as <-.
      eexists. apply Hiff. exists t, eh, y. repeat split; auto.
      assert (EHlw : Ok Hl = Ok Hl2); [|injection EHlw as <-; reflexivity]. rewrite <- EHl, <- EHl2.
      rewrite Ew in Ew2. injection Ew2 as <-. reflexivity. }
    destruct (Bool.bool_dec (pb_restricted pb) true) as [Hres|Hres]; [|apply not_true_is_false in Hres; destruct (pb_method pb) eqn:Em].
    all: try (destruct (occ_along rnd rpw pb p0 p qr Hq Hr Hg Hi Hre Hpar) as (occ & Eo & So & _);
      [solve [intros _; congruence | intros [Hf|Hf]; congruence]|rewrite ?Em; exact Hb|];
      split; [rewrite (objective_unfold qr cqr xcd pb p co occ Ec Eo); apply Hgo, So|unfold get_entropy; rewrite Eo; cbn [bind]; apply (entropy_returns _ _ _ _ _ So)]).
    all: destruct (spread_along rnd rpw pb p0 p qr Hg Hi Hre) as (occ & Eo & So & _); [rewrite Em; solve [left; reflexivity|right; reflexivity]|exact Hir|exact Hpar|rewrite Em; exact Hb|];
      (split; [rewrite (objective_unfold qr cqr xcd pb p co occ Ec Eo)|unfold get_entropy; rewrite Eo; cbn [bind]; apply (entropy_returns _ _ _ _ _ So)]);
      rewrite Hres in Sc; cbn [num_spin] in Sc; rewrite (objective_spread xcd pb co occ (pb_bands pb) n1 n2 n3 SG) by (auto; intros V' psi' Hio'; rewrite Hio in Hio'; injection Hio' as <- <-; eauto);
      apply Hgo; unfold spread; cbn [tshape]; rewrite So, Hres; reflexivity.
  Qed.

  Lemma place_ok util m o : place_occ util m o = Ok tt -> m <> MIdempotent.
  Proof. intros H ->. discriminate. Qed.
  Lemma nc_init_inv rnd rpw pb p0 : nc_init rnd rpw pb = Ok p0 -> ae_init rnd rpw pb = Ok p0 /\ place_occ (pb_devices pb) (pb_method pb) (p_occ p0) = Ok tt.
  Proof. unfold nc_init. intros H. step H p Hp. step H u Hu. injection H as <-. destruct u. auto. Qed.

  Lemma place_iff rnd rpw pb p0 : ae_init rnd rpw pb = Ok p0 -> has_grids pb -> (length (pb_k pb) mod pb_devices pb = 0)%nat ->
    (place_occ (pb_devices pb) (pb_method pb) (p_occ p0) = Ok tt <-> pb_method pb <> MIdempotent /\ (pb_method pb = MSimplex -> (pb_bands pb mod pb_devices pb = 0)%nat)).
  Proof.
    intros Hi (_ & _ & _ & _ & _ & HK) Hd. unfold ae_init in Hi. cbv zeta in Hi. step Hi o Ho. injection Hi as <-. cbn [p_occ]. destruct (pb_method pb); cbn [occ_param_init place_occ] in *.
    - split; [discriminate|intros [H _]; congruence].
    - step Ho u Hu. injection Ho as <-. destruct (uniform_total _ _ _ _ _ _ Hu) as (S & _). unfold ndim. rewrite S. cbn [length nth]. rewrite Hd. cbn. split; [intros _; split; [discriminate|congruence]|reflexivity].
    - step Ho u Hu. injection Ho as <-. destruct (gamma_total _ _ _ _ _ _ HK Hu) as (S & _). unfold ndim. rewrite S. cbn [length nth]. rewrite Hd. cbn. split; [intros _; split; [discriminate|congruence]|reflexivity].
    - injection Ho as <-. cbn [simplex_projector_init place_occ ndim tshape length nth Nat.leb andb]. destruct (Nat.eqb_spec (pb_bands pb mod pb_devices pb) 0) as [E|E]; cbn [andb].
      + split; [intros _; split; [discriminate|intros _; exact E]|reflexivity].
      + split; [discriminate|intros [_ H]; exfalso; auto].
    - discriminate.
  Qed.

  Context {Os : Type}.
  Variables (qr : tensor R -> tensor R) (cqr : tensor C -> tensor C) (xcd : xcdens) (grad : problem -> R -> params -> params)
    (alias : string -> option (cval -> list (string * cval) -> optax Os)) (rnd : list nat -> tensor R) (rpw : list nat -> tensor R * tensor R).
  Let problem_of := nc_problem erfc pkg read nc us valence pp_local pp_nonlocal devices.
  Let calc := nc_calc erfc pkg read nc us valence pp_local pp_nonlocal devices qr cqr xcd grad alias rnd rpw.

  Lemma nc_inv c out : calc c = Ok out ->
    exists pb opt p0, problem_of c = Ok pb /\ create_optimizer alias c = Ok opt /\ nc_init rnd rpw pb = Ok p0 /\ drv_run qr cqr xcd pb (grad pb) (fst opt) (snd opt) p0 = Ok out.
  Proof. unfold calc, nc_calc. intros H. step H pb Hpb. step H opt Hopt. step H p0 Hp0. exists pb, opt, p0. auto. Qed.

  Lemma nc_devices c pb : problem_of c = Ok pb -> (length (pb_k pb) mod pb_devices pb = 0)%nat.
  Proof. intros H. apply (setup_inv _ _ _ _ _ _ _ _ _ H). Qed.

  Lemma nc_bad_placement c pb : problem_of c = Ok pb -> pb_method pb = MIdempotent \/ (pb_method pb = MSimplex /\ (pb_bands pb mod pb_devices pb <> 0)%nat) -> raises (calc c).
  Proof.
    intros Hpb H. destruct (calc c) as [out|e] eqn:E; [exfalso|exists e; reflexivity]. destruct (nc_inv c out E) as (pb' & opt & p0 & Hpb' & _ & Hi & _). rewrite Hpb in Hpb'. injection Hpb' as <-.
    destruct (nc_init_inv rnd rpw pb p0 Hi) as [Hi' Hp]. destruct (nc_facts c pb Hpb) as (Hg & _). apply (place_iff rnd rpw pb p0 Hi' Hg (nc_devices c pb Hpb)) in Hp. destruct Hp as [Hp1 Hp2]. destruct H as [H|[H1 H2]]; auto.
  Qed.

  Lemma nc_end c pb opt out : problem_of c = Ok pb -> create_optimizer alias c = Ok opt -> (fixed_occ (pb_method pb) -> leaves_constants opt) -> calc c = Ok out ->
    exists p0 n, ae_init rnd rpw pb = Ok p0 /\ reachable pb p0 (fst (run_traj pb (grad pb) opt p0 n)) /\ get_density qr cqr pb (fst (run_traj pb (grad pb) opt p0 n)) = Ok (returned out).
  Proof.
    intros Hpb Hopt Hl H. destruct (nc_inv c out H) as (pb' & opt' & p0 & Hpb' & Hopt' & Hi & Hrun). rewrite Hpb in Hpb'. injection Hpb' as <-. rewrite Hopt in Hopt'. injection Hopt' as <-.
    destruct (nc_init_inv rnd rpw pb p0 Hi) as [Hi' _]. destruct (nc_facts c pb Hpb) as (_ & _ & (w & thr & Hck) & _).
    destruct (run_spec qr cqr xcd pb (grad pb) opt p0 out w thr Hck Hrun) as (n & e & _ & _ & Hd & _). exists p0, n. split; [exact Hi'|]. split; [|exact Hd]. apply (traj_reachable pb (grad pb) opt rnd rpw p0 n Hi' Hl).
  Qed.

  Lemma nc_report c pb opt out : problem_of c = Ok pb -> create_optimizer alias c = Ok opt -> calc c = Ok out ->
    exists p0 w thr n e, let traj := run_traj pb (grad pb) opt p0 in nc_init rnd rpw pb = Ok p0 /\ pb_checker pb = new_checker w thr /\ (1 <= n <= pb_epoch pb)%nat /\ num_updates out = n /\
      get_density qr cqr pb (fst (traj n)) = Ok (returned out) /\ objective qr cqr xcd pb (fst (traj (n - 1)%nat)) = Ok e /\ logged_total out = e + pb_ewald pb /\
      (exists es, length es = n /\ (forall m, (m < n)%nat -> objective qr cqr xcd pb (fst (traj m)) = Ok (nth m es 0)) /\
         (forall m, (1 <= m < n)%nat -> ~ settled w thr (firstn m es)) /\ (logged_converged out = true <-> settled w thr es)) /\
      (logged_converged out = false -> n = pb_epoch pb).
  Proof.
    intros Hpb Hopt H. destruct (nc_inv c out H) as (pb' & opt' & p0 & Hpb' & Hopt' & Hi & Hrun).
    rewrite Hpb in Hpb'. injection Hpb' as <-. rewrite Hopt in Hopt'. injection Hopt' as <-.
    destruct (nc_facts c pb Hpb) as (_ & _ & (w & thr & Hck) & _).
    destruct (run_spec qr cqr xcd pb (grad pb) opt p0 out w thr Hck Hrun) as (n & e & R). exists p0, w, thr, n, e. cbv zeta. tauto.
  Qed.

  Lemma nc_density c pb opt out : reduced_qr qr -> complex_qr cqr -> shape_ok rnd -> pair_shape_ok rpw ->
    problem_of c = Ok pb -> create_optimizer alias c = Ok opt -> m3det (cr_cell (pb_crystal pb)) <> 0 -> bands_fit_basis pb ->
    (pb_electrons pb mod 2 = pb_spin pb mod 2)%Z -> bands_hold (pb_method pb) (pb_electrons pb) (pb_spin pb) (pb_bands pb) ->
    (fixed_occ (pb_method pb) -> leaves_constants opt /\ pb_restricted pb = true) -> calc c = Ok out ->
    tshape (returned out) = num_spin (pb_restricted pb) :: tshape (pb_G pb) /\ (forall i, inb i (tshape (returned out)) -> 0 <= tget (returned out) i) /\
    cell_integral (pb_vol pb) (returned out) = IZR (pb_electrons pb) /\
    (pb_restricted pb = false -> channel_integral (pb_vol pb) (returned out) 0 - channel_integral (pb_vol pb) (returned out) 1 = IZR (pb_spin pb)).
  Proof.
    intros Hq Hcq Hr Hrp Hpb Hopt HA Hfit Hpar Hb Hl H. destruct (nc_facts c pb Hpb) as (Hg & Hir & _).
    assert (Hm : pb_method pb <> MIdempotent).
    { intros Hm. destruct (nc_bad_placement c pb Hpb (or_introl Hm)) as [e He]. congruence. }
    destruct (nc_end c pb opt out Hpb Hopt (fun h => proj1 (Hl h)) H) as (p0 & n & Hi & Hre & Hd).
    assert (Hir' : fixed_occ (pb_method pb) -> pb_init_restricted pb = pb_restricted pb) by (intros h; rewrite Hir; symmetry; apply Hl, h).
    pose proof (reachable_density rnd rpw pb p0 _ qr cqr (returned out) Hq Hcq Hr Hrp Hg HA Hi Hre Hpar Hir' Hb Hfit Hd) as R. unfold kept_electrons, kept_spin in R. destruct (pb_method pb); tauto.
  Qed.

  Lemma nc_double c pb opt out : complex_qr cqr -> pair_shape_ok rpw ->
    problem_of c = Ok pb -> create_optimizer alias c = Ok opt -> m3det (cr_cell (pb_crystal pb)) <> 0 -> bands_fit_basis pb ->
    (pb_electrons pb mod 2 = pb_spin pb mod 2)%Z -> bands_hold (pb_method pb) (pb_electrons pb) (pb_spin pb) (pb_bands pb) ->
    fixed_occ (pb_method pb) -> leaves_constants opt -> pb_restricted pb = false -> calc c = Ok out ->
    cell_integral (pb_vol pb) (returned out) = 2 * IZR (pb_electrons pb) /\
    channel_integral (pb_vol pb) (returned out) 0 = IZR (pb_electrons pb) /\ channel_integral (pb_vol pb) (returned out) 1 = IZR (pb_electrons pb).
  Proof.
    intros Hcq Hrp Hpb Hopt HA Hfit Hpar Hb Hf Hl Hres H. destruct (nc_facts c pb Hpb) as (Hg & Hir & _).
    destruct (nc_end c pb opt out Hpb Hopt (fun _ => Hl) H) as (p0 & n & Hi & Hre & Hd).
    destruct (coeff_along rnd rpw pb p0 _ cqr Hcq Hrp Hi (proj1 Hre) Hfit) as (co & Ec & Sc & Ho & _). destruct (spread_along rnd rpw pb p0 _ qr Hg Hi Hre Hf Hir Hpar Hb) as (occ & Eo & So & Hw & Ht).
    destruct (grid_facts pb Hg HA) as (n1 & n2 & n3 & _ & Sm & _ & Hp & Hv). rewrite Sm in Sc, Ho. rewrite Hres in Sc, Ho. cbn [num_spin] in Sc, Ho.
    unfold get_density in Hd. rewrite Ec in Hd. cbn [bind] in Hd. rewrite Eo in Hd. cbn [bind] in Hd. rewrite (density_spread _ _ _ _ _ _ _ _ Sc So) in Hd.
    assert (Ss : tshape (spread 2 occ) = [2; length (pb_k pb); pb_bands pb]%nat) by (unfold spread; cbn [tshape]; rewrite So; reflexivity).
    assert (Hw2 : forall i, inb i (tshape (spread 2 occ)) -> 0 <= tget (spread 2 occ) i).
    { intros i Hin. rewrite Ss in Hin. unfold spread. cbn [tget]. apply Hw. rewrite So. inversion Hin as [|a b l l' _ Hin' E1 E2]; subst. constructor; [lia|exact Hin']. }
    destruct (density_electrons co (pb_vol pb) (spread 2 occ) 2 _ _ n1 n2 n3 _ Hp Hv Sc Ss Ho Hw2 Hd) as (_ & _ & Hc & Hch).
    rewrite Hc, !Hch by lia. rewrite (total_channels _ 2 _ Ss), !(spread_channels _ _ _ So), !Ht.
    rewrite (sumR_ext _ _ (fun _ => IZR (pb_electrons pb))) by (intros; rewrite (spread_channels _ _ _ So); exact Ht). unfold sumR. cbn. repeat split; ring.
  Qed.

  Lemma nc_returns c pb opt : reduced_qr qr -> complex_qr cqr -> shape_ok rnd -> pair_shape_ok rpw -> on_grid pp_local pp_nonlocal ->
    problem_of c = Ok pb -> create_optimizer alias c = Ok opt -> m3det (cr_cell (pb_crystal pb)) <> 0 -> bands_fit_basis pb ->
    (pb_electrons pb mod 2 = pb_spin pb mod 2)%Z -> bands_hold (pb_method pb) (pb_electrons pb) (pb_spin pb) (pb_bands pb) ->
    pb_method pb <> MIdempotent -> (pb_method pb = MSimplex -> (pb_bands pb mod pb_devices pb = 0)%nat) ->
    (fixed_occ (pb_method pb) -> leaves_constants opt) -> xc_returns xcd pb -> (1 <= pb_epoch pb)%nat -> exists out, calc c = Ok out.
  Proof.
    intros Hq Hcq Hr Hrp Hon Hpb Hopt HA Hfit Hpar Hb Hm Hdv Hl Hxr He. destruct (nc_facts c pb Hpb) as (Hg & _).
    destruct (init_returns rnd rpw pb Hg Hpar Hb) as [p0 Hi]. unfold calc, nc_calc. fold (problem_of c). rewrite Hpb. cbn [bind]. rewrite Hopt. cbn [bind]. unfold nc_init. rewrite Hi. cbn [bind].
    rewrite (proj2 (place_iff rnd rpw pb p0 Hi Hg (nc_devices c pb Hpb)) (conj Hm Hdv)). cbn [bind].
    apply run_returns; [exact He|]. intros m. apply (nc_reachable_returns rnd rpw c pb p0); auto. apply (traj_reachable pb (grad pb) opt rnd rpw p0 m Hi Hl).
  Qed.

  Lemma nc_few_waves c pb : reduced_qr qr -> complex_qr cqr -> shape_ok rnd -> pair_shape_ok rpw ->
    problem_of c = Ok pb -> (1 < length (mask_positions (pb_mask pb)) < pb_bands pb)%nat -> raises (calc c).
  Proof.
    intros Hq Hcq Hr Hrp Hpb HB. destruct (nc_facts c pb Hpb) as (Hg & _). unfold calc, nc_calc. fold (problem_of c). rewrite Hpb. cbn [bind]. destruct (create_optimizer alias c) as [opt|x]; cbn [bind]; [|eexists; reflexivity].
    destruct (nc_init rnd rpw pb) as [p0|x] eqn:Hi; cbn [bind]; [|eexists; reflexivity]. destruct (nc_init_inv rnd rpw pb p0 Hi) as [Hi' _].
    apply (few_waves_raise rnd rpw pb p0 qr cqr xcd (grad pb) opt Hq Hcq Hr Hrp Hg Hi' HB).
  Qed.
End NC.
