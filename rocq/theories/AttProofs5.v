(** The run has a lowest energy (C148). *)
From Coq Require Import Reals Lra Lia.
From Coquelicot Require Import Coquelicot.
From Coq Require Import Ascii String List Arith ZArith Bool.
From Verif Require Import Base Sums Tensor DFT GridModel GridProofs PadModel PadProofs Lin3 VecModel VecProofs OccModel OccSpec OccProofs PwModel PwSpec PwProofs BraketModel XcModel XcSpec XcProofs XcProofs3 GgaProofs2 EnergyModel EnergySpec EnergyProofs ExtProofs TotalProofs SpinProofs
  CalcModel CalcSpec DrvModel DrvSpec DrvProofs2 DrvProofs3 DrvProofs4 DrvProofs5 DrvProofs6 CalcProofs3 BoundSpec BoundProofs BoundProofs2 ReachSpec ReachProofs ReachProofs2 ReachProofs3 GeomSpec IdemSpec IdemProofs AttSpec AttProofs AttProofs2 AttProofs3 AttProofs4.
Import ListNotations.
Local Open Scope R_scope.

(** A set with all its limits is closed. *)
Lemma limits_closed sp K B O : closed_occupations sp K B (limit_occupation [sp; K; B] O).
Proof.
  intros occ So Hn. destruct (Classical_Prop.classic (exists d, 0 < d /\ forall occ', O occ' -> tshape occ' = [sp; K; B] -> ~ (forall i, inb i [sp; K; B] -> Rabs (tget occ' i - tget occ i) < d))) as [(d & Hd & H)|H].
  - exists (d / 2). split; [lra|]. intros occ' So' Hnear (_ & HL). destruct (HL (d / 2) ltac:(lra)) as (o & Oo & Soo & Hno). apply (H o Oo Soo). intros i Hi.
    specialize (Hnear i Hi). specialize (Hno i Hi). replace (tget o i - tget occ i) with ((tget o i - tget occ' i) + (tget occ' i - tget occ i)) by ring. eapply Rle_lt_trans; [apply Rabs_triang|lra].
  - exfalso. apply Hn. split; [exact So|]. intros d Hd. apply Classical_Prop.NNPP. intros HX. apply H. exists d. split; [exact Hd|]. intros o Oo Soo Hno. apply HX. exists o. split; [exact Oo|]. split; assumption.
Qed.

(** What the run's parameters stand for: states, and the energies of these. *)
Lemma run_state erfc pkg read devices rnd rpw c pb p0 p qr cqr lib vg : reduced_qr qr -> complex_qr cqr -> shape_ok rnd -> pair_shape_ok rpw ->
  ae_problem erfc pkg read devices c = Ok pb -> ae_init rnd rpw pb = Ok p0 -> reachable pb p0 p -> bands_hold (pb_method pb) (pb_electrons pb) (pb_spin pb) (pb_bands pb) -> bands_fit_basis pb ->
  exists co occ, get_occupation qr pb p = Ok occ /\
    electron_state (num_spin (pb_restricted pb)) (length (pb_k pb)) (pb_bands pb) (pb_mask pb) (IZR (kept_electrons (pb_method pb) (pb_electrons pb) (pb_spin pb))) co occ /\
    forall e, objective qr cqr (xc_density lib vg) pb p = Ok e <->
      total_energy (xc_density lib vg) co (cr_positions (pb_crystal pb)) (map IZR (cr_charges (pb_crystal pb))) (pb_G pb) (pb_k pb) (pb_vol pb) (Some occ) false (pb_xc pb) = Ok e.
Proof.
  intros Hq Hcq Hr Hrp Hpb Hi Hre Hb Hfit. pose proof (setup_grids _ _ _ _ _ _ _ _ _ Hpb) as Hg. destruct (ae_parity _ _ _ _ _ _ Hpb) as (_ & Hpar & Hio & Hir).
  destruct (ae_objective erfc pkg read devices rnd rpw c pb p0 p qr cqr (xc_density lib vg) Hq Hcq Hr Hrp Hpb Hi Hre Hb Hfit (xc_density_local lib vg false _ (or_intror eq_refl))) as (co & occ & Ec & Eo & Hob).
  destruct (coeff_along rnd rpw pb p0 p cqr Hcq Hrp Hi (proj1 Hre) Hfit) as (co2 & Ec2 & Sc & Oc & Zc). rewrite Ec in Ec2. injection Ec2 as <-.
  destruct (occ_along rnd rpw pb p0 p qr Hq Hr Hg Hi Hre Hpar (fun _ => Hir) Hb) as (occ2 & Eo2 & So & Po & To & _). rewrite Eo in Eo2. injection Eo2 as <-.
  exists co, occ. split; [exact Eo|]. split; [|exact Hob]. split; [split; [exact Sc|split; [exact Oc|exact Zc]]|]. split; [exact So|]. split; [rewrite So in Po; exact Po|].
  rewrite <- To, (total_channels occ _ _ So). unfold BoundSpec.electrons. rewrite So. reflexivity.
Qed.

Lemma start_reachable rnd rpw pb p0 : ae_init rnd rpw pb = Ok p0 -> reachable pb p0 p0.
Proof. intros Hi. apply (traj_reachable pb (fun _ p => p) ex_opt rnd rpw p0 0 Hi (fun _ => ex_opt_constants)). Qed.

Lemma teq_refl' {A} (o : tensor A) : teq o o.
Proof. split; [reflexivity|intros; reflexivity]. Qed.

(** A run whose objective is a continuous function of states, all of whose orbitals can be reached,
    has a lowest value, of a state approached by the run. *)
Lemma infimum_obj (obj : params -> res R) (F : tensor C -> tensor R -> R) N qr pb p0 : let sp := num_spin (pb_restricted pb) in let K := length (pb_k pb) in let B := pb_bands pb in let ns := tshape (pb_mask pb) in
  let csh := [sp; K; B] ++ ns in let osh := [sp; K; B] in
  (forall (St : (crd -> R) -> Prop) x, St x -> (forall y, St y -> forall i, inb i osh -> 0 <= tget (o_of osh y) i) -> cts (crds csh osh) St x (fun y => F (c_of csh y) (o_of osh y))) ->
  reachable pb p0 p0 ->
  (forall p, reachable pb p0 p -> exists co occ, get_occupation qr pb p = Ok occ /\ electron_state sp K B (pb_mask pb) N co occ /\ obj p = Ok (F co occ)) ->
  (forall p co occ, reachable pb p0 p -> basis_orbitals sp K B (pb_mask pb) co -> get_occupation qr pb p = Ok occ -> exists p', reachable pb p0 p' /\ obj p' = Ok (F co occ)) ->
  exists co occ, electron_state sp K B (pb_mask pb) N co occ /\ limit_occupation osh (described qr pb p0) occ /\
    (forall p, reachable pb p0 p -> exists e', obj p = Ok e' /\ F co occ <= e') /\
    (forall eps, 0 < eps -> exists p e', reachable pb p0 p /\ obj p = Ok e' /\ e' < F co occ + eps) /\
    (described qr pb p0 occ -> exists p, reachable pb p0 p /\ obj p = Ok (F co occ)).
Proof.
  intros sp K B ns csh osh HF H0 RS RD. set (O := limit_occupation osh (described qr pb p0)).
  assert (RO : forall p occ, reachable pb p0 p -> get_occupation qr pb p = Ok occ -> tshape occ = osh -> O occ).
  { intros p occ Hre Eo So. split; [exact So|]. intros d Hd. exists occ. split; [exists p, occ; split; [exact Hre|split; [exact Eo|apply teq_refl']]|]. split; [exact So|]. intros i _. unfold Rminus. rewrite Rplus_opp_r, Rabs_R0. exact Hd. }
  destruct (attained_gen F sp K B (pb_mask pb) N O HF (limits_closed sp K B _)) as (co & occ & Hst & HO & Min).
  { destruct (RS p0 H0) as (co & occ & Eo & Es & _). exists co, occ. split; [exact Es|]. apply (RO p0 occ H0 Eo). apply Es. }
  destruct Hst as (Hbo & So & Po & Ne). assert (Sc : tshape co = csh) by apply Hbo.
  pose proof (near_gen F sp K B ns co occ HF Sc So Po) as Near.
  assert (Move : forall o, described qr pb p0 o -> exists p' o', reachable pb p0 p' /\ tshape o' = osh /\ (forall i, inb i osh -> 0 <= tget o' i) /\ teq o' o /\ obj p' = Ok (F co o')).
  { intros o (p & o' & Hre & Eo' & T). destruct (RS p Hre) as (co' & o2 & Eo2 & (_ & So2 & Po2 & _) & _). rewrite Eo' in Eo2. injection Eo2 as <-.
    destruct (RD p co o' Hre Hbo Eo') as (p' & Hre' & Hob). exists p', o'. split; [exact Hre'|]. split; [exact So2|]. split; [exact Po2|]. split; [exact T|exact Hob]. }
  exists co, occ. split; [split; [exact Hbo|split; [exact So|split; [exact Po|exact Ne]]]|]. split; [exact HO|]. split; [|split].
  - intros p Hre. destruct (RS p Hre) as (co' & occ' & Eo & Es & Hob). exists (F co' occ'). split; [exact Hob|]. apply Min; [exact Es|]. apply (RO p occ' Hre Eo). apply Es.
  - intros eps Heps. destruct (Near eps Heps) as (d & Hd & Hn). destruct (proj2 HO d Hd) as (o & Do & Soo & Hno).
    destruct (Move o Do) as (p' & o' & Hre' & So' & Po' & T & Hob). specialize (Hn o' So' Po'). exists p', (F co o'). split; [exact Hre'|]. split; [exact Hob|].
    assert (Hab : Rabs (F co o' - F co occ) < eps) by (apply Hn; intros i Hi'; rewrite (proj2 T) by (rewrite So'; exact Hi'); apply Hno, Hi'). apply Rabs_def2 in Hab. lra.
  - intros Do. destruct (Move occ Do) as (p' & o' & Hre' & So' & Po' & T & Hob). exists p'. split; [exact Hre'|]. rewrite Hob. f_equal.
    destruct (Req_dec (F co o') (F co occ)) as [E|E]; [exact E|]. exfalso. destruct (Near (Rabs (F co o' - F co occ))) as (d & Hd & Hn); [apply Rabs_pos_lt; lra|].
    assert (H2 : Rabs (F co o' - F co occ) < Rabs (F co o' - F co occ)); [|lra]. apply Hn; [exact So'|exact Po'|]. intros i Hi'. rewrite (proj2 T) by (rewrite So'; exact Hi'). unfold Rminus. rewrite Rplus_opp_r, Rabs_R0. exact Hd.
Qed.

Lemma infimum_gen (F : tensor C -> tensor R -> R) N qr cqr xcd pb p0 : let sp := num_spin (pb_restricted pb) in let K := length (pb_k pb) in let B := pb_bands pb in let ns := tshape (pb_mask pb) in
  let csh := [sp; K; B] ++ ns in let osh := [sp; K; B] in
  (forall (St : (crd -> R) -> Prop) x, St x -> (forall y, St y -> forall i, inb i osh -> 0 <= tget (o_of osh y) i) -> cts (crds csh osh) St x (fun y => F (c_of csh y) (o_of osh y))) ->
  reachable pb p0 p0 ->
  (forall p, reachable pb p0 p -> exists co occ, get_occupation qr pb p = Ok occ /\ electron_state sp K B (pb_mask pb) N co occ /\ objective qr cqr xcd pb p = Ok (F co occ)) ->
  (forall p co occ, reachable pb p0 p -> basis_orbitals sp K B (pb_mask pb) co -> get_occupation qr pb p = Ok occ -> exists p', reachable pb p0 p' /\ objective qr cqr xcd pb p' = Ok (F co occ)) ->
  exists co occ, electron_state sp K B (pb_mask pb) N co occ /\ limit_occupation osh (described qr pb p0) occ /\
    (forall p, reachable pb p0 p -> exists e', objective qr cqr xcd pb p = Ok e' /\ F co occ <= e') /\
    (forall eps, 0 < eps -> exists p e', reachable pb p0 p /\ objective qr cqr xcd pb p = Ok e' /\ e' < F co occ + eps) /\
    (described qr pb p0 occ -> exists p, reachable pb p0 p /\ objective qr cqr xcd pb p = Ok (F co occ)).
Proof. exact (infimum_obj (objective qr cqr xcd pb) F N qr pb p0). Qed.

(** The energies the run can reach have a lowest value; a state approached by the run has it. *)
Lemma driver_infimum erfc pkg read devices rnd rpw c pb p0 qr cqr lib vg : reduced_qr qr -> complex_qr cqr -> qr_factors cqr -> shape_ok rnd -> pair_shape_ok rpw ->
  ae_problem erfc pkg read devices c = Ok pb -> m3det (cr_cell (pb_crystal pb)) <> 0 -> length (cr_charges (pb_crystal pb)) = length (cr_positions (pb_crystal pb)) ->
  ae_init rnd rpw pb = Ok p0 -> bands_hold (pb_method pb) (pb_electrons pb) (pb_spin pb) (pb_bands pb) -> bands_fit_basis pb ->
  (forall t, In t (split_on "+" (pb_xc pb)) -> continuous_functional lib (contains "gga" (pb_xc pb)) t) ->
  exists co occ e, electron_state (num_spin (pb_restricted pb)) (length (pb_k pb)) (pb_bands pb) (pb_mask pb) (IZR (kept_electrons (pb_method pb) (pb_electrons pb) (pb_spin pb))) co occ /\
    limit_occupation [num_spin (pb_restricted pb); length (pb_k pb); pb_bands pb] (described qr pb p0) occ /\
    total_energy (xc_density lib vg) co (cr_positions (pb_crystal pb)) (map IZR (cr_charges (pb_crystal pb))) (pb_G pb) (pb_k pb) (pb_vol pb) (Some occ) false (pb_xc pb) = Ok e /\
    (forall p, reachable pb p0 p -> exists e', objective qr cqr (xc_density lib vg) pb p = Ok e' /\ e <= e') /\
    (forall eps, 0 < eps -> exists p e', reachable pb p0 p /\ objective qr cqr (xc_density lib vg) pb p = Ok e' /\ e' < e + eps) /\
    (described qr pb p0 occ -> exists p, reachable pb p0 p /\ objective qr cqr (xc_density lib vg) pb p = Ok e).
Proof.
  intros Hq Hcq Hf Hr Hrp Hpb HA Hl Hi Hb Hfit HF. pose proof (setup_grids _ _ _ _ _ _ _ _ _ Hpb) as Hg.
  destruct (grid_facts pb Hg HA) as (n1 & n2 & n3 & HG & Sm & SG & Hp & Hv).
  set (N := IZR (kept_electrons (pb_method pb) (pb_electrons pb) (pb_spin pb))).
  assert (Hs : (num_spin (pb_restricted pb) = 1 \/ num_spin (pb_restricted pb) = 2)%nat) by (destruct (pb_restricted pb); [left|right]; reflexivity).
  assert (Hl' : length (map IZR (cr_charges (pb_crystal pb))) = length (cr_positions (pb_crystal pb))) by (rewrite map_length; exact Hl).
  assert (HP : forall t, In t (split_on "+" (pb_xc pb)) -> pick lib t (num_spin (pb_restricted pb) =? 2)%nat <> None).
  { intros t Ht. unfold pick. destruct (HF t Ht ((num_spin (pb_restricted pb) =? 2)%nat && negb (is_exchange t))) as (f & -> & _). discriminate. }
  set (F := energy_value lib (pb_xc pb) (num_spin (pb_restricted pb)) (pb_bands pb) [n1; n2; n3] (pb_G pb) (pb_k pb) (cr_positions (pb_crystal pb)) (map IZR (cr_charges (pb_crystal pb))) (pb_vol pb)).
  assert (En : forall c occ, tshape c = [num_spin (pb_restricted pb); length (pb_k pb); pb_bands pb] ++ tshape (pb_mask pb) -> tshape occ = [num_spin (pb_restricted pb); length (pb_k pb); pb_bands pb] ->
    total_energy (xc_density lib vg) c (cr_positions (pb_crystal pb)) (map IZR (cr_charges (pb_crystal pb))) (pb_G pb) (pb_k pb) (pb_vol pb) (Some occ) false (pb_xc pb) = Ok (F c occ)).
  { intros co occ Sc So. rewrite Sm in Sc. apply (energy_formula lib vg (pb_xc pb) (cr_cell (pb_crystal pb)) co _ _ (pb_G pb) (pb_k pb) (pb_vol pb) occ _ _ n1 n2 n3 HA HG Hv Hs Hl' Sc So HP). }
  destruct (infimum_gen F N qr cqr (xc_density lib vg) pb p0) as (co & occ & H1 & H2 & H3 & H4 & H5).
  - rewrite Sm. intros St x Sx Po. apply (cts_energy lib (pb_xc pb) _ _ (pb_G pb) (pb_k pb) (pb_vol pb) _ _ n1 n2 n3 St x Hs HF Sx Po).
  - exact (start_reachable rnd rpw pb p0 Hi).
  - intros p Hre. destruct (run_state erfc pkg read devices rnd rpw c pb p0 p qr cqr lib vg Hq Hcq Hr Hrp Hpb Hi Hre Hb Hfit) as (co & occ & Eo & Es & Hob). exists co, occ. split; [exact Eo|]. split; [exact Es|]. apply Hob. apply En; apply Es.
  - intros p co occ Hre Hbo Eo. destruct (run_state erfc pkg read devices rnd rpw c pb p0 p qr cqr lib vg Hq Hcq Hr Hrp Hpb Hi Hre Hb Hfit) as (_ & o2 & Eo2 & (_ & So & _) & _). rewrite Eo in Eo2. injection Eo2 as <-.
    destruct (reach_driver erfc pkg read devices rnd rpw c pb p0 p qr cqr (xc_density lib vg) co Hq Hcq Hf Hr Hrp Hpb Hi Hre Hb Hfit (xc_density_local lib vg false _ (or_intror eq_refl)) Hbo) as (p' & co2 & o3 & Hre' & _ & Eo3 & _ & _ & _ & Hob).
    rewrite Eo in Eo3. injection Eo3 as <-. exists p'. split; [exact Hre'|]. apply Hob. apply En; [apply Hbo|exact So].
  - exists co, occ, (F co occ). split; [exact H1|]. split; [exact H2|]. split; [apply En; apply H1|]. split; [exact H3|]. split; [exact H4|exact H5].
Qed.

(** Two occupations that are not optimised: one occupation is described, which is its only limit. *)
Lemma fixed_limits rnd rpw pb p0 qr sh occ : ae_init rnd rpw pb = Ok p0 -> fixed_occ (pb_method pb) -> limit_occupation sh (described qr pb p0) occ -> described qr pb p0 occ.
Proof.
  intros Hi Hfx (So & HL).
  assert (Val : forall p o, reachable pb p0 p -> get_occupation qr pb p = Ok o -> exists o0, p_occ p0 = PArr o0 /\ teq o o0).
  { intros p o (_ & Hre) Eo. destruct (Hre Hfx) as (o0 & o' & E0 & E' & Es & Ev). exists o0. split; [exact E0|]. unfold get_occupation in Eo. rewrite E' in Eo.
    assert (o = o') by (destruct Hfx as [Hm|Hm]; rewrite Hm in Eo; cbn [occupation] in Eo; congruence). subst o'. split; [exact Es|intros i _; apply Ev]. }
  destruct (HL 1 Rlt_0_1) as (o1 & (p & o & Hre & Eo & Eq1) & So1 & _). destruct (Val p o Hre Eo) as (o0 & E0 & T0).
  exists p, o. split; [exact Hre|]. split; [exact Eo|]. assert (Soo : tshape o = sh) by (rewrite (proj1 Eq1); exact So1). split; [congruence|]. intros i Hi'.
  apply Rminus_diag_uniq. apply Rabs_eq_0. apply Rle_antisym; [|apply Rabs_pos]. apply le_epsilon. intros eps Heps.
  destruct (HL eps Heps) as (o2 & (p2 & o3 & Hre2 & Eo2 & Eq2) & So2 & Hn). destruct (Val p2 o3 Hre2 Eo2) as (o0' & E0' & T0'). rewrite E0 in E0'. injection E0' as <-.
  assert (V : tget o i = tget o2 i).
  { rewrite (proj2 T0 i Hi'). rewrite <- (proj2 Eq2 i) by (rewrite (proj1 Eq2), So2, <- Soo; exact Hi'). symmetry. apply (proj2 T0'). rewrite (proj1 Eq2), So2, <- Soo. exact Hi'. }
  rewrite V. rewrite Soo in Hi'. specialize (Hn i Hi'). lra.
Qed.

Lemma limit_entry sh (O : tensor R -> Prop) occ lo hi i : limit_occupation sh O occ -> inb i sh -> (forall o, O o -> tshape o = sh -> lo <= tget o i <= hi) -> lo <= tget occ i <= hi.
Proof.
  intros (So & HL) Hi H. split; apply le_epsilon; intros eps Heps; destruct (HL eps Heps) as (o & Oo & Soo & Hn); specialize (H o Oo Soo); specialize (Hn i Hi); apply Rabs_def2 in Hn; lra.
Qed.
Lemma sum_near (l : list (list nat)) (f g : list nat -> R) d : (forall i, In i l -> Rabs (f i - g i) <= d) -> Rabs (sumR l f - sumR l g) <= INR (length l) * d.
Proof.
  induction l as [|a l IH]; intros H; [cbn; unfold Rminus; rewrite Rplus_opp_r, Rabs_R0; lra|]. cbn [sumR fold_right length]. rewrite S_INR.
  replace (f a + sumR l f - (g a + sumR l g)) with ((f a - g a) + (sumR l f - sumR l g)) by ring. eapply Rle_trans; [apply Rabs_triang|].
  pose proof (H a (or_introl eq_refl)). specialize (IH (fun i Hi => H i (or_intror Hi))). lra.
Qed.
Lemma limit_sum sh (O : tensor R -> Prop) occ T (l : list (list nat)) : limit_occupation sh O occ -> (forall i, In i l -> inb i sh) -> (forall o, O o -> tshape o = sh -> sumR l (tget o) = T) -> sumR l (tget occ) = T.
Proof.
  intros (So & HL) Hl H. apply Rminus_diag_uniq. apply Rabs_eq_0. apply Rle_antisym; [|apply Rabs_pos]. apply le_epsilon. intros eps Heps.
  set (n := INR (length l) + 1). assert (Hn : 0 < n) by (unfold n; pose proof (pos_INR (length l)); lra).
  destruct (HL (eps / n)) as (o & Oo & Soo & Hno); [apply Rdiv_lt_0_compat; assumption|]. rewrite <- (H o Oo Soo), Rabs_minus_sym.
  eapply Rle_trans; [apply (sum_near l (tget o) (tget occ) (eps / n)); intros i Hi; left; apply Hno, Hl, Hi|].
  assert (0 < eps / n) by (apply Rdiv_lt_0_compat; assumption). assert (n * (eps / n) = eps) by (field; lra). unfold n in *. nra.
Qed.

(** The idempotent method describes a closed set of occupations. *)
Lemma idem_limits rnd rpw pb p0 qr occ : reduced_qr qr -> qr_product qr -> shape_ok rnd -> has_grids pb -> ae_init rnd rpw pb = Ok p0 ->
  pb_method pb = MIdempotent -> bands_hold (pb_method pb) (pb_electrons pb) (pb_spin pb) (pb_bands pb) ->
  limit_occupation [num_spin (pb_restricted pb); length (pb_k pb); pb_bands pb] (described qr pb p0) occ -> described qr pb p0 occ.
Proof.
  intros Hq Hqp Hr Hpb Hi Hm Hb HL. pose proof Hpb as (n1 & n2 & n3 & _ & _ & HK). rewrite Hm in Hb. cbn [bands_hold] in Hb.
  pose proof Hi as Hi'. unfold ae_init in Hi'. cbv zeta in Hi'. rewrite Hm in Hi'. cbn [occ_param_init] in Hi'.
  destruct (idempotent_param_init _ _ _ _ _ _) as [q|] eqn:Ei in Hi'; cbn [bind] in Hi'; [|discriminate]. injection Hi' as E0.
  destruct (idem_init_inv rnd _ _ _ _ true q Hr HK Ei) as (_ & Hn0 & _ & Su & Sd). cbv iota in Sd.
  set (K := length (pb_k pb)) in *. set (B := pb_bands pb) in *. set (nu := Z.to_nat ((pb_electrons pb + pb_spin pb) / 2)) in *.
  assert (Hnu : (nu <= B)%nat).
  { unfold nu. destruct Hb as (Hb1 & Hb2). assert ((pb_electrons pb + pb_spin pb) / 2 <= (pb_electrons pb + Z.abs (pb_spin pb)) / 2)%Z by (apply Z.div_le_mono; lia). lia. }
  assert (Fwd : forall o, described qr pb p0 o -> exists up down o', tshape up = [B * K; nu * K]%nat /\ tshape down = [B * K; nu * K]%nat /\ idempotent qr up down K (pb_restricted pb) = Ok o' /\ teq o' o).
  { intros o (p & o' & ((_ & _ & Hso) & _) & Eo & T). rewrite <- E0 in Hso. cbn [p_occ] in Hso. unfold get_occupation in Eo. rewrite Hm in Eo. destruct (p_occ p) as [u d|]; [|contradiction]. cbn [occupation] in Eo.
    exists u, d, o'. destruct Hso as [H1 H2]. split; [congruence|]. split; [congruence|]. split; assumption. }
  assert (Bwd : forall o up down o', tshape up = [B * K; nu * K]%nat -> tshape down = [B * K; nu * K]%nat -> idempotent qr up down K (pb_restricted pb) = Ok o' -> teq o' o -> described qr pb p0 o).
  { intros o up down o' H1 H2 E T. exists (Params (p_re p0) (p_im p0) (PDict up down)), o'. split; [|split; [unfold get_occupation; rewrite Hm; exact E|exact T]].
    split; [|rewrite Hm; intros [?|?]; discriminate]. split; [reflexivity|]. split; [reflexivity|]. rewrite <- E0. cbn [p_occ]. split; congruence. }
  pose proof HL as (So & _). destruct (pb_restricted pb) eqn:Er; cbn [num_spin] in *.
  - assert (Ch : forall o, described qr pb p0 o -> tshape o = [1%nat; K; B] -> within 0 (2 / INR K) o /\ total o = 2 * INR nu).
    { intros o Do Soo. apply (idem_reach_restricted qr o nu K B Hq Hqp HK Hnu Soo). exact (Fwd o Do). }
    assert (G : within 0 (2 / INR K) occ /\ total occ = 2 * INR nu).
    { split.
      - intros i Hii. rewrite So in Hii. apply (limit_entry _ _ occ 0 (2 / INR K) i HL Hii). intros o Do Soo. apply (proj1 (Ch o Do Soo)). rewrite Soo. exact Hii.
      - unfold total. rewrite So. apply (limit_sum _ _ occ (2 * INR nu) (indices [1%nat; K; B]) HL); [intros i Hii; apply in_indices, Hii|]. intros o Do Soo. rewrite <- (proj2 (Ch o Do Soo)). unfold total. rewrite Soo. reflexivity. }
    destruct (proj2 (idem_reach_restricted qr occ nu K B Hq Hqp HK Hnu So) G) as (up & down & o' & H1 & H2 & E & T). apply (Bwd occ up down o' H1 H2 E T).
  - assert (Ch : forall o, described qr pb p0 o -> tshape o = [2%nat; K; B] -> within 0 (1 / INR K) o /\ channel o 0 = INR nu /\ channel o 1 = INR nu).
    { intros o Do Soo. apply (idem_reach qr o nu nu K B Hq Hqp HK Hnu Hnu Soo). exact (Fwd o Do). }
    assert (Gc : forall s, (s < 2)%nat -> channel occ s = INR nu).
    { intros s Hs. unfold channel. rewrite So. cbn [tl]. rewrite <- (sumR_map (cons s) (indices [K; B]) (tget occ)). apply (limit_sum _ _ occ (INR nu) (map (cons s) (indices [K; B])) HL).
      - intros i Hii. apply in_map_iff in Hii. destruct Hii as (j & <- & Hj). apply in_indices in Hj. constructor; assumption.
      - intros o Do Soo. rewrite sumR_map. destruct (Ch o Do Soo) as (_ & C0 & C1). unfold channel in C0, C1. rewrite Soo in C0, C1. cbn [tl] in C0, C1. destruct s as [|[|s]]; [exact C0|exact C1|lia]. }
    assert (G : within 0 (1 / INR K) occ /\ channel occ 0 = INR nu /\ channel occ 1 = INR nu).
    { split; [|split; apply Gc; lia]. intros i Hii. rewrite So in Hii. apply (limit_entry _ _ occ 0 (1 / INR K) i HL Hii). intros o Do Soo. apply (proj1 (Ch o Do Soo)). rewrite Soo. exact Hii. }
    destruct (proj2 (idem_reach qr occ nu nu K B Hq Hqp HK Hnu Hnu So) G) as (up & down & o' & H1 & H2 & E & T). apply (Bwd occ up down o' H1 H2 E T).
Qed.

(** With the occupations that are not optimised and the idempotent ones the run has a minimum. *)
Lemma driver_minimum erfc pkg read devices rnd rpw c pb p0 qr cqr lib vg : reduced_qr qr -> qr_product qr -> complex_qr cqr -> qr_factors cqr -> shape_ok rnd -> pair_shape_ok rpw ->
  ae_problem erfc pkg read devices c = Ok pb -> m3det (cr_cell (pb_crystal pb)) <> 0 -> length (cr_charges (pb_crystal pb)) = length (cr_positions (pb_crystal pb)) ->
  ae_init rnd rpw pb = Ok p0 -> bands_hold (pb_method pb) (pb_electrons pb) (pb_spin pb) (pb_bands pb) -> bands_fit_basis pb -> pb_method pb <> MSimplex ->
  (forall t, In t (split_on "+" (pb_xc pb)) -> continuous_functional lib (contains "gga" (pb_xc pb)) t) ->
  exists p e, reachable pb p0 p /\ objective qr cqr (xc_density lib vg) pb p = Ok e /\ forall p', reachable pb p0 p' -> exists e', objective qr cqr (xc_density lib vg) pb p' = Ok e' /\ e <= e'.
Proof.
  intros Hq Hqp Hcq Hf Hr Hrp Hpb HA Hl Hi Hb Hfit Hm HF.
  destruct (driver_infimum erfc pkg read devices rnd rpw c pb p0 qr cqr lib vg Hq Hcq Hf Hr Hrp Hpb HA Hl Hi Hb Hfit HF) as (co & occ & e & _ & HL & _ & Min & _ & Att).
  assert (D : described qr pb p0 occ).
  { destruct (pb_method pb) eqn:Em; [|apply (fixed_limits rnd rpw pb p0 qr _ occ Hi (or_introl Em) HL)|apply (fixed_limits rnd rpw pb p0 qr _ occ Hi (or_intror Em) HL)|congruence|contradiction].
    apply (idem_limits rnd rpw pb p0 qr occ Hq Hqp Hr (setup_grids _ _ _ _ _ _ _ _ _ Hpb) Hi Em); [rewrite Em; exact Hb|exact HL]. }
  destruct (Att D) as (p & Hre & He). exists p, e. split; [exact Hre|]. split; [exact He|exact Min].
Qed.

(** A functional falling linearly with the density is continuous. *)
Lemma linear_continuous t gga : continuous_functional linear_lib gga t.
Proof.
  intros pol. eexists. split; [reflexivity|]. intros v sg Lv _ _ eps Heps. exists (eps / 2). split; [lra|]. intros v' sg' _ Hv _.
  destruct pol; [destruct v as [|a [|b [|? ?]]]|destruct v as [|a [|? ?]]]; try discriminate.
  - inversion Hv as [|? a' ? v1 H1 Hv1]; subst. inversion Hv1 as [|? b' ? v2 H2 Hv2]; subst. inversion Hv2; subst. cbn [sumR fold_right]. apply Rabs_def2 in H1, H2. apply Rabs_def1; lra.
  - inversion Hv as [|? a' ? v1 H1 Hv1]; subst. inversion Hv1; subst. cbn [sumR fold_right]. apply Rabs_def2 in H1. apply Rabs_def1; lra.
Qed.
Lemma ex_attained erfc pkg occ r : In occ ex_methods -> exists pb p0, ae_problem erfc pkg ex_ase 2 (ex_drv occ r false 8) = Ok pb /\ m3det (cr_cell (pb_crystal pb)) <> 0 /\
  length (cr_charges (pb_crystal pb)) = length (cr_positions (pb_crystal pb)) /\ ae_init ex_rnd ex_rpw pb = Ok p0 /\ bands_hold (pb_method pb) (pb_electrons pb) (pb_spin pb) (pb_bands pb) /\ bands_fit_basis pb.
Proof. intros Ho. destruct (ex_driver erfc pkg occ r Ho) as (pb & p0 & fl & H1 & H2 & H3 & H4 & _ & H5 & H6 & _). exists pb, p0. repeat (split; [assumption|]). assumption. Qed.
