(** Free energies of the runs (C155). *)
From Coq Require Import Reals Lra Lia.
From Coquelicot Require Import Coquelicot.
From Coq Require Import Ascii String List Arith ZArith Bool.
From Verif Require Import Base Sums Tensor DFT GridModel GridProofs PadModel PadProofs Lin3 VecModel VecProofs OccModel OccSpec OccProofs PwModel PwSpec PwProofs BraketModel XcModel XcSpec XcProofs XcProofs3 GgaProofs2 EnergyModel EnergySpec EnergyProofs ExtProofs TotalProofs SpinProofs
  LocModel NlocModel CalcModel CalcSpec DrvModel DrvSpec DrvProofs DrvProofs2 DrvProofs3 DrvProofs4 DrvProofs5 DrvProofs6 CalcProofs3 BoundSpec BoundProofs BoundProofs2 ReachSpec ReachProofs ReachProofs2 ReachProofs3 GeomSpec IdemSpec IdemProofs AttSpec AttProofs AttProofs2 AttProofs3 AttProofs4 AttProofs5 NcAttSpec NcAttProofs NcAttProofs2 TempSpec TempProofs.
Import ListNotations.
Local Open Scope R_scope.

Lemma cap_real r K : INR (3 - num_spin r) / INR K = (3 - INR (num_spin r)) / INR K.
Proof. f_equal. destruct r; cbn; lra. Qed.

(** The occupations anywhere along a run are between empty and full. *)
Lemma occ_within rnd rpw pb p0 p qr occ : reduced_qr qr -> shape_ok rnd -> has_grids pb -> ae_init rnd rpw pb = Ok p0 -> reachable pb p0 p ->
  (pb_electrons pb mod 2 = pb_spin pb mod 2)%Z -> (fixed_occ (pb_method pb) -> pb_init_restricted pb = pb_restricted pb) -> bands_hold (pb_method pb) (pb_electrons pb) (pb_spin pb) (pb_bands pb) ->
  entropy_defined pb -> get_occupation qr pb p = Ok occ -> within 0 ((3 - INR (num_spin (pb_restricted pb))) / INR (length (pb_k pb))) occ.
Proof.
  intros Hq Hr (n1 & n2 & n3 & _ & _ & HK) Hi [Hsh Hfx] Hpar Hir Hb Hd. rewrite <- cap_real. unfold ae_init in Hi. cbv zeta in Hi. step Hi o Ho. injection Hi as <-. cbn [p_occ p_re p_im] in *. unfold entropy_defined in Hd.
  unfold get_occupation. set (N := pb_electrons pb) in *. set (s := pb_spin pb) in *. set (B := pb_bands pb) in *. set (K := length (pb_k pb)) in *. set (r := pb_restricted pb) in *.
  destruct Hsh as (_ & _ & Hso). cbn [p_occ] in Hso. destruct (pb_method pb) eqn:Em; cbn [occ_param_init bands_hold] in *; intros Eo.
  - step Ho p' Hp'. injection Ho as <-. destruct (idem_init_inv rnd B N K s true p' Hr HK Hp') as (_ & Hn0 & _ & Su & Sd).
    destruct (p_occ p) as [u d|]; [|contradiction]. destruct Hso as [Hu Hd']. rewrite Su in Hu. rewrite Sd in Hd'. cbn [occupation] in Eo.
    apply (idempotent_spec qr u d K r occ _ _ _ Hq Hu Hd' Eo).
  - rewrite (Hir (or_introl eq_refl)) in Ho. fold r in Ho. step Ho u Hu. injection Ho as <-. destruct (Hfx (or_introl eq_refl)) as (a & o' & Ea & Eo' & So' & Go'). injection Ea as <-. rewrite Eo' in *. cbn [occupation] in Eo. injection Eo as <-.
    destruct (uniform_holds K N s (Some B) r u Hu Hpar) as (_ & _ & H3 & _); [lia|intros b Eb; injection Eb as <-; lia|]. intros i Hi. rewrite Go'. apply H3. rewrite <- So'. exact Hi.
  - destruct Hd as [Hd|Hd]; [contradiction|]. rewrite (Hir (or_intror eq_refl)) in Ho. fold r in Ho. step Ho u Hu. injection Ho as <-. destruct (Hfx (or_intror eq_refl)) as (a & o' & Ea & Eo' & So' & Go'). injection Ea as <-. rewrite Eo' in *. cbn [occupation] in Eo. injection Eo as <-.
    destruct (gamma_holds K N s (Some B) r u HK Hu Hpar) as (_ & _ & H3 & _); [lia|intros b Eb; injection Eb as <-; lia|]. intros i Hi. rewrite Go', Hd. cbn [INR]. unfold Rdiv. rewrite Rinv_1, Rmult_1_r. apply H3. rewrite <- So'. exact Hi.
  - injection Ho as <-. destruct (p_occ p) as [u d|]; [|contradiction]. destruct Hso as [Hu Hd']. cbn [simplex_projector_init tshape] in Hu, Hd'. cbn [occupation] in Eo.
    destruct Hb as [Hb1 Hb2]. destruct (simplex_spec u d N s r K B HK Hu Hd' Hpar Hb1 Hb2) as (occ2 & Eo2 & _ & _ & Hw & _). rewrite Eo in Eo2. injection Eo2 as <-. exact Hw.
  - contradiction.
Qed.

(** The entropy with its logarithms kept at positive numbers: continuous everywhere. *)
Definition soft_entropy (osh : list nat) (eps w : R) (occ : tensor R) : R :=
  - sumR (indices osh) (fun i => tget occ i * ln (eps + Rmax 0 (tget occ i)) + (w - tget occ i) * ln (eps + Rmax 0 (w - tget occ i))).
Lemma soft_eq occ eps S K B h : tshape occ = [S; K; B] -> within 0 ((3 - INR S) / INR K) occ -> fermi_dirac occ eps = Ok h -> h = soft_entropy [S; K; B] eps ((3 - INR S) / INR K) occ.
Proof.
  intros So W. rewrite (fermi_dirac_eq occ eps _ _ _ So). intros E. injection E as <-. unfold soft_entropy. rewrite So. f_equal. apply sumR_ext. intros i Hi. unfold within in W. rewrite So in W.
  specialize (W i (proj1 (in_indices _ _) Hi)). unfold fdterm. rewrite !Rmax_right by lra. f_equal. f_equal. f_equal. ring.
Qed.
Lemma ctn_ln eps v : 0 < eps -> continuous (fun t => ln (eps + Rmax 0 t)) v.
Proof.
  intros He. apply (continuous_comp (fun t => eps + Rmax 0 t) ln).
  - apply (continuous_plus (V := R_NormedModule)); [apply continuous_const|]. 
    apply (continuous_ext (fun t => (t + Rabs t) / 2)). { intros t. unfold Rmax, Rabs. destruct (Rle_dec 0 t), (Rcase_abs t); lra. }
    apply (continuous_mult (K := R_AbsRing)); [|apply continuous_const]. apply (continuous_plus (V := R_NormedModule)); [apply continuous_id|apply continuous_Rabs].
  - apply (ex_derive_continuous (K := R_AbsRing) (V := R_NormedModule)). exists (/ (eps + Rmax 0 v)). apply is_derive_Reals, derivable_pt_lim_ln. pose proof (Rmax_l 0 v). lra.
Qed.
Section Cts.
  Context {X : Type} (L : list X) (S : (X -> R) -> Prop) (x : X -> R).
  Lemma cts_comp (g : R -> R) f : continuous g (f x) -> cts L S x f -> cts L S x (fun y => g (f y)).
  Proof. intros Hg Hf. exact (filterlim_comp _ _ _ f g _ _ _ Hf Hg). Qed.
End Cts.
Lemma cts_soft sp K B ns St x eps w : let osh := [sp; K; B] in let csh := osh ++ ns in 0 < eps -> cts (crds csh osh) St x (fun y => soft_entropy osh eps w (o_of osh y)).
Proof.
  intros osh csh He. unfold soft_entropy. apply cts_opp, cts_sum. intros i Hi. apply in_indices in Hi. pose proof (cts_o sp K B ns St x i Hi) as Ho. fold osh in Ho. fold csh in Ho.
  pose proof (cts_minus _ St x _ _ (cts_const (crds csh osh) St x w) Ho) as Hw.
  apply cts_plus; apply cts_mult; try assumption; [apply (cts_comp _ St x (fun t => ln (eps + Rmax 0 t)) _ (ctn_ln eps _ He) Ho)|apply (cts_comp _ St x (fun t => ln (eps + Rmax 0 t)) _ (ctn_ln eps _ He) Hw)].
Qed.

Lemma free_unfold qr cqr xcd pb T p f e h : free_energy_of qr cqr xcd pb T p = Ok (f, (e, h)) <-> objective qr cqr xcd pb p = Ok e /\ get_entropy qr pb p = Ok h /\ f = e - T * h.
Proof.
  unfold free_energy_of. split.
  - intros H. destruct (objective qr cqr xcd pb p) as [e1|]; cbn [bind] in H; [|discriminate]. destruct (get_entropy qr pb p) as [h1|]; cbn [bind] in H; [|discriminate]. injection H as <- <- <-. auto.
  - intros (-> & -> & ->). reflexivity.
Qed.
Lemma entropy_of qr pb p occ S K B : get_occupation qr pb p = Ok occ -> tshape occ = [S; K; B] -> exists h, get_entropy qr pb p = Ok h /\ fermi_dirac occ (pb_eps pb) = Ok h.
Proof. intros Eo So. unfold get_entropy. rewrite Eo. cbn [bind]. rewrite (fermi_dirac_eq occ _ _ _ _ So). eexists. split; reflexivity. Qed.

(** What the two drivers have in common. *)
Section Run.
  Variables (qr : tensor R -> tensor R) (cqr : tensor C -> tensor C) (xcd : xcdens) (pb : problem) (p0 : params) (F : tensor C -> tensor R -> R) (N : R).
  Local Notation sp := (num_spin (pb_restricted pb)). Local Notation K := (length (pb_k pb)). Local Notation B := (pb_bands pb). Local Notation ns := (tshape (pb_mask pb)).
  Local Notation osh := [sp; K; B]. Local Notation csh := ([sp; K; B] ++ ns). Local Notation w := ((3 - INR sp) / INR K).
  Hypothesis HF : forall (St : (crd -> R) -> Prop) x, St x -> (forall y, St y -> forall i, inb i osh -> 0 <= tget (o_of osh y) i) -> cts (crds csh osh) St x (fun y => F (c_of csh y) (o_of osh y)).
  Hypothesis H0 : reachable pb p0 p0.
  Hypothesis RS : forall p, reachable pb p0 p -> exists co occ, get_occupation qr pb p = Ok occ /\ electron_state sp K B (pb_mask pb) N co occ /\ objective qr cqr xcd pb p = Ok (F co occ).
  Hypothesis RD : forall p co occ, reachable pb p0 p -> basis_orbitals sp K B (pb_mask pb) co -> get_occupation qr pb p = Ok occ -> exists p', reachable pb p0 p' /\ get_occupation qr pb p' = Ok occ /\ objective qr cqr xcd pb p' = Ok (F co occ).
  Hypothesis RW : forall p occ, reachable pb p0 p -> get_occupation qr pb p = Ok occ -> within 0 w occ.
  Hypothesis He : 0 < pb_eps pb.

  Lemma free_value p occ e : reachable pb p0 p -> get_occupation qr pb p = Ok occ -> tshape occ = osh -> objective qr cqr xcd pb p = Ok e ->
    forall T, exists h, free_energy_of qr cqr xcd pb T p = Ok (e - T * h, (e, h)) /\ h = soft_entropy osh (pb_eps pb) w occ.
  Proof.
    intros Hre Eo So Hob T. destruct (entropy_of qr pb p occ _ _ _ Eo So) as (h & Eh & Fh). exists h. split; [apply free_unfold; auto|]. apply (soft_eq occ _ _ _ _ h So (RW p occ Hre Eo) Fh).
  Qed.

  Lemma run_free T : exists m co occ, limit_occupation osh (described qr pb p0) occ /\ free_bound qr cqr xcd pb p0 T m /\ electron_state sp K B (pb_mask pb) N co occ /\
    (described qr pb p0 occ -> exists p e h, reachable pb p0 p /\ free_energy_of qr cqr xcd pb T p = Ok (m, (e, h))).
  Proof.
    set (Ft := fun co occ => F co occ - T * soft_entropy osh (pb_eps pb) w occ).
    set (obj := fun p => do x <- free_energy_of qr cqr xcd pb T p; Ok (fst x)).
    assert (OI : forall p f, obj p = Ok f <-> exists e h, free_energy_of qr cqr xcd pb T p = Ok (f, (e, h))).
    { intros p f. unfold obj. destruct (free_energy_of qr cqr xcd pb T p) as [[f' [e h]]|]; cbn [bind fst]; split.
      - intros E. injection E as <-. exists e, h. reflexivity.
      - intros (e' & h' & E). injection E as <- _ _. reflexivity.
      - discriminate.
      - intros (e' & h' & E). discriminate. }
    destruct (infimum_obj obj Ft N qr pb p0) as (co & occ & H1 & H2 & H3 & H4 & H5).
    - intros St x Sx Po. unfold Ft. apply cts_minus; [apply HF; assumption|]. apply cts_mult; [apply cts_const|apply cts_soft, He].
    - exact H0.
    - intros p Hre. destruct (RS p Hre) as (co & occ & Eo & Es & Hob). exists co, occ. split; [exact Eo|]. split; [exact Es|]. destruct (free_value p occ _ Hre Eo (proj1 (proj2 Es)) Hob T) as (h & Ef & Eh).
      apply OI. exists (F co occ), h. rewrite Ef. unfold Ft. rewrite <- Eh. reflexivity.
    - intros p co occ Hre Hbo Eo. destruct (RS p Hre) as (_ & o2 & Eo2 & (_ & So & _) & _). rewrite Eo in Eo2. injection Eo2 as <-. destruct (RD p co occ Hre Hbo Eo) as (p' & Hre' & Eo' & Hob). exists p'. split; [exact Hre'|].
      destruct (free_value p' occ _ Hre' Eo' So Hob T) as (h & Ef & Eh). apply OI. exists (F co occ), h. rewrite Ef. unfold Ft. rewrite <- Eh. reflexivity.
    - exists (Ft co occ), co, occ. split; [exact H2|]. split; [split|split; [exact H1|]].
      + intros p Hre. destruct (H3 p Hre) as (f & Ef & Hm). apply OI in Ef. destruct Ef as (e & h & Ef). exists f, e, h. auto.
      + intros d Hd. destruct (H4 d Hd) as (p & f & Hre & Ef & Hm). apply OI in Ef. destruct Ef as (e & h & Ef). exists p, f, e, h. auto.
      + intros Hd. destruct (H5 Hd) as (p & Hre & Ef). apply OI in Ef. destruct Ef as (e & h & Ef). exists p, e, h. auto.
  Qed.

  (** Energies at a temperature differ from the lowest energy by no more than the temperature times
      the range of the entropy. *)
  Lemma run_error T p p' d f e h f' e' h' : (1 <= K)%nat -> 0 <= T -> reachable pb p0 p -> reachable pb p0 p' -> free_energy_of qr cqr xcd pb T p = Ok (f, (e, h)) -> free_energy_of qr cqr xcd pb T p' = Ok (f', (e', h')) ->
    f <= f' + d -> e <= e' + d + T * (2 * INR B * ln 2).
  Proof.
    intros HK HT Hp Hp' Ef Ef' Hd. apply free_unfold in Ef. apply free_unfold in Ef'. destruct Ef as (_ & Eh & ->). destruct Ef' as (_ & Eh' & ->).
    destruct (RS p Hp) as (_ & occ & Eo & (_ & So & _) & _). destruct (RS p' Hp') as (_ & occ' & Eo' & (_ & So' & _) & _).
    destruct (entropy_of qr pb p occ _ _ _ Eo So) as (h1 & E1 & F1). rewrite Eh in E1. injection E1 as <-. destruct (entropy_of qr pb p' occ' _ _ _ Eo' So') as (h1 & E1 & F1'). rewrite Eh' in E1. injection E1 as <-.
    assert (Hs : (sp = 1 \/ sp = 2)%nat) by (destruct (pb_restricted pb); [left|right]; reflexivity).
    pose proof (entropy_range sp K B (pb_eps pb) occ occ' h h' Hs HK He So So' (RW p occ Hp Eo) (RW p' occ' Hp' Eo') F1 F1'). nra.
  Qed.
End Run.

(** Minima at two temperatures. *)
Lemma free_order qr cqr xcd pb p0 T T' p p' f e h f' e' h' : T < T' -> lowest_free qr cqr xcd pb p0 T p -> lowest_free qr cqr xcd pb p0 T' p' ->
  free_energy_of qr cqr xcd pb T p = Ok (f, (e, h)) -> free_energy_of qr cqr xcd pb T' p' = Ok (f', (e', h')) ->
  h <= h' /\ (0 <= T -> e <= e') /\ f - (T' - T) * h' <= f' <= f - (T' - T) * h.
Proof.
  intros HT (Hp & f1 & e1 & h1 & Ef1 & M1) (Hp' & f2 & e2 & h2 & Ef2 & M2) Ef Ef'. rewrite Ef in Ef1. injection Ef1 as <- <- <-. rewrite Ef' in Ef2. injection Ef2 as <- <- <-.
  destruct (M1 p' Hp') as (f3 & e3 & h3 & Ef3 & L1). destruct (M2 p Hp) as (f4 & e4 & h4 & Ef4 & L2).
  apply free_unfold in Ef, Ef', Ef3, Ef4. destruct Ef as (E1 & E2 & ->), Ef' as (E1' & E2' & ->), Ef3 as (E3 & E3' & ->), Ef4 as (E4 & E4' & ->).
  rewrite E3 in E1'. rewrite E3' in E2'. rewrite E4 in E1. rewrite E4' in E2. injection E1' as ->. injection E2' as ->. injection E1 as ->. injection E2 as ->.
  assert (Hh : h <= h') by nra. split; [exact Hh|]. split; [intros; nra|]. split; nra.
Qed.
