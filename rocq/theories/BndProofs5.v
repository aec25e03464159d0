(** Band structures: independence of the choice of orbitals, spin channels, composition with the ground-state drivers, examples. *)
From Coq Require Import Reals Lra Lia.
From Coquelicot Require Import Coquelicot.
From Coq Require Import Ascii String List Arith ZArith Bool.
From Verif Require Import Base Sums Tensor DFT GridModel PadModel PadProofs Lin3 VecModel VecProofs PwModel PwSpec PwProofs BraketModel BraketSpec BraketProofs XcModel EnergyModel EnergySpec EnergyProofs ShiftProofs HamModel HamSpec HamProofs HamProofs2 HamProofs3.
From Verif Require Import OccModel OccSpec EwaldModel LocModel LocSpec LocProofs2 NlocModel NlocSpec NlocProofs NlocProofs2 NlocProofs4 CalcModel CalcSpec CalcProofs2 CalcProofs3 DrvModel DrvSpec DrvProofs2 DrvProofs3 DrvProofs4 TotalProofs.
From Verif Require Import EigSpec EigProofs BndModel BndSpec BndProofs BndProofs2 BndProofs3 BndProofs4 EigProofs2 XcProofs3 DrvProofs5 DrvProofs6.
Import ListNotations.
Local Open Scope R_scope.

(** * An eigenvalue routine *)
Definition eig_ev (n : nat) (H : nat -> nat -> C) : nat -> R := proj1_sig (spectrum_exists n (hermitian_part H) (hermitian_part_hermitian n H)).
Lemma eig_ev_ok : eigvalsh_ok eig_ev.
Proof.
  intros n H Hh. unfold eig_ev. destruct (spectrum_exists n (hermitian_part H) (hermitian_part_hermitian n H)) as [lam Hl]. cbn [proj1_sig].
  apply (spectrum_ext n (hermitian_part H)); [intros i j Hi Hj; apply (hermitian_part_eq n); assumption|exact Hl].
Qed.
Lemma eigvalsh_determined ev ev' n H : eigvalsh_ok ev -> eigvalsh_ok ev' -> hermitian n H -> forall b, (b < n)%nat -> ev n H b = ev' n H b.
Proof. intros He He' Hh. apply (spectrum_unique n H); [apply He|apply He']; exact Hh. Qed.

Lemma separated_ext n B A A' e : (forall i j, (i < n)%nat -> (j < n)%nat -> A i j = A' i j) -> separated n B A e -> separated n B A' e.
Proof. intros E H lam Hl b Hb. apply H; [|exact Hb]. apply (spectrum_ext n A'); [intros; symmetry; apply E; assumption|exact Hl]. Qed.
Lemma spectrum_scale n H lam a : 0 <= a -> spectrum n H lam -> spectrum n (fun i j => RtoC a * H i j)%C (fun b => a * lam b).
Proof.
  intros Ha [Hasc (V & V1 & V2 & E)]. split; [intros i j Hij Hj; apply Rmult_le_compat_l; [exact Ha|apply Hasc; assumption]|]. exists V. split; [exact V1|]. split; [exact V2|].
  intros i j Hi Hj. rewrite E, <- sumC_scal by assumption. apply sumC_ext. intros m _. rewrite RtoC_mult. ring.
Qed.
Lemma spectrum_one H : Im (H 0%nat 0%nat) = 0 -> spectrum 1 H (fun _ => Re (H 0%nat 0%nat)).
Proof.
  intros Hi. apply (spectrum_ext 1 (fun i j => if (i =? j)%nat then RtoC (Re (H 0%nat 0%nat)) else RtoC 0)).
  - intros i j Hi' Hj. replace i with 0%nat by lia. replace j with 0%nat by lia. cbn. apply injective_projections; [reflexivity|symmetry; exact Hi].
  - apply (spectrum_diagonal 1 (fun _ => Re (H 0%nat 0%nat))). intros i j _ _. lra.
Qed.

(** * Independence of the choice of orbitals *)
Section Gauge.
  Context (xcd : xcdens) (ev : nat -> (nat -> nat -> C) -> nat -> R) (pos : list v3) (ch : list R) (dens : tensor R) (G : tensor v3) (vol : R) (xt : string) (ks : bool) (hk n1 n2 n3 : nat) (v : tensor C).
  Let ns := [n1; n2; n3].
  Context (Hev : eigvalsh_ok ev) (HG : tshape G = ns) (Hv : effective_sum xcd dens pos ch G vol xt ks = Ok v) (Sv : tshape v = hk :: ns).
  Lemma matrix_hermitian_at c kpts sp B s k M : tshape c = [sp; length kpts; B] ++ ns -> hamiltonian_matrix xcd c pos ch dens G kpts vol xt ks = Ok M ->
    (s < sp)%nat -> (k < length kpts)%nat -> hermitian B (matrix_at M [s; k]) /\ ((0 < B)%nat -> tshape M = [sp; length kpts; B; B]).
  Proof.
    intros Sc HM Hs Hk. destruct (wave_grid_eq c vol _ ns eq_refl Sc) as (w & Hw & _).
    destruct (matrix_value xcd c pos ch dens G kpts vol xt ks sp B hk n1 n2 n3 v w Sc HG Hv Sv Hw) as (M1 & E1 & S1 & V1). rewrite HM in E1. injection E1 as <-.
    split; [|exact S1]. intros i j Hi Hj. unfold matrix_at. cbn [app]. rewrite !V1 by assumption. apply hel_hermitian.
  Qed.
  Lemma energies_combine c c' kpts kpts' sp sp' B B' s k s' k' T M M' e' :
    tshape c = [sp; length kpts; B] ++ ns -> tshape c' = [sp'; length kpts'; B'] ++ ns -> (0 < B')%nat ->
    hamiltonian_matrix xcd c pos ch dens G kpts vol xt ks = Ok M -> hamiltonian_matrix xcd c' pos ch dens G kpts' vol xt ks = Ok M' -> jnp_eigvalsh ev M' = Ok e' ->
    (s < sp)%nat -> (k < length kpts)%nat -> (s' < sp')%nat -> (k' < length kpts')%nat ->
    combines ns B B' c c' (fun b => [s; k; b]) (fun b => [s'; k'; b]) T -> orthonormal_columns B B' T -> nth k kpts vzero = nth k' kpts' vzero ->
    separated B B' (matrix_at M [s; k]) (fun b => tget e' [s'; k'; b]).
  Proof.
    intros Sc Sc' HB' HM HM' He Hs Hk Hs' Hk' HT HTo Ek.
    destruct (matrix_hermitian_at c' kpts' sp' B' s' k' M' Sc' HM' Hs' Hk') as [Hh S']. specialize (S' HB').
    destruct (eigvalsh_value ev M' sp' (length kpts') B' S') as (e1 & E1 & _ & Ge). rewrite He in E1. injection E1 as <-.
    pose proof (matrix_combines xcd pos ch dens G vol xt ks hk n1 n2 n3 v HG Hv Sv c c' kpts kpts' sp sp' B B' s k s' k' T M M' Sc Sc' HM HM' Hs Hk Hs' Hk' HT Ek) as VM.
    assert (Hsp : spectrum B' (matrix_at M' [s'; k']) (ev B' (hermitian_part (matrix_at M' [s'; k'])))).
    { apply (spectrum_ext B' (hermitian_part (matrix_at M' [s'; k']))); [intros i j Hi Hj; apply (hermitian_part_eq B'); assumption|apply eigvalsh_spectrum, Hev]. }
    intros lam Hl b Hb. rewrite Ge. exact (separated_of B B' _ T _ _ HTo VM Hsp lam Hl b Hb).
  Qed.
  Lemma energies_rotate c c' kpts kpts' sp sp' B s k s' k' T M M' e e' :
    tshape c = [sp; length kpts; B] ++ ns -> tshape c' = [sp'; length kpts'; B] ++ ns ->
    hamiltonian_matrix xcd c pos ch dens G kpts vol xt ks = Ok M -> hamiltonian_matrix xcd c' pos ch dens G kpts' vol xt ks = Ok M' -> jnp_eigvalsh ev M = Ok e -> jnp_eigvalsh ev M' = Ok e' ->
    (s < sp)%nat -> (k < length kpts)%nat -> (s' < sp')%nat -> (k' < length kpts')%nat ->
    combines ns B B c c' (fun b => [s; k; b]) (fun b => [s'; k'; b]) T -> orthonormal_columns B B T -> nth k kpts vzero = nth k' kpts' vzero ->
    forall b, (b < B)%nat -> tget e' [s'; k'; b] = tget e [s; k; b].
  Proof.
    intros Sc Sc' HM HM' He He' Hs Hk Hs' Hk' HT HTo Ek b Hb.
    destruct (matrix_hermitian_at c kpts sp B s k M Sc HM Hs Hk) as [Hh S1]. specialize (S1 ltac:(lia)).
    destruct (eigvalsh_value ev M sp (length kpts) B S1) as (e1 & E1 & _ & Ge). rewrite He in E1. injection E1 as <-.
    assert (Hsp : spectrum B (matrix_at M [s; k]) (ev B (hermitian_part (matrix_at M [s; k])))).
    { apply (spectrum_ext B (hermitian_part (matrix_at M [s; k]))); [intros i j Hi Hj; apply (hermitian_part_eq B); assumption|apply eigvalsh_spectrum, Hev]. }
    rewrite Ge. apply (separated_full B (matrix_at M [s; k]) (fun b => tget e' [s'; k'; b])); [|exact Hsp|exact Hb].
    apply (energies_combine c c' kpts kpts' sp sp' B B s k s' k' T M M' e'); try assumption. lia.
  Qed.
End Gauge.

(** * Spin channels of the all-electron driver *)
Lemma basis_channels xcd bp v hk k A : band_grids bp -> m3det (cr_cell (bp_crystal bp)) <> 0 -> effective_potential xcd bp = Ok v -> tshape v = hk :: tshape (bp_G bp) -> basis_hamiltonian xcd bp k = Ok A ->
  forall i j, (i < waves bp)%nat -> (j < waves bp)%nat -> matrix_at A [0%nat] i j = sumC (seq 0 hk) (fun h => spin_hamiltonian bp v h k i j).
Proof.
  intros Hg Hd Hv Sv HA i j Hi Hj. destruct (grid_facts' bp Hg Hd) as (n1 & n2 & n3 & Sm & SG & _ & Hvol). rewrite SG in Sv.
  destruct (basis_value xcd (bp_mask bp) (cr_positions (bp_crystal bp)) (bp_charges bp) (bp_dens bp) (bp_G bp) [k] (bp_vol bp) (bp_xc bp) true hk n1 n2 n3 v Sm SG Hv Sv Hvol) as (A' & HA' & _ & VA).
  unfold basis_hamiltonian in HA. rewrite HA in HA'. injection HA' as <-. unfold matrix_at. cbn [app]. rewrite VA by (cbn [length]; try lia; assumption).
  unfold pw_element, spin_hamiltonian. rewrite SG. reflexivity.
Qed.
Lemma spin_diagonal bp v h k i : spin_hamiltonian bp v h k i i =
  RtoC ((let q := vadd (tget (bp_G bp) (nth i (mask_positions (bp_mask bp)) [])) k in dot q q / 2) + / INR (nprod (tshape (bp_G bp))) * sumR (indices (tshape (bp_G bp))) (fun x => Re (tget v (h :: x)))).
Proof.
  unfold spin_hamiltonian. rewrite Nat.eqb_refl. rewrite RtoC_plus, RtoC_mult, <- sumC_RtoC. f_equal. f_equal. apply sumC_ext. intros x _.
  rewrite phase_sub_l by reflexivity. replace (- (2 * PI * (phase (tshape (bp_G bp)) (zs (nth i (mask_positions (bp_mask bp)) [])) (zs x) - phase (tshape (bp_G bp)) (zs (nth i (mask_positions (bp_mask bp)) [])) (zs x)))) with 0 by ring.
  rewrite cis_0. ring.
Qed.
Lemma channels_equal bp v k n : (forall x, inb x (tshape (bp_G bp)) -> Re (tget v (1%nat :: x)) = Re (tget v (0%nat :: x))) -> forall i j, (i < n)%nat -> (j < n)%nat ->
  sumC (seq 0 2) (fun h => spin_hamiltonian bp v h k i j) = (RtoC 2 * spin_hamiltonian bp v 0 k i j)%C.
Proof.
  intros He i j _ _. cbn [seq sumC fold_right]. replace (spin_hamiltonian bp v 1 k i j) with (spin_hamiltonian bp v 0 k i j).
  - replace (RtoC 2) with (RtoC 1 + RtoC 1)%C by (rewrite <- RtoC_plus; f_equal; ring). ring.
  - unfold spin_hamiltonian. f_equal. f_equal. apply sumC_ext. intros x Hx. rewrite (He x) by (apply in_indices; exact Hx). reflexivity.
Qed.

(** With one plane wave, one band and two channels the reported energy is the sum of both. *)
Definition ex_wrong (xt : string) (dens : tensor R) (G : tensor v3) : band_problem :=
  BandProblem (Crystal [] [] m3id 0) G (mkT [1; 1; 1]%nat (fun _ => true)) xt dens [] 1 false 0 0 0 false.
Lemma bands_wrong lib vg xt dens cqr ev : contains "gga" xt = false -> (forall t b, In t (split_on "+" xt) -> lib t b <> None) -> tshape dens = [2; 1; 1; 1]%nat -> complex_qr cqr -> eigvalsh_ok ev ->
  exists bp v p k e s, band_grids bp /\ m3det (cr_cell (bp_crystal bp)) <> 0 /\ bp_xc bp = xt /\ bp_dens bp = dens /\ bp_restricted bp = false /\ bp_bands bp = waves bp /\ band_shape bp 2 p /\
    effective_potential (xc_density lib vg) bp = Ok v /\ tshape v = 2%nat :: tshape (bp_G bp) /\ ae_eig cqr (xc_density lib vg) ev bp p k = Ok e /\ (s < 2)%nat /\
    ~ separated (waves bp) (bp_bands bp) (spin_hamiltonian bp v s k) (fun b => tget e [s; 0%nat; b]).
Proof.
  intros Hg Hl Sd Hq Hev. destruct (vector_grid_ok (reciprocal_vectors m3id) 1 1 1 false) as [G HG]; [lia..|].
  set (bp := ex_wrong xt dens G). assert (SG : tshape G = [1; 1; 1]%nat) by apply (vector_grid_shape _ _ _ _ HG).
  assert (Hbg : band_grids bp) by (exists 1%nat, 1%nat, 1%nat; split; [exact HG|reflexivity]).
  assert (Hdet : m3det (cr_cell (bp_crystal bp)) <> 0).
  { replace (m3det (cr_cell (bp_crystal bp))) with 1 by (unfold m3det, bp, ex_wrong, m3id, cross, dot; cbn; ring). lra. }
  destruct (lda_channels lib vg xt dens [] [] G (bp_vol bp) true 2 1 1 1 (or_intror eq_refl) Hg Hl Sd SG eq_refl) as (v & Hv & Sv).
  set (P := / INR (nprod (tshape G)) * sumR (indices (tshape G)) (fun x => Re (tget v (1%nat :: x)))).
  assert (Q : exists t, t * t / 2 + P <> 0) by (destruct (Req_dec P 0) as [E|E]; [exists 1; lra|exists 0; lra]). destruct Q as (t & Ht).
  set (k := vadd (V3 t 0 0) (vscale (-1) (tget G [0; 0; 0]%nat))). set (p := (mkT [2; 1; 1; 1]%nat (fun _ => 1), mkT [2; 1; 1; 1]%nat (fun _ => 0)) : bparams).
  assert (Hp : band_shape bp 2 p) by (split; reflexivity).
  assert (Hpc : potential_channels (xc_density lib vg) bp 2) by (exists v; split; [exact Hv|cbn [bp_G bp ex_wrong]; rewrite SG; exact Sv]).
  destruct (grid_facts' bp Hbg Hdet) as (n1 & n2 & n3 & Sm & SG' & _ & Hvol). 
  destruct (ae_point cqr (xc_density lib vg) ev bp 2 2 n1 n2 n3 p k Hq Hev SG' Sm Hvol Hpc) as (e & tt & A & He & _ & HA & _ & Hs & _); [cbn; lia|cbn; lia|exact Hp|].
  exists bp, v, p, k, e, 0%nat. repeat (split; [first [assumption|reflexivity|cbn; rewrite SG; exact Sv|lia]|]).
  assert (Hw : waves bp = 1%nat) by reflexivity. rewrite Hw. cbn [bp_bands bp ex_wrong].
  destruct (Hs 0%nat ltac:(lia)) as [_ H0]. rewrite Hw in H0. change (bp_bands bp) with 1%nat in H0.
  assert (S0 : forall h, spectrum 1 (spin_hamiltonian bp v h k) (fun _ => Re (spin_hamiltonian bp v h k 0 0))) by (intros h; apply spectrum_one; rewrite spin_diagonal; reflexivity).
  assert (EA : matrix_at A [0%nat] 0%nat 0%nat = sumC (seq 0 2) (fun h => spin_hamiltonian bp v h k 0 0)).
  { apply (basis_channels (xc_density lib vg) bp v 2 k A Hbg Hdet Hv); [cbn [bp_G bp ex_wrong]; rewrite SG; exact Sv|exact HA|rewrite Hw; lia|rewrite Hw; lia]. }
  assert (SA : spectrum 1 (matrix_at A [0%nat]) (fun _ => Re (matrix_at A [0%nat] 0%nat 0%nat))).
  { apply spectrum_one. rewrite EA. cbn [seq sumC fold_right]. rewrite !spin_diagonal. cbn. ring. }
  pose proof (separated_full 1 _ _ _ 0%nat H0 SA ltac:(lia)) as E1. cbv beta in E1. intros Hbad.
  pose proof (separated_full 1 _ _ _ 0%nat Hbad (S0 0%nat) ltac:(lia)) as E2. cbv beta in E2. rewrite E1 in E2. rewrite EA in E2. cbn [seq sumC fold_right] in E2.
  assert (E3 : Re (spin_hamiltonian bp v 1 k 0 0) = 0).
  { destruct (spin_hamiltonian bp v 0 k 0 0) as [a0 b0], (spin_hamiltonian bp v 1 k 0 0) as [a1 b1]. cbn in E2 |- *. lra. }
  rewrite spin_diagonal in E3. change (Re (RtoC ?x)) with x in E3. apply Ht. rewrite <- E3. cbn [bp_G bp ex_wrong]. fold P. f_equal.
  change (nth 0 (mask_positions (bp_mask bp)) []) with [0; 0; 0]%nat. unfold k, vadd, vscale, dot. cbn [vx vy vz]. destruct (tget G [0; 0; 0]%nat) as [a b cc]. cbn [vx vy vz]. field.
Qed.

(** * Composition with the ground state *)
Lemma ae_calc_inv {Os} erfc pkg read devices qr cqr xcd grad (alias : string -> option (cval -> list (string * cval) -> optax Os)) rnd rpw c out :
  ae_calc erfc pkg read devices qr cqr xcd grad alias rnd rpw c = Ok out -> exists pb opt, ae_problem erfc pkg read devices c = Ok pb /\ create_optimizer alias c = Ok opt.
Proof. unfold ae_calc. intros H. step H pb Hpb. step H opt Hopt. eauto. Qed.
Lemma nc_calc_inv {Os PP} erfc pkg read (nc us : crystal -> string -> res PP) valence pp_local pp_nonlocal devices qr cqr xcd grad (alias : string -> option (cval -> list (string * cval) -> optax Os)) rnd rpw c out :
  nc_calc erfc pkg read nc us valence pp_local pp_nonlocal devices qr cqr xcd grad alias rnd rpw c = Ok out ->
  exists pb opt, nc_problem erfc pkg read nc us valence pp_local pp_nonlocal devices c = Ok pb /\ create_optimizer alias c = Ok opt.
Proof. unfold nc_calc. intros H. step H pb Hpb. step H opt Hopt. eauto. Qed.

Lemma ae_lda_bands {Os} erfc pkg read devices bandpath qr cqr lib vg grad (galias : string -> option (cval -> list (string * cval) -> optax Os)) grnd grpw c bp :
  reduced_qr qr -> complex_qr cqr -> shape_ok grnd -> pair_shape_ok grpw ->
  ae_band_problem pkg read bandpath (ae_calc erfc pkg read devices qr cqr (xc_density lib vg) grad galias grnd grpw) c = Ok bp ->
  (forall pb, ae_problem erfc pkg read devices c = Ok pb -> bands_fit_basis pb /\ bands_hold (pb_method pb) (pb_electrons pb) (pb_spin pb) (pb_bands pb)) ->
  (forall opt, create_optimizer galias c = Ok opt -> leaves_constants opt) ->
  m3det (cr_cell (bp_crystal bp)) <> 0 -> length (cr_charges (bp_crystal bp)) = length (cr_positions (bp_crystal bp)) ->
  contains "gga" (bp_xc bp) = false -> (forall t b, In t (split_on "+" (bp_xc bp)) -> lib t b <> None) ->
  potential_channels (xc_density lib vg) bp (num_spin (bp_restricted bp)) /\ tshape (bp_dens bp) = num_spin (bp_restricted bp) :: tshape (bp_G bp) /\
  exists pb, ae_problem erfc pkg read devices c = Ok pb /\ pb_crystal pb = bp_crystal bp /\ cell_integral (bp_vol bp) (bp_dens bp) = IZR (kept_electrons (pb_method pb) (pb_electrons pb) (pb_spin pb)).
Proof.
  intros Hq Hcq Hr Hrp Hbp Hpbs Hopts Hdet Hlen Hg Hl. pose proof (setup_grids' _ _ _ _ _ _ _ _ Hbp) as Hbg.
  destruct (setup_inv' _ _ _ _ _ _ _ _ Hbp) as (Hcr & _ & (r & kk & Hgr) & Hm & Hx & Hd & (rv & Hrv & Hres) & _).
  step Hd out Hout. injection Hd as Hd. destruct (ae_calc_inv _ _ _ _ _ _ _ _ _ _ _ _ _ Hout) as (pb & opt & Hpb & Hopt).
  destruct (Hpbs pb Hpb) as [Hfit Hhold]. destruct (ae_setup _ _ _ _ _ _ Hpb) as (Hcr' & _ & _ & (r' & Hgr') & _ & _ & _ & _ & _ & (rv' & Hrv' & Hres') & _).
  rewrite Hcr in Hcr'. injection Hcr' as Ec. rewrite Hgr in Hgr'. injection Hgr' as EG _ _. rewrite Hrv in Hrv'. injection Hrv' as <-.
  destruct (ae_density erfc pkg read devices qr cqr (xc_density lib vg) grad galias grnd grpw c pb opt out Hq Hcq Hr Hrp Hpb Hopt) as (Sd & _ & Hint & _); try assumption; [rewrite <- Ec; exact Hdet|intros _; apply Hopts, Hopt|].
  assert (Er : pb_restricted pb = bp_restricted bp) by congruence. rewrite Er, <- EG, Hd in Sd.
  split; [|split; [exact Sd|]].
  - destruct (grid_facts' bp Hbg Hdet) as (n1 & n2 & n3 & Sm & SG & _ & Hvol). rewrite SG in Sd.
    destruct (lda_channels lib vg (bp_xc bp) (bp_dens bp) (cr_positions (bp_crystal bp)) (bp_charges bp) (bp_G bp) (bp_vol bp) true (num_spin (bp_restricted bp)) n1 n2 n3) as (v & Hv & Sv); try assumption.
    + unfold num_spin. destruct (bp_restricted bp); auto.
    + unfold bp_charges. rewrite map_length. exact Hlen.
    + exists v. split; [exact Hv|]. rewrite SG. exact Sv.
  - exists pb. split; [exact Hpb|]. split; [congruence|]. rewrite <- Hd, <- Hint. unfold bp_vol, pb_vol. rewrite Ec. reflexivity.
Qed.
Lemma lda_potential lib vg xt G sp ns d : (sp = 1 \/ sp = 2)%nat -> contains "gga" xt = false -> (forall t b, In t (split_on "+" xt) -> lib t b <> None) ->
  tshape d = sp :: ns -> exists v, xc_density lib vg d G true xt = Ok v /\ tshape v = sp :: ns.
Proof.
  intros Hs Hg Hl Sd. destruct (lda_known lib _ d sp ns Hs Sd Hl) as (e & E & Se). unfold xc_density. rewrite Hg, E. cbn [bind rmap].
  unfold vxc_lda. rewrite Sd. destruct Hs as [-> | ->]; cbn [Nat.eqb orb rmap]; eexists; (split; [reflexivity|]); reflexivity.
Qed.
Lemma nc_lda_bands {Os PP} erfc pkg read (nc us : crystal -> string -> res PP) valence pp_local pp_nonlocal devices bandpath qr cqr lib vg grad (galias : string -> option (cval -> list (string * cval) -> optax Os)) grnd grpw c bp :
  reduced_qr qr -> complex_qr cqr -> shape_ok grnd -> pair_shape_ok grpw ->
  nc_band_problem pkg read nc us valence bandpath (nc_calc erfc pkg read nc us valence pp_local pp_nonlocal devices qr cqr (xc_density lib vg) grad galias grnd grpw) c = Ok bp ->
  (forall pb, nc_problem erfc pkg read nc us valence pp_local pp_nonlocal devices c = Ok pb -> bands_fit_basis pb /\ (pb_electrons pb mod 2 = pb_spin pb mod 2)%Z /\
     bands_hold (pb_method pb) (pb_electrons pb) (pb_spin pb) (pb_bands pb) /\ (fixed_occ (pb_method pb) -> pb_restricted pb = true)) ->
  (forall opt, create_optimizer galias c = Ok opt -> leaves_constants opt) ->
  m3det (cr_cell (bp_crystal bp)) <> 0 -> contains "gga" (bp_xc bp) = false -> (forall t b, In t (split_on "+" (bp_xc bp)) -> lib t b <> None) ->
  exists r, getattr c "spin_restricted" = Ok r /\ xc_channels (xc_density lib vg) bp (num_spin (truthy r)) /\ tshape (bp_dens bp) = num_spin (truthy r) :: tshape (bp_G bp) /\
  exists pb, nc_problem erfc pkg read nc us valence pp_local pp_nonlocal devices c = Ok pb /\ pb_crystal pb = bp_crystal bp /\ cell_integral (bp_vol bp) (bp_dens bp) = IZR (pb_electrons pb).
Proof.
  intros Hq Hcq Hr Hrp Hbp Hpbs Hopts Hdet Hg Hl. pose proof (setup_grids' _ _ _ _ _ _ _ _ Hbp) as Hbg.
  destruct (setup_inv' _ _ _ _ _ _ _ _ Hbp) as (Hcr & _ & (r & kk & Hgr) & Hm & Hx & Hd & (rv & Hrv & _) & _).
  step Hd out Hout. injection Hd as Hd. destruct (nc_calc_inv _ _ _ _ _ _ _ _ _ _ _ _ _ _ _ _ _ _ Hout) as (pb & opt & Hpb & Hopt).
  destruct (Hpbs pb Hpb) as (Hfit & Hpar & Hhold & Hfx). destruct (nc_setup _ _ _ _ _ _ _ _ _ _ _ Hpb) as (Hcr' & _ & (r' & Hgr') & _ & _ & _ & _ & _ & (rv' & Hrv' & Hres') & _).
  rewrite Hcr in Hcr'. injection Hcr' as Ec. rewrite Hgr in Hgr'. injection Hgr' as EG _ _. rewrite Hrv in Hrv'. injection Hrv' as <-.
  destruct (nc_density erfc pkg read nc us valence pp_local pp_nonlocal devices qr cqr (xc_density lib vg) grad galias grnd grpw c pb opt out Hq Hcq Hr Hrp Hpb Hopt) as (Sd & _ & Hint & _); try assumption;
    [rewrite <- Ec; exact Hdet|intros h; split; [apply Hopts, Hopt|apply Hfx, h]|].
  rewrite Hres', <- EG, Hd in Sd. exists rv. split; [exact Hrv|]. split; [|split; [exact Sd|]].
  - destruct (grid_facts' bp Hbg Hdet) as (n1 & n2 & n3 & Sm & SG & _ & Hvol). rewrite SG in Sd.
    destruct (lda_potential lib vg (bp_xc bp) (bp_G bp) (num_spin (truthy rv)) [n1; n2; n3] (bp_dens bp)) as (v & Hv & Sv); try assumption.
    + unfold num_spin. destruct (truthy rv); auto.
    + exists v. split; [exact Hv|]. rewrite SG. exact Sv.
  - exists pb. split; [exact Hpb|]. split; [congruence|]. rewrite <- Hd, <- Hint. unfold bp_vol, pb_vol. rewrite Ec. reflexivity.
Qed.
