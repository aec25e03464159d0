(** The norm-conserving band driver. *)
From Coq Require Import Reals Lra Lia.
From Coquelicot Require Import Coquelicot.
From Coq Require Import Ascii String List Arith ZArith Bool.
From Verif Require Import Base Sums Tensor DFT GridModel PadModel PadProofs Lin3 VecModel VecProofs PwModel PwSpec PwProofs BraketModel BraketSpec BraketProofs XcModel EnergyModel EnergySpec EnergyProofs ShiftProofs HamModel HamSpec HamProofs HamProofs2 HamProofs3.
From Verif Require Import OccModel OccSpec EwaldModel LocModel LocSpec LocProofs2 NlocModel NlocSpec NlocProofs NlocProofs2 NlocProofs4 CalcModel CalcSpec CalcProofs2 CalcProofs3 DrvModel DrvSpec DrvProofs2 DrvProofs3 DrvProofs4 TotalProofs.
From Verif Require Import EigSpec EigProofs BndModel BndSpec BndProofs BndProofs2 BndProofs3.
Import ListNotations.
Local Open Scope R_scope.

Lemma mult_combines ns vol B B' c c' w w' lb lb' T (V : list nat -> C) i j : combines ns B B' c c' lb lb' T ->
  (forall b x, inb x ns -> tget w (lb b ++ x) = psi ns vol c (lb b) x) -> (forall b x, inb x ns -> tget w' (lb' b ++ x) = psi ns vol c' (lb' b) x) -> (i < B')%nat -> (j < B')%nat ->
  mult_element ns vol w' V (lb' i) (lb' j) = compress B (fun b b' => mult_element ns vol w V (lb b) (lb b')) T i j.
Proof.
  intros H Hw Hw' Hi Hj. unfold mult_element. rewrite <- compress_scal. f_equal. rewrite <- element_compress. apply sumC_ext. intros x Hx. apply in_indices in Hx.
  rewrite !Hw' by assumption. rewrite !(psi_combines ns vol B B' c c' lb lb' T) by assumption.
  f_equal; [f_equal; f_equal|]; apply sumC_ext; intros b _; rewrite Hw by assumption; reflexivity.
Qed.
Lemma proj_combines ns vol nb nm B B' c c' nl lb lb' T i j : combines ns B B' c c' lb lb' T -> (i < B')%nat -> (j < B')%nat ->
  proj_element ns vol nb nm c' nl (lb' i) (lb' j) = compress B (fun b b' => proj_element ns vol nb nm c nl (lb b) (lb b')) T i j.
Proof.
  intros H Hi Hj. unfold proj_element. rewrite <- compress_scal. f_equal. rewrite <- (compress_sum (seq 0 nb)). apply sumC_ext. intros be _.
  set (F := fun b m => sumC (indices ns) (fun g => tget c (lb b ++ g) * tget nl ([0%nat; be; m] ++ g))%C).
  assert (E : forall x m, (x < B')%nat -> sumC (indices ns) (fun g => tget c' (lb' x ++ g) * tget nl ([0%nat; be; m] ++ g))%C = sumC (seq 0 B) (fun b => F b m * T b x)%C).
  { intros x m Hx. unfold F. rewrite (sumC_ext (indices ns) _ (fun g => sumC (seq 0 B) (fun b => tget c (lb b ++ g) * tget nl ([0%nat; be; m] ++ g) * T b x)%C)).
    - rewrite sumC_swap. apply sumC_ext. intros b _. apply sumC_scal_r.
    - intros g Hg. apply in_indices in Hg. rewrite H by assumption. rewrite <- sumC_scal_r. apply sumC_ext. intros; ring. }
  rewrite (sumC_ext (seq 0 nm) _ (fun m => Cconj (sumC (seq 0 B) (fun b => F b m * T b i)) * RtoC 1 * sumC (seq 0 B) (fun b => F b m * T b j))%C).
  - rewrite element_compress. apply compress_ext. intros x y _ _. apply sumC_ext. intros m _. fold (F x m) (F y m). ring.
  - intros m _. rewrite !E by assumption. ring.
Qed.

Lemma hermitian_part_compress n A Q i j : hermitian_part (compress n A Q) i j = compress n (hermitian_part A) Q i j.
Proof.
  unfold hermitian_part. rewrite <- compress_scal. f_equal. rewrite <- compress_plus. f_equal. unfold compress. rewrite Cconj_sum, sumC_swap. apply sumC_ext. intros g _. rewrite Cconj_sum.
  apply sumC_ext. intros g' _. rewrite !Cconj_mult, Cconj_conj. ring.
Qed.
Lemma hermitian_part_ext n A A' : (forall i j, (i < n)%nat -> (j < n)%nat -> A i j = A' i j) -> forall i j, (i < n)%nat -> (j < n)%nat -> hermitian_part A i j = hermitian_part A' i j.
Proof. intros H i j Hi Hj. unfold hermitian_part. rewrite !H by assumption. reflexivity. Qed.

(** One k-point of the norm-conserving driver. *)
Lemma nc_point_q cqr xcd ev bp V nlk sp' nb nm hk n1 n2 n3 p k nl : let ns := [n1; n2; n3] in let n := waves bp in let B := bp_bands bp in
  complex_qr cqr -> eigvalsh_ok ev -> g_vectors (cr_cell (bp_crystal bp)) ns = Ok (bp_G bp) -> m3det (cr_cell (bp_crystal bp)) <> 0 -> tshape (bp_mask bp) = ns -> 0 < bp_vol bp -> gridpos ns ->
  tshape (bp_dens bp) = sp' :: ns -> tshape V = ns -> nlk k = Ok nl -> tshape nl = [1; nb; nm]%nat ++ ns -> xc_channels xcd bp hk ->
  (1 <= hk)%nat -> (1 <= B)%nat -> (B <= n)%nat -> band_shape bp 1 p ->
  let Q c g b := tget c ([0%nat; 0%nat; b] ++ nth g (mask_positions (bp_mask bp)) []) in
  exists c e t A one, band_coeff cqr bp p = Ok c /\ nc_eig cqr xcd ev bp V nlk p k = Ok e /\ nc_trace cqr xcd bp V nlk p k = Ok t /\ nc_basis_hamiltonian xcd bp V nl k = Ok A /\ one_body c V nl (bp_G bp) k (bp_vol bp) one /\ tshape e = [hk; B] /\
    orthonormal_columns n B (Q c) /\
    (forall h, (h < hk)%nat -> spectrum B (compress n (hermitian_part (matrix_at A [0%nat; h])) (Q c)) (fun b => tget e [h; b])) /\
    t = sumR (seq 0 hk) (fun h => sumR (seq 0 B) (fun b => tget e [h; b])) - (INR hk - 1) * one.
Proof.
  intros ns n B Hq Hev HG Hdet Sm Hvol Hpos Sd SV Hnl Sn (vxc & Ex & Sx) Hhk HB1 HB (S1 & S2) Qf.
  assert (SG : tshape (bp_G bp) = ns) by (apply (vector_grid_shape _ _ _ _ HG)). rewrite SG in Sx.
  assert (Hz0 : forall x, inb x ns -> is_origin x = false -> Lin3.norm2 (tget (bp_G bp) x) <> 0).
  { intros x Hx Ho. apply (g_nonzero (cr_cell (bp_crystal bp)) n1 n2 n3 (bp_G bp)); assumption. }
  destruct (nc_value xcd (bp_dens bp) V nl (bp_G bp) k (bp_vol bp) (bp_xc bp) true sp' nb nm n1 n2 n3 hk vxc Sd SV Sn SG Hz0 Ex Sx Hpos) as (v & vh & Sv & Svh & Val).
  destruct (coeff_orthonormal cqr (fst p) (snd p) (bp_mask bp) _ _ _ _ Hq S1 S2 eq_refl) as (c & Hc & Sc & Ho & Hz).
  fold (waves bp) n B in Sc, Ho, Hz. rewrite Nat.min_r in Sc, Ho, Hz by lia. rewrite Sm in Sc, Ho, Hz.
  destruct (wave_grid_eq c (bp_vol bp) _ ns eq_refl Sc) as (w & Hw & _ & Gw).
  destruct (Val c 1%nat B w Sc Hw) as (M & HM & SM & VM & one & t & Hone & Ht & Eone & Et).
  set (cbm := plane_waves (bp_mask bp)). assert (Scb : tshape cbm = [1%nat; 1%nat; n] ++ ns) by (unfold cbm, plane_waves; cbn [tshape]; rewrite Sm; reflexivity).
  destruct (wave_grid_eq cbm (bp_vol bp) _ ns eq_refl Scb) as (wb & Hwb & _ & Gwb).
  destruct (Val cbm 1%nat n wb Scb Hwb) as (A & HA & _ & VA & _).
  assert (Hz' : forall b i, (b < B)%nat -> inb i ns -> tget (bp_mask bp) i = false -> tget c ([0%nat; 0%nat; b] ++ i) = RtoC 0).
  { intros b i Hb Hi Hf. apply Hz; [|exact Hi|exact Hf]. repeat constructor; assumption. }
  set (Q := fun g b => tget c ([0%nat; 0%nat; b] ++ nth g (mask_positions (bp_mask bp)) [])).
  assert (HQ : orthonormal_columns n B Q).
  { apply (mask_columns n1 n2 n3 (bp_mask bp) c B 0%nat 0%nat Sm Hz'). intros b1 b2 Hb1 Hb2. apply (Ho [0%nat; 0%nat] b1 b2); [repeat constructor; lia|exact Hb1|exact Hb2]. }
  assert (HT : combines ns n B cbm c (fun g => [0%nat; 0%nat; g]) (fun b => [0%nat; 0%nat; b]) Q).
  { intros j g Hj Hg. pose proof (mask_combines n1 n2 n3 (bp_mask bp) c [vzero] B 0%nat 0%nat 0%nat Sm Hz' j g Hj Hg) as E. exact E. }
  set (M0 := mkT [hk; B; B] (fun i => tget M (0%nat :: i))).
  assert (HMA : forall h i j, (h < hk)%nat -> (i < B)%nat -> (j < B)%nat -> matrix_at M0 [h] i j = compress n (matrix_at A [0%nat; h]) Q i j).
  { intros h i j Hh Hi Hj. unfold matrix_at at 1. cbn [M0 tget app]. rewrite VM by (try assumption; lia).
    rewrite (compress_ext n (matrix_at A [0%nat; h]) (fun x y => nc_el nl (bp_G bp) k (bp_vol bp) nb nm n1 n2 n3 vxc (tget v) (tget vh) cbm wb h [0%nat; 0%nat; x] [0%nat; 0%nat; y])).
    2:{ intros x y Hx Hy. unfold matrix_at. cbn [app]. apply VA; try assumption; lia. }
    unfold nc_el. fold ns. rewrite <- !compress_plus. f_equal; [f_equal; [f_equal|]|].
    - apply (proj_combines ns (bp_vol bp) nb nm n B cbm c nl (fun g => [0%nat; 0%nat; g]) (fun b => [0%nat; 0%nat; b]) Q); assumption.
    - apply (mult_combines ns (bp_vol bp) n B cbm c wb w (fun g => [0%nat; 0%nat; g]) (fun b => [0%nat; 0%nat; b]) Q); try assumption; intros b x _; [apply Gwb|apply Gw]; reflexivity.
    - apply (mult_combines ns (bp_vol bp) n B cbm c wb w (fun g => [0%nat; 0%nat; g]) (fun b => [0%nat; 0%nat; b]) Q); try assumption; intros b x _; [apply Gwb|apply Gw]; reflexivity.
    - apply (kinetic_combines ns n B cbm c (fun g => [0%nat; 0%nat; g]) (fun b => [0%nat; 0%nat; b]) Q); assumption. }
  assert (Heig : exists e, jnp_eigvalsh ev M0 = Ok e /\ tshape e = [hk; B] /\ forall h b, tget e [h; b] = ev B (hermitian_part (matrix_at M0 [h])) b).
  { unfold jnp_eigvalsh. cbn [M0 tshape rev app]. rewrite Nat.eqb_refl. cbn [negb]. eexists. split; [reflexivity|]. split; reflexivity. }
  destruct Heig as (e & He & Se & Ge).
  exists c, e, t, A, one. split; [exact Hc|]. split.
  { unfold nc_eig, band_coeff. rewrite Hc. cbn [bind]. rewrite Hnl. cbn [bind]. rewrite HM. cbn [bind]. rewrite SM. exact He. }
  split; [unfold nc_trace, band_coeff; rewrite Hc; cbn [bind]; rewrite Hnl; cbn [bind]; exact Ht|]. split; [exact HA|]. split; [exact Hone|]. split; [exact Se|]. split.
  - exact HQ.
  - split.
    + intros h Hh. apply (spectrum_ext B (hermitian_part (matrix_at M0 [h]))); [|apply (spectrum_values B _ _ _ (fun b _ => eq_sym (Ge h b)) (eigvalsh_spectrum ev B (matrix_at M0 [h]) Hev))].
      intros i j Hi Hj. fold Q. change (Qf c) with Q. rewrite <- hermitian_part_compress. apply (hermitian_part_ext B); [|assumption|assumption]. intros; apply HMA; assumption.
    + rewrite (sumR_ext (seq 0 hk) _ (fun h => one + sumR (seq 0 B) (fun b => Re (mult_element ns (bp_vol bp) w (fun x => tget vh x + tget vxc (h :: x))%C [0%nat; 0%nat; b] [0%nat; 0%nat; b])))).
      * rewrite sumR_plus, sumR_const, seq_length, Et, sumR_one. cbv beta. fold ns. ring.
      * intros h Hh. apply seq_in in Hh. rewrite (sumR_ext (seq 0 B) (fun b => tget e [h; b]) (ev B (hermitian_part (matrix_at M0 [h])))) by (intros b _; apply Ge).
        rewrite (eigvalsh_sum ev B _ Hev), Eone, sumR_one, <- sumR_plus. apply sumR_ext. intros b Hb. apply seq_in in Hb. unfold matrix_at. cbn [M0 tget app]. rewrite VM by (try assumption; lia). unfold nc_el. fold ns. rewrite !Re_plus. ring.
Qed.
Lemma nc_point cqr xcd ev bp V nlk sp' nb nm hk n1 n2 n3 p k nl : let ns := [n1; n2; n3] in let n := waves bp in let B := bp_bands bp in
  complex_qr cqr -> eigvalsh_ok ev -> g_vectors (cr_cell (bp_crystal bp)) ns = Ok (bp_G bp) -> m3det (cr_cell (bp_crystal bp)) <> 0 -> tshape (bp_mask bp) = ns -> 0 < bp_vol bp -> gridpos ns ->
  tshape (bp_dens bp) = sp' :: ns -> tshape V = ns -> nlk k = Ok nl -> tshape nl = [1; nb; nm]%nat ++ ns -> xc_channels xcd bp hk ->
  (1 <= hk)%nat -> (1 <= B)%nat -> (B <= n)%nat -> band_shape bp 1 p ->
  exists c e t A one, band_coeff cqr bp p = Ok c /\ nc_eig cqr xcd ev bp V nlk p k = Ok e /\ nc_trace cqr xcd bp V nlk p k = Ok t /\ nc_basis_hamiltonian xcd bp V nl k = Ok A /\ one_body c V nl (bp_G bp) k (bp_vol bp) one /\ tshape e = [hk; B] /\
    (forall h, (h < hk)%nat -> ascending B (fun b => tget e [h; b]) /\ separated n B (hermitian_part (matrix_at A [0%nat; h])) (fun b => tget e [h; b])) /\
    t = sumR (seq 0 hk) (fun h => sumR (seq 0 B) (fun b => tget e [h; b])) - (INR hk - 1) * one.
Proof.
  intros ns n B Hq Hev HG Hdet Sm Hvol Hpos Sd SV Hnl Sn Hx Hhk HB1 HB HS. destruct (nc_point_q cqr xcd ev bp V nlk sp' nb nm hk n1 n2 n3 p k nl Hq Hev HG Hdet Sm Hvol Hpos Sd SV Hnl Sn Hx Hhk HB1 HB HS) as (c & e & t & A & one & Hc & He & Ht & HA & Hone & Se & HQ & Hs & Et).
  exists c, e, t, A, one. repeat (split; [assumption|]). split; [|exact Et]. intros h Hh. pose proof (Hs h Hh) as HM. split; [exact (proj1 HM)|]. exact (separated_of n B _ _ _ _ HQ (fun i j _ _ => eq_refl) HM).
Qed.

(** The layout of the output when the potential has hk channels: the path for channel 0, then the
    path for channel 1, ... *)
Section Layout.
  Context {P Os : Type}.
  Variables (step : P -> Os -> v3 -> P * Os) (eig : P -> v3 -> tensor R) (first tune : nat).
  Lemma band_nc_hk {GS} D n path po hk B : (1 <= D)%nat -> (1 <= n)%nat -> (length path = D * n)%nat -> (1 <= B)%nat -> (1 <= hk)%nat ->
    (forall p k, tshape (eig p k) = [hk; B]) -> forall (parallel : bool) (devices : nat), D = (if parallel then devices else 1%nat) ->
    exists t, band_normcons step eig first tune (@None GS) devices parallel path po = Ok t /\ tshape t = [(hk * length path)%nat; B] /\
      forall h d j b, (h < hk)%nat -> (d < D)%nat -> (j < n)%nat -> (b < B)%nat ->
        tget t [(h * length path + (d * n + j))%nat; b] =
        tget (eig (fst (warm_start step first tune (firstn n (skipn (d * n) path)) po j)) (nth (d * n + j) path vzero)) [h; b].
  Proof.
    intros HD Hn Hl HB Hhk Hsh parallel devices HDu. unfold band_normcons. rewrite <- HDu.
    rewrite (reshape_rows_ok D n) by assumption. cbn [bind].
    destruct (pmap_ok step eig first tune D n path po _ HD Hn Hl Hsh) as (outs & Ho & Hlo & Hso & Hgo).
    rewrite Ho. cbn [bind].
    destruct (jstack_ok outs (D :: [hk; B]%nat) dT) as (e & He & Hes & Heg); [intros ->; cbn in Hlo; lia|exact Hso|].
    rewrite He. cbn [bind]. rewrite Hlo in *. rewrite Hes. cbn [last]. destruct (Nat.eqb_spec B 0); [lia|].
    assert (Ed : (nprod [n; D; hk; B] / B = hk * length path)%nat).
    { cbn [nprod]. replace (n * (D * (hk * (B * 1))))%nat with (hk * length path * B)%nat by nia. apply Nat.div_mul. lia. }
    rewrite Ed. unfold reshapeF. rewrite Hes.
    assert (Hpr : (nprod [n; D; hk; B] = nprod [hk * length path; B])%nat) by (cbn [nprod]; nia).
    rewrite Hpr, Nat.eqb_refl. eexists. split; [reflexivity|]. split; [reflexivity|].
    intros h d j b Hh Hd Hj Hb. cbn [tget].
    assert (Er : ravelF [(hk * length path)%nat; B] [(h * length path + (d * n + j))%nat; b] = ravelF [n; D; hk; B] [j; d; h; b]) by (rewrite Hl; cbn [ravelF]; nia).
    rewrite Er, unravel_ravel by (repeat constructor; lia). rewrite Heg by exact Hj. rewrite Hgo by assumption.
    rewrite blocks_nth by exact Hd. reflexivity.
  Qed.
  Lemma band_nc_iff {GS} devices (parallel : bool) path po hk B : (1 <= B)%nat -> (1 <= hk)%nat -> (forall p k, tshape (eig p k) = [hk; B]) ->
    (exists t, band_normcons step eig first tune (@None GS) devices parallel path po = Ok t) <-> exists n, (1 <= if parallel then devices else 1)%nat /\ (1 <= n)%nat /\ (length path = (if parallel then devices else 1) * n)%nat.
  Proof.
    intros HB Hhk Hsh. split.
    - intros [t Ht]. unfold band_normcons in Ht. set (D := if parallel then devices else 1%nat) in *. destruct (reshape_rows D path) as [kss|] eqn:E; [|discriminate].
      apply reshape_rows_inv in E. destruct E as (n & HD & Hl & ->). cbn [bind] in Ht. exists n. split; [exact HD|]. split; [|exact Hl].
      destruct n; [|lia]. exfalso. unfold pmap_eigenvalues in Ht. rewrite blocks_length, Nat.eqb_refl in Ht. cbn [negb] in Ht. destruct D; [lia|]. cbn in Ht. discriminate.
    - intros (n & HD & Hn & Hl). destruct (@band_nc_hk GS _ n path po hk B HD Hn Hl HB Hhk Hsh parallel devices eq_refl) as (t & Ht & _). exists t. exact Ht.
  Qed.
End Layout.

Section NCdrv.
  Context {Os PP GS : Type} (pkg : string) (read : string -> res ase_atoms) (nc us : crystal -> string -> res PP) (valence : PP -> list Z)
    (pp_local : PP -> crystal -> tensor v3 -> R -> res (tensor C)) (pp_path : PP -> crystal -> tensor v3 -> list v3 -> v3 -> res (tensor C))
    (devices : nat) (bandpath : m3 -> cval -> nat -> list v3) (gs : cfg -> res (run_output (D := tensor R))) (cqr : tensor C -> tensor C) (xcd : xcdens) (ev : nat -> (nat -> nat -> C) -> nat -> R)
    (bgrad : band_problem -> bparams -> v3 -> bparams) (alias : string -> option (cval -> list (string * cval) -> boptax Os)) (rnd : list nat -> tensor R * tensor R) (c : cfg).
  Notation calc := (nc_band pkg read nc us valence pp_local pp_path devices bandpath (@None GS) gs cqr xcd ev bgrad alias rnd c).
  Context (Hq : complex_qr cqr) (Hev : eigvalsh_ok ev) (Hrnd : pair_shape_ok rnd) (bp : band_problem) (opt : boptax Os) (pp : PP) (V : tensor C) (sp' hk : nat)
    (Hbp : nc_band_problem pkg read nc us valence bandpath gs c = Ok bp) (Hpp : create_pseudopotential pkg read nc us c = Ok pp) (HV : pp_local pp (bp_crystal bp) (bp_G bp) (bp_vol bp) = Ok V) (Hopt : create_optimizer alias c = Ok opt)
    (Hdet : m3det (cr_cell (bp_crystal bp)) <> 0) (Sd : tshape (bp_dens bp) = sp' :: tshape (bp_G bp)) (SV : tshape V = tshape (bp_G bp))
    (Hnl : forall k, exists nl nb nm, pp_path pp (bp_crystal bp) (bp_G bp) (bp_path bp) k = Ok nl /\ tshape nl = [1; nb; nm]%nat ++ tshape (bp_G bp))
    (Hk : xc_channels xcd bp hk) (Hk1 : (1 <= hk)%nat) (HB1 : (1 <= bp_bands bp)%nat) (HBn : (bp_bands bp <= waves bp)%nat).
  Let p0 := nc_band_init rnd bp.
  Let stp := band_step (bgrad bp) (snd opt).
  Let nlk := pp_path pp (bp_crystal bp) (bp_G bp) (bp_path bp).

  Lemma nc_point' p k : band_shape bp 1 p -> 
    exists nl co e t A one, nlk k = Ok nl /\ band_coeff cqr bp p = Ok co /\ nc_eig cqr xcd ev bp V nlk p k = Ok e /\ nc_trace cqr xcd bp V nlk p k = Ok t /\ nc_basis_hamiltonian xcd bp V nl k = Ok A /\ one_body co V nl (bp_G bp) k (bp_vol bp) one /\ tshape e = [hk; bp_bands bp] /\
    (forall h, (h < hk)%nat -> ascending (bp_bands bp) (fun b => tget e [h; b]) /\ separated (waves bp) (bp_bands bp) (hermitian_part (matrix_at A [0%nat; h])) (fun b => tget e [h; b])) /\
    t = sumR (seq 0 hk) (fun h => sumR (seq 0 (bp_bands bp)) (fun b => tget e [h; b])) - (INR hk - 1) * one.
  Proof.
    intros Hp. destruct (Hnl k) as (nl & nb & nm & En & Sn). destruct (setup_grids' _ _ _ _ _ _ _ _ Hbp) as (n1 & n2 & n3 & HG & Sm).
    destruct (grid_facts' bp (setup_grids' _ _ _ _ _ _ _ _ Hbp) Hdet) as (m1 & m2 & m3 & Sm' & SG & Hpos & Hvol). rewrite Sm in Sm'. injection Sm' as <- <- <-.
    exists nl. destruct (nc_point cqr xcd ev bp V nlk sp' nb nm hk n1 n2 n3 p k nl) as (co & e & t & A & one & H); try assumption; try (rewrite <- SG; assumption).
    exists co, e, t, A, one. split; [exact En|exact H].
  Qed.
  Lemma nc_unfold : calc = band_normcons stp (static [hk; bp_bands bp]%nat (nc_eig cqr xcd ev bp V nlk)) (bp_first bp) (bp_tune bp) (@None GS) devices (bp_parallel bp) (bp_path bp) (p0, fst opt p0).
  Proof.
    unfold nc_band. rewrite Hbp. cbn [bind]. rewrite Hpp. cbn [bind]. rewrite HV. cbn [bind]. cbv zeta. rewrite Hopt. cbn [bind].
    destruct (nc_point' (nc_band_init rnd bp) (nth 0 (bp_path bp) vzero) (init_shape rnd bp true Hrnd)) as (nl & co & e & t & A & one & _ & _ & He & Ht & _ & _ & Se & _). fold nlk. rewrite He, Ht. cbn [bind]. rewrite Se. reflexivity.
  Qed.
  Lemma nc_shape_at ks j : band_shape bp 1 (fst (warm_start stp (bp_first bp) (bp_tune bp) ks (p0, fst opt p0) j)).
  Proof. apply (warm_invariant (band_shape bp 1)); [intros; apply step_shape; assumption|]. apply (init_shape rnd bp true), Hrnd. Qed.
  Let D := if bp_parallel bp then devices else 1%nat.
  Lemma nc_band_energies out : calc = Ok out -> tshape out = [(hk * length (bp_path bp))%nat; bp_bands bp] /\
    forall i, (i < length (bp_path bp))%nat -> exists p nl co t A one, solved_with stp bp D (p0, fst opt p0) i p /\
      nlk (nth i (bp_path bp) vzero) = Ok nl /\ band_coeff cqr bp p = Ok co /\ nc_trace cqr xcd bp V nlk p (nth i (bp_path bp) vzero) = Ok t /\
      nc_basis_hamiltonian xcd bp V nl (nth i (bp_path bp) vzero) = Ok A /\ one_body co V nl (bp_G bp) (nth i (bp_path bp) vzero) (bp_vol bp) one /\
      (forall h, (h < hk)%nat -> ascending (bp_bands bp) (fun b => tget out [(h * length (bp_path bp) + i)%nat; b]) /\
         separated (waves bp) (bp_bands bp) (hermitian_part (matrix_at A [0%nat; h])) (fun b => tget out [(h * length (bp_path bp) + i)%nat; b])) /\
      t = sumR (seq 0 hk) (fun h => sumR (seq 0 (bp_bands bp)) (fun b => tget out [(h * length (bp_path bp) + i)%nat; b])) - (INR hk - 1) * one.
  Proof.
    rewrite nc_unfold. intros H. set (eig := static _ _) in H.
    assert (Hsh : forall p k, tshape (eig p k) = [hk; bp_bands bp]) by reflexivity.
    destruct (proj1 (@band_nc_iff _ _ stp eig (bp_first bp) (bp_tune bp) GS devices (bp_parallel bp) (bp_path bp) (p0, fst opt p0) hk (bp_bands bp) HB1 Hk1 Hsh) (ex_intro _ out H)) as (n & HD & Hn & Hl). fold D in HD, Hl.
    destruct (@band_nc_hk _ _ stp eig (bp_first bp) (bp_tune bp) GS D n (bp_path bp) (p0, fst opt p0) hk (bp_bands bp) HD Hn Hl HB1 Hk1 Hsh (bp_parallel bp) devices eq_refl) as (out' & H' & So & Go).
    rewrite H' in H. injection H as ->. split; [exact So|].
    intros i Hi. rewrite Hl in Hi.
    assert (Ei : i = (i / n * n + i mod n)%nat) by (rewrite Nat.mul_comm; apply Nat.div_mod; lia).
    assert (Hd : (i / n < D)%nat) by (apply Nat.div_lt_upper_bound; lia).
    assert (Hj : (i mod n < n)%nat) by (apply Nat.mod_upper_bound; lia).
    set (d := (i / n)%nat) in *. set (j := (i mod n)%nat) in *.
    set (p := fst (warm_start stp (bp_first bp) (bp_tune bp) (firstn n (skipn (d * n) (bp_path bp))) (p0, fst opt p0) j)).
    destruct (nc_point' p (nth i (bp_path bp) vzero) (nc_shape_at _ _)) as (nl & co & e & t & A & one & En & Hco & He & Ht & HA & Hone & Se & Hs & Et).
    assert (G : forall h b, (h < hk)%nat -> (b < bp_bands bp)%nat -> tget out [(h * length (bp_path bp) + i)%nat; b] = tget e [h; b]).
    { intros h b Hh Hb. rewrite Ei at 1. rewrite Go by assumption. fold p. rewrite <- Ei. unfold eig, static. cbn [tget]. rewrite He. reflexivity. }
    exists p, nl, co, t, A, one. split; [exists n, d, j; repeat split; assumption|]. repeat (split; [assumption|]). split.
    - intros h Hh. destruct (Hs h Hh) as [Ha Hsep]. split.
      + intros a b Hab Hb. rewrite !G by lia. apply Ha; assumption.
      + intros lam Hlam b Hb. rewrite G by assumption. apply Hsep; assumption.
    - rewrite Et. f_equal. apply sumR_ext. intros h Hh. apply seq_in in Hh. apply sumR_ext. intros b Hb. apply seq_in in Hb. symmetry. apply G; assumption.
  Qed.
  Lemma nc_band_returns : (exists out, calc = Ok out) <-> exists n, (1 <= D)%nat /\ (1 <= n)%nat /\ (length (bp_path bp) = D * n)%nat.
  Proof. rewrite nc_unfold. apply (@band_nc_iff _ _ stp _ (bp_first bp) (bp_tune bp) GS devices (bp_parallel bp) (bp_path bp) (p0, fst opt p0) hk (bp_bands bp) HB1 Hk1). reflexivity. Qed.
End NCdrv.
