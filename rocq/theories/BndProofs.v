(** Hamiltonian matrices of combined orbitals, and the energies at one k-point. *)
From Coq Require Import Reals Lra Lia.
From Coquelicot Require Import Coquelicot.
From Coq Require Import Ascii String List Arith ZArith Bool.
From Verif Require Import Base Sums Tensor DFT GridModel PadModel PadProofs Lin3 VecModel VecProofs PwModel PwSpec PwProofs BraketModel XcModel EnergyModel HamModel HamSpec HamProofs HamProofs2 HamProofs3.
From Verif Require Import OccModel EwaldModel LocModel NlocModel CalcModel CalcSpec CalcProofs2 CalcProofs3 DrvModel DrvSpec DrvProofs2 DrvProofs3 TotalProofs.
From Verif Require Import EigSpec EigProofs BndModel BndSpec.
Import ListNotations.
Local Open Scope R_scope.

(** * Combinations of orbitals *)
Lemma compress_scal B a A T i j : (a * compress B A T i j)%C = compress B (fun x y => a * A x y)%C T i j.
Proof. unfold compress. rewrite <- sumC_scal. apply sumC_ext. intros g _. rewrite <- sumC_scal. apply sumC_ext. intros; ring. Qed.
Lemma compress_plus B A A' T i j : (compress B A T i j + compress B A' T i j)%C = compress B (fun x y => A x y + A' x y)%C T i j.
Proof. unfold compress. rewrite <- sumC_plus. apply sumC_ext. intros g _. rewrite <- sumC_plus. apply sumC_ext. intros; ring. Qed.
Lemma compress_sum {X} (l : list X) B (A : X -> nat -> nat -> C) T i j : sumC l (fun h => compress B (A h) T i j) = compress B (fun x y => sumC l (fun h => A h x y)) T i j.
Proof.
  unfold compress. rewrite sumC_swap. apply sumC_ext. intros g _. rewrite sumC_swap. apply sumC_ext. intros g' _.
  rewrite sumC_scal_r, sumC_scal. reflexivity.
Qed.
Lemma compress_ext B A A' T i j : (forall x y, (x < B)%nat -> (y < B)%nat -> A x y = A' x y) -> compress B A T i j = compress B A' T i j.
Proof.
  intros H. unfold compress. apply sumC_ext. intros g Hg. apply seq_in in Hg. apply sumC_ext. intros g' Hg'. apply seq_in in Hg'. rewrite H by assumption. reflexivity.
Qed.
Lemma element_compress {X} (l : list X) B (z : X -> C) (a : nat -> X -> C) T i j :
  sumC l (fun g => Cconj (sumC (seq 0 B) (fun b => a b g * T b i)) * z g * sumC (seq 0 B) (fun b => a b g * T b j))%C
  = compress B (fun b b' => sumC l (fun g => Cconj (a b g) * z g * a b' g)%C) T i j.
Proof.
  rewrite (sumC_ext l _ (fun g => compress B (fun b b' => Cconj (a b g) * z g * a b' g)%C T i j)); [apply (compress_sum l)|].
  intros g _. unfold compress. rewrite Cconj_sum, <- Cmult_assoc, (Cmult_comm (z g)), Cmult_assoc, sumC_mult, <- sumC_scal_r. apply sumC_ext. intros b _.
  rewrite <- sumC_scal_r. apply sumC_ext. intros b' _. rewrite Cconj_mult. ring.
Qed.

Lemma psi_combines ns vol B B' c c' lb lb' T j x : combines ns B B' c c' lb lb' T -> (j < B')%nat ->
  psi ns vol c' (lb' j) x = sumC (seq 0 B) (fun b => psi ns vol c (lb b) x * T b j)%C.
Proof.
  intros H Hj. unfold psi, idft.
  rewrite (sumC_ext (indices ns) _ (fun g => sumC (seq 0 B) (fun b => T b j * (tget c (lb b ++ g) * cis (2 * PI * phase ns (zs g) (zs x))%R))%C)).
  - rewrite sumC_swap, <- !sumC_scal. apply sumC_ext. intros b _. rewrite sumC_scal. ring.
  - intros g Hg. apply in_indices in Hg. rewrite H by assumption. rewrite <- sumC_scal_r. apply sumC_ext. intros; ring.
Qed.
Lemma kinetic_combines ns B B' c c' lb lb' T G q i j : combines ns B B' c c' lb lb' T -> (i < B')%nat -> (j < B')%nat ->
  kinetic_element ns c' G q (lb' i) (lb' j) = compress B (fun b b' => kinetic_element ns c G q (lb b) (lb b')) T i j.
Proof.
  intros H Hi Hj. unfold kinetic_element. rewrite <- element_compress. apply sumC_ext. intros g Hg. apply in_indices in Hg. rewrite !H by assumption. reflexivity.
Qed.
Lemma potential_combines ns vol B B' c c' w w' lb lb' T (V : list nat -> R) i j : combines ns B B' c c' lb lb' T ->
  (forall b x, inb x ns -> tget w (lb b ++ x) = psi ns vol c (lb b) x) -> (forall b x, inb x ns -> tget w' (lb' b ++ x) = psi ns vol c' (lb' b) x) -> (i < B')%nat -> (j < B')%nat ->
  potential_element ns vol V w' (lb' i) (lb' j) = compress B (fun b b' => potential_element ns vol V w (lb b) (lb b')) T i j.
Proof.
  intros H Hw Hw' Hi Hj. unfold potential_element. rewrite <- compress_scal. f_equal. rewrite <- element_compress. apply sumC_ext. intros x Hx. apply in_indices in Hx.
  rewrite !Hw' by assumption. rewrite !(psi_combines ns vol B B' c c' lb lb' T) by assumption.
  f_equal; [f_equal; f_equal|]; apply sumC_ext; intros b _; rewrite Hw by assumption; reflexivity.
Qed.

(** Matrices of the all-electron Hamiltonian *)
Section Combine.
  Context (xcd : xcdens) (pos : list v3) (ch : list R) (dens : tensor R) (G : tensor v3) (vol : R) (xt : string) (ks : bool) (hk n1 n2 n3 : nat) (v : tensor C).
  Let ns := [n1; n2; n3].
  Context (HG : tshape G = ns) (Hv : effective_sum xcd dens pos ch G vol xt ks = Ok v) (Sv : tshape v = hk :: ns).

  Lemma hel_combines c c' w w' kpts kpts' sp sp' B B' s k s' k' T i j :
    tshape c = [sp; length kpts; B] ++ ns -> tshape c' = [sp'; length kpts'; B'] ++ ns -> wave_grid c vol = Ok w -> wave_grid c' vol = Ok w' ->
    combines ns B B' c c' (fun b => [s; k; b]) (fun b => [s'; k'; b]) T -> nth k kpts vzero = nth k' kpts' vzero -> (i < B')%nat -> (j < B')%nat ->
    hel c' G kpts' vol hk n1 n2 n3 v w' s' k' i j = compress B (hel c G kpts vol hk n1 n2 n3 v w s k) T i j.
  Proof.
    intros Sc Sc' Hw Hw' HT Ek Hi Hj. unfold hel. fold ns. rewrite <- compress_sum. apply sumC_ext. intros h _. unfold h_element. rewrite <- compress_plus, <- Ek.
    destruct (wave_grid_eq c vol _ ns eq_refl Sc) as (u & Hu & _ & Gu). rewrite Hw in Hu. injection Hu as <-.
    destruct (wave_grid_eq c' vol _ ns eq_refl Sc') as (u & Hu & _ & Gu'). rewrite Hw' in Hu. injection Hu as <-.
    f_equal.
    - apply (kinetic_combines ns B B' c c' (fun b => [s; k; b]) (fun b => [s'; k'; b]) T); assumption.
    - apply (potential_combines ns vol B B' c c' w w' (fun b => [s; k; b]) (fun b => [s'; k'; b]) T); try assumption; intros b x _; [apply Gu|apply Gu']; reflexivity.
  Qed.

  Lemma matrix_combines c c' kpts kpts' sp sp' B B' s k s' k' T M M' :
    tshape c = [sp; length kpts; B] ++ ns -> tshape c' = [sp'; length kpts'; B'] ++ ns ->
    hamiltonian_matrix xcd c pos ch dens G kpts vol xt ks = Ok M -> hamiltonian_matrix xcd c' pos ch dens G kpts' vol xt ks = Ok M' ->
    (s < sp)%nat -> (k < length kpts)%nat -> (s' < sp')%nat -> (k' < length kpts')%nat ->
    combines ns B B' c c' (fun b => [s; k; b]) (fun b => [s'; k'; b]) T -> nth k kpts vzero = nth k' kpts' vzero ->
    forall i j, (i < B')%nat -> (j < B')%nat -> matrix_at M' [s'; k'] i j = compress B (matrix_at M [s; k]) T i j.
  Proof.
    intros Sc Sc' HM HM' Hs Hk Hs' Hk' HT Ek i j Hi Hj.
    destruct (wave_grid_eq c vol _ ns eq_refl Sc) as (w & Hw & _). destruct (wave_grid_eq c' vol _ ns eq_refl Sc') as (w' & Hw' & _).
    destruct (matrix_value xcd c pos ch dens G kpts vol xt ks sp B hk n1 n2 n3 v w Sc HG Hv Sv Hw) as (M1 & E1 & _ & V1). rewrite HM in E1. injection E1 as <-.
    destruct (matrix_value xcd c' pos ch dens G kpts' vol xt ks sp' B' hk n1 n2 n3 v w' Sc' HG Hv Sv Hw') as (M2 & E2 & _ & V2). rewrite HM' in E2. injection E2 as <-.
    unfold matrix_at at 1. cbn [app]. rewrite V2 by assumption. rewrite (hel_combines c c' w w' kpts kpts' sp sp' B B' s k s' k' T) by assumption.
    apply compress_ext. intros x y Hx Hy. unfold matrix_at. cbn [app]. rewrite V1 by assumption. reflexivity.
  Qed.

  (** Coefficients on the mask are combinations of the plane waves of the mask. *)
  Lemma mask_combines mask c kpts B s k k' : tshape mask = ns ->
    (forall b i, (b < B)%nat -> inb i ns -> tget mask i = false -> tget c ([s; k; b] ++ i) = RtoC 0) ->
    combines ns (length (mask_positions mask)) B (cb mask kpts n1 n2 n3) c (fun g => [0%nat; k'; g]) (fun b => [s; k; b]) (fun g b => tget c ([s; k; b] ++ nth g (mask_positions mask) [])).
  Proof.
    intros Hm Hz b x Hb Hx. cbv beta.
    assert (Ecb : forall g, tget (cb mask kpts n1 n2 n3) ([0%nat; k'; g] ++ x) = if list_eq_dec Nat.eq_dec x (nth g (mask_positions mask) []) then RtoC 1 else RtoC 0) by reflexivity.
    destruct (tget mask x) eqn:Em.
    - assert (Hin : In x (mask_positions mask)) by (apply mask_positions_in; rewrite Hm; auto).
      apply (In_nth _ _ []) in Hin. destruct Hin as (g0 & Hg0 & Eg0). rewrite (sumC_single _ g0).
      + rewrite Ecb. destruct (list_eq_dec _ _ _) as [_|N]; [|congruence]. rewrite Cmult_1_l, Eg0. reflexivity.
      + apply seq_NoDup.
      + apply seq_in. exact Hg0.
      + intros g Hg Hne. apply seq_in in Hg. rewrite Ecb. destruct (list_eq_dec _ _ _) as [E|_]; [|ring].
        exfalso. apply Hne. apply (p_inj mask); [exact Hg|exact Hg0|congruence].
    - rewrite Hz by assumption. symmetry. apply sumC_zero. intros g Hg. apply seq_in in Hg. rewrite Ecb. destruct (list_eq_dec _ _ _) as [E|_]; [|ring].
      exfalso. assert (Hin : In (nth g (mask_positions mask) []) (mask_positions mask)) by (apply nth_In; exact Hg). rewrite <- E in Hin. apply mask_positions_in in Hin. destruct Hin. congruence.
  Qed.
  Lemma mask_columns mask c B s k : tshape mask = ns ->
    (forall b i, (b < B)%nat -> inb i ns -> tget mask i = false -> tget c ([s; k; b] ++ i) = RtoC 0) ->
    (forall b b', (b < B)%nat -> (b' < B)%nat -> inner ns c [s; k; b] [s; k; b'] = RtoC (if Nat.eqb b b' then 1 else 0)) ->
    orthonormal_columns (length (mask_positions mask)) B (fun g b => tget c ([s; k; b] ++ nth g (mask_positions mask) [])).
  Proof.
    intros Hm Hz Ho i j Hi Hj. rewrite <- (sumC_map_nth _ [] (fun x => Cconj (tget c ([s; k; i] ++ x)) * tget c ([s; k; j] ++ x))%C).
    rewrite <- sumC_mask.
    - rewrite Hm. specialize (Ho i j Hi Hj). unfold inner in Ho. rewrite Ho. unfold kron. destruct (i =? j)%nat; reflexivity.
    - intros x Hx Hf. rewrite Hm in Hx. rewrite (Hz j) by assumption. ring.
  Qed.

  (** The matrix between the orbitals is a compression of the matrix in the plane-wave basis. *)
  Lemma matrix_basis mask c kpts kpt sp B s k M : tshape mask = ns -> 0 < vol -> tshape c = [sp; length kpts; B] ++ ns ->
    (forall b i, (b < B)%nat -> inb i ns -> tget mask i = false -> tget c ([s; k; b] ++ i) = RtoC 0) ->
    hamiltonian_matrix xcd c pos ch dens G kpts vol xt ks = Ok M -> (s < sp)%nat -> (k < length kpts)%nat -> kpt = nth k kpts vzero ->
    exists A, hamiltonian_matrix_basis xcd mask pos ch dens G [kpt] vol xt ks = Ok A /\
      forall i j, (i < B)%nat -> (j < B)%nat -> matrix_at M [s; k] i j = compress (length (mask_positions mask)) (matrix_at A [0%nat]) (fun g b => tget c ([s; k; b] ++ nth g (mask_positions mask) [])) i j.
  Proof.
    intros Hm Hvol Sc Hz HM Hs Hk Ek.
    destruct (basis_value xcd mask pos ch dens G [kpt] vol xt ks hk n1 n2 n3 v Hm HG Hv Sv Hvol) as (A & HA & _ & VA). exists A. split; [exact HA|].
    intros i j Hi Hj. set (cbm := cb mask [kpt] n1 n2 n3).
    assert (Scb : tshape cbm = [1%nat; length [kpt]; length (mask_positions mask)] ++ ns) by reflexivity.
    destruct (wave_grid_eq c vol _ ns eq_refl Sc) as (w & Hw & _). destruct (wave_grid_eq cbm vol _ ns eq_refl Scb) as (wb & Hwb & _).
    destruct (matrix_value xcd c pos ch dens G kpts vol xt ks sp B hk n1 n2 n3 v w Sc HG Hv Sv Hw) as (M1 & E1 & _ & V1). rewrite HM in E1. injection E1 as <-.
    unfold matrix_at at 1. cbn [app]. rewrite V1 by assumption.
    rewrite (hel_combines cbm c wb w [kpt] kpts 1 sp (length (mask_positions mask)) B 0 0 s k (fun g b => tget c ([s; k; b] ++ nth g (mask_positions mask) []))); try assumption.
    2:{ apply mask_combines; assumption. }
    apply compress_ext. intros x y Hx Hy. unfold matrix_at. cbn [app]. rewrite VA by (cbn [length]; try lia; assumption).
    apply (basis_element mask G [kpt] vol hk n1 n2 n3 v Hm Hvol wb 0%nat x y); assumption.
  Qed.
End Combine.

(** * eigvalsh *)
Lemma hermitian_part_hermitian n H : hermitian n (hermitian_part H).
Proof. intros i j _ _. unfold hermitian_part. rewrite Cconj_mult, Cconj_R, Cconj_plus, Cconj_conj. ring. Qed.
Lemma hermitian_part_eq n H : hermitian n H -> forall i j, (i < n)%nat -> (j < n)%nat -> hermitian_part H i j = H i j.
Proof.
  intros Hh i j Hi Hj. unfold hermitian_part. rewrite (Hh i j Hi Hj), Cconj_conj. replace (H i j + H i j)%C with (RtoC 2 * H i j)%C by (destruct (H i j); apply injective_projections; cbn; ring).
  rewrite Cmult_assoc, <- RtoC_mult. replace (/ 2 * 2) with 1 by field. ring.
Qed.
Lemma eigvalsh_value ev M sp K B : tshape M = [sp; K; B; B] ->
  exists e, jnp_eigvalsh ev M = Ok e /\ tshape e = [sp; K; B] /\ forall s k b, tget e [s; k; b] = ev B (hermitian_part (matrix_at M [s; k])) b.
Proof.
  intros SM. unfold jnp_eigvalsh. rewrite SM. cbn [rev app]. rewrite Nat.eqb_refl. cbn [negb]. eexists. split; [reflexivity|]. split; [reflexivity|].
  intros s k b. reflexivity.
Qed.
Lemma eigvalsh_spectrum ev n H : eigvalsh_ok ev -> spectrum n (hermitian_part H) (ev n (hermitian_part H)).
Proof. intros He. apply He, hermitian_part_hermitian. Qed.
Lemma eigvalsh_sum ev n H : eigvalsh_ok ev -> sumR (seq 0 n) (ev n (hermitian_part H)) = sumR (seq 0 n) (fun b => Re (H b b)).
Proof.
  intros He. pose proof (spectrum_trace n _ _ (eigvalsh_spectrum ev n H He)) as E. apply (f_equal Re) in E. rewrite Re_sumC in E.
  change (Re (RtoC ?x)) with x in E. rewrite <- E. apply sumR_ext. intros b _. unfold hermitian_part. destruct (H b b). cbn. field.
Qed.
Lemma separated_of n B A Q M mu : orthonormal_columns n B Q -> (forall i j, (i < B)%nat -> (j < B)%nat -> M i j = compress n A Q i j) -> spectrum B M mu -> separated n B A mu.
Proof.
  intros HQ HM HS lam HA b Hb. split.
  - apply (separation_lower n B A Q M lam mu HQ HM HA HS b Hb).
  - apply (separation_upper n B A Q M lam mu HQ HM HA HS b Hb).
Qed.

(** * One k-point of the all-electron driver *)
Lemma spectrum_values n H lam mu : (forall b, (b < n)%nat -> lam b = mu b) -> spectrum n H lam -> spectrum n H mu.
Proof.
  intros E (Ha & V & H1 & H2 & H3). split; [intros i j Hij Hj; rewrite <- !E by lia; apply Ha; assumption|]. exists V. split; [exact H1|]. split; [exact H2|]. intros i j Hi Hj. rewrite H3 by assumption.
  apply sumC_ext. intros m Hm. apply seq_in in Hm. rewrite E by exact Hm. reflexivity.
Qed.
Lemma ae_point_q cqr xcd ev bp sp hk n1 n2 n3 p k : let ns := [n1; n2; n3] in let n := waves bp in let B := bp_bands bp in
  complex_qr cqr -> eigvalsh_ok ev -> tshape (bp_G bp) = ns -> tshape (bp_mask bp) = ns -> 0 < bp_vol bp -> potential_channels xcd bp hk ->
  (1 <= B)%nat -> (B <= n)%nat -> band_shape bp sp p ->
  let Q c s g b := tget c ([s; 0%nat; b] ++ nth g (mask_positions (bp_mask bp)) []) in
  exists c e t A, band_coeff cqr bp p = Ok c /\ ae_eig cqr xcd ev bp p k = Ok e /\ ae_trace cqr xcd bp p k = Ok t /\ basis_hamiltonian xcd bp k = Ok A /\ tshape e = [sp; 1; B]%nat /\
    (forall s, (s < sp)%nat -> orthonormal_columns n B (Q c s) /\ spectrum B (compress n (matrix_at A [0%nat]) (Q c s)) (fun b => tget e [s; 0%nat; b])) /\
    t = sumR (seq 0 sp) (fun s => sumR (seq 0 B) (fun b => tget e [s; 0%nat; b])).
Proof.
  intros ns n B Hq Hev SG Sm Hvol (v & Hv & Sv) HB0 HB (S1 & S2) Q. rewrite SG in Sv.
  destruct (coeff_orthonormal cqr (fst p) (snd p) (bp_mask bp) _ _ _ _ Hq S1 S2 eq_refl) as (c & Hc & Sc & Ho & Hz).
  fold (waves bp) n B in Sc, Ho, Hz. rewrite Nat.min_r in Sc, Ho, Hz by lia. rewrite Sm in Sc, Ho, Hz.
  assert (Sc' : tshape c = [sp; length [k]; B] ++ ns) by exact Sc.
  destruct (wave_grid_eq c (bp_vol bp) _ ns eq_refl Sc) as (w & Hw & _).
  destruct (matrix_value xcd c (cr_positions (bp_crystal bp)) (bp_charges bp) (bp_dens bp) (bp_G bp) [k] (bp_vol bp) (bp_xc bp) true sp B hk n1 n2 n3 v w Sc' SG Hv Sv Hw) as (M & HM & SM & VM).
  specialize (SM ltac:(lia)). cbn [length] in SM.
  destruct (eigvalsh_value ev M sp 1 B SM) as (e & He & Se & Ge).
  destruct (trace_value xcd c (cr_positions (bp_crystal bp)) (bp_charges bp) (bp_dens bp) (bp_G bp) [k] (bp_vol bp) (bp_xc bp) true sp B hk n1 n2 n3 v w Sc' SG Hv Sv Hw false (or_introl eq_refl)) as (t & Ht & St & _ & Gt).
  destruct (basis_value xcd (bp_mask bp) (cr_positions (bp_crystal bp)) (bp_charges bp) (bp_dens bp) (bp_G bp) [k] (bp_vol bp) (bp_xc bp) true hk n1 n2 n3 v Sm SG Hv Sv Hvol) as (A & HA & _).
  assert (Hz' : forall s, (s < sp)%nat -> forall b i, (b < B)%nat -> inb i ns -> tget (bp_mask bp) i = false -> tget c ([s; 0%nat; b] ++ i) = RtoC 0).
  { intros s Hs b i Hb Hi Hf. apply Hz; [|exact Hi|exact Hf]. repeat constructor; assumption. }
  assert (Hh : forall s, (s < sp)%nat -> hermitian B (matrix_at M [s; 0%nat])).
  { intros s Hs i j Hi Hj. unfold matrix_at. cbn [app]. rewrite !VM by (cbn [length]; try lia; assumption). apply hel_hermitian. }
  assert (Hsp : forall s, (s < sp)%nat -> spectrum B (matrix_at M [s; 0%nat]) (ev B (hermitian_part (matrix_at M [s; 0%nat])))).
  { intros s Hs. apply (spectrum_ext B (hermitian_part (matrix_at M [s; 0%nat]))); [intros i j Hi Hj; apply (hermitian_part_eq B); [apply Hh|exact Hi|exact Hj]; exact Hs|]. apply eigvalsh_spectrum, Hev. }
  exists c, e, (sumR (indices (tshape t)) (tget t)), A. split; [unfold band_coeff; rewrite Hc; reflexivity|].
  split; [unfold ae_eig, band_coeff; rewrite Hc; cbn [bind]; rewrite HM; exact He|].
  split; [unfold ae_trace, band_coeff; rewrite Hc; cbn [bind]; rewrite Ht; reflexivity|].
  split; [exact HA|]. split; [exact Se|]. split.
  - intros s Hs. split.
    + apply (mask_columns n1 n2 n3 (bp_mask bp) c B s 0%nat Sm (Hz' s Hs)). intros b1 b2 Hb1 Hb2. apply (Ho [s; 0%nat] b1 b2); [repeat constructor; lia|exact Hb1|exact Hb2].
    + destruct (matrix_basis xcd (cr_positions (bp_crystal bp)) (bp_charges bp) (bp_dens bp) (bp_G bp) (bp_vol bp) (bp_xc bp) true hk n1 n2 n3 v SG Hv Sv (bp_mask bp) c [k] k sp B s 0%nat M Sm Hvol Sc' (Hz' s Hs) HM Hs ltac:(cbn; lia) eq_refl) as (A' & HA' & VA).
      rewrite HA in HA'. injection HA' as <-. apply (spectrum_ext B (matrix_at M [s; 0%nat])); [exact VA|]. apply (spectrum_values B _ _ _ (fun b _ => eq_sym (Ge s 0%nat b)) (Hsp s Hs)).
  - rewrite St. cbn [indices map flat_map]. unfold indices. cbn. rewrite Rplus_0_r, (Gt eq_refl). cbn [length Nat.eqb]. apply sumR_ext. intros s Hs. apply seq_in in Hs.
    rewrite (sumR_ext (seq 0 B) (fun b => tget e [s; 0%nat; b]) (ev B (hermitian_part (matrix_at M [s; 0%nat])))) by (intros b _; apply Ge).
    rewrite (eigvalsh_sum ev B _ Hev). unfold hsum. rewrite sumR_swap. apply sumR_ext. intros b Hb. apply seq_in in Hb. unfold matrix_at. cbn [app]. rewrite VM by (cbn [length]; try lia; assumption).
    unfold hel. rewrite Re_sumC. reflexivity.
Qed.
Lemma ae_point cqr xcd ev bp sp hk n1 n2 n3 p k : let ns := [n1; n2; n3] in let n := waves bp in let B := bp_bands bp in
  complex_qr cqr -> eigvalsh_ok ev -> tshape (bp_G bp) = ns -> tshape (bp_mask bp) = ns -> 0 < bp_vol bp -> potential_channels xcd bp hk ->
  (1 <= B)%nat -> (B <= n)%nat -> band_shape bp sp p ->
  exists e t A, ae_eig cqr xcd ev bp p k = Ok e /\ ae_trace cqr xcd bp p k = Ok t /\ basis_hamiltonian xcd bp k = Ok A /\ tshape e = [sp; 1; B]%nat /\
    (forall s, (s < sp)%nat -> ascending B (fun b => tget e [s; 0%nat; b]) /\ separated n B (matrix_at A [0%nat]) (fun b => tget e [s; 0%nat; b])) /\
    t = sumR (seq 0 sp) (fun s => sumR (seq 0 B) (fun b => tget e [s; 0%nat; b])).
Proof.
  intros ns n B Hq Hev SG Sm Hvol Hv HB0 HB HS. destruct (ae_point_q cqr xcd ev bp sp hk n1 n2 n3 p k Hq Hev SG Sm Hvol Hv HB0 HB HS) as (c & e & t & A & Hc & He & Ht & HA & Se & Hs & Et).
  exists e, t, A. split; [exact He|]. split; [exact Ht|]. split; [exact HA|]. split; [exact Se|]. split; [|exact Et]. intros s Hs'. destruct (Hs s Hs') as (HQ & HM). split; [exact (proj1 HM)|].
  exact (separated_of n B (matrix_at A [0%nat]) _ _ _ HQ (fun i j _ _ => eq_refl) HM).
Qed.
