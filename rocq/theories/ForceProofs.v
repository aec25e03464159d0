(** Forces on the atoms. *)
From Coq Require Import Reals Lra Lia.
From Coquelicot Require Import Coquelicot.
From Coq Require Import Ascii String List Arith ZArith Bool FunctionalExtensionality.
From Verif Require Import Base Sums Tensor DFT GridModel GridProofs PadModel PadProofs Lin3 VecModel VecProofs OccModel PwModel PwSpec PwProofs BraketModel XcModel XcSpec EwaldModel EnergyModel EnergySpec EnergyProofs ExtProofs TotalProofs PwGrad XcProofs SpinProofs EwaldSpec EwaldProofs2 ForceSpec.
Import ListNotations.
Local Open Scope R_scope.

(** ** Vector sums *)
Lemma dot_vsum {X} (l : list X) f u : dot (vsum l f) u = sumR l (fun x => dot (f x) u).
Proof. unfold vsum, dot. cbn [vx vy vz]. rewrite <- !sumR_scal_r, <- !sumR_plus. reflexivity. Qed.
Lemma work_swap n (W : nat -> nat -> v3) u :
  sumR (seq 0 n) (fun j => sumR (seq 0 n) (fun i => dot (W i j) (vsub (u j) (u i)))) = sumR (seq 0 n) (fun a => dot (vsum (seq 0 n) (fun i => vsub (W i a) (W a i))) (u a)).
Proof.
  transitivity (sumR (seq 0 n) (fun j => sumR (seq 0 n) (fun i => dot (W i j) (u j))) - sumR (seq 0 n) (fun j => sumR (seq 0 n) (fun i => dot (W i j) (u i)))).
  - rewrite <- sumR_minus. apply sumR_ext. intros j _. rewrite <- sumR_minus. apply sumR_ext. intros i _. apply dot_sub_r.
  - rewrite (sumR_swap _ _ (fun j i => dot (W i j) (u i))), <- sumR_minus. apply sumR_ext. intros a _. rewrite dot_vsum, <- sumR_minus. apply sumR_ext. intros i _.
    unfold dot, vsub. cbn [vx vy vz]. ring.
Qed.
Lemma nth_displaced pos u t a : (a < length pos)%nat -> nth a (displaced pos u t) vzero = vadd (nth a pos vzero) (vscale t (u a)).
Proof.
  intros Ha. unfold displaced. rewrite (nth_indep _ vzero (vadd (nth 0 pos vzero) (vscale t (u 0%nat)))) by (rewrite map_length, seq_length; exact Ha).
  rewrite (map_nth (fun a => vadd (nth a pos vzero) (vscale t (u a)))), seq_nth by exact Ha. reflexivity.
Qed.
Lemma displaced_length pos u t : length (displaced pos u t) = length pos.
Proof. unfold displaced. rewrite map_length, seq_length. reflexivity. Qed.
Lemma sumC_combine (ch : list R) (pos : list v3) (F : R * v3 -> C) : length ch = length pos -> sumC (combine ch pos) F = sumC (seq 0 (length pos)) (fun a => F (nth a ch 0, nth a pos vzero)).
Proof.
  revert ch. induction pos as [|r pos IH]; intros [|z ch] H; try discriminate; [reflexivity|]. injection H as H. cbn [combine sumC length seq]. rewrite IH by exact H. rewrite <- seq_shift, sumC_map. reflexivity.
Qed.

(** ** Electrons *)
Lemma external_terms ns G D pos ch : length ch = length pos ->
  Re (sumC (indices ns) (fun x => if is_origin x then RtoC 0 else Cconj (structure_factor ch pos (tget G x)) * spin_sum D x * RtoC (/ (norm2 (tget G x) + / 10 ^ 10)))%C) =
  sumR (indices ns) (fun x => sumR (seq 0 (length pos)) (fun a => if is_origin x then 0 else nth a ch 0 * / (norm2 (tget G x) + / 10 ^ 10) * Re (cis (dot (tget G x) (nth a pos vzero)) * spin_sum D x)%C)).
Proof.
  intros Hl. rewrite Re_sumC. apply sumR_ext. intros x _. destruct (is_origin x); [rewrite sumR_zero by reflexivity; reflexivity|].
  unfold structure_factor. rewrite sumC_combine by exact Hl. cbn [fst snd]. rewrite Cconj_sum, <- !sumC_scal_r, Re_sumC. apply sumR_ext. intros a _.
  rewrite Cconj_mult, cis_conj, Ropp_involutive. set (w := cis _). set (d := spin_sum D x). destruct w as [w1 w2], d as [d1 d2]. unfold Cconj, RtoC, Re, Cmult. cbn [fst snd]. ring.
Qed.
Lemma derive_cis (a b : R) (d : C) : is_derive (fun t : R => Re (cis (a + t * b) * d)%C) 0 (- b * Im (cis a * d)%C).
Proof.
  destruct d as [d1 d2]. apply (is_derive_ext (fun t : R => cos (a + t * b) * d1 - sin (a + t * b) * d2)); [reflexivity|].
  unfold Im, Cmult, cis. cbn [fst snd]. auto_derive; [exact I|]. rewrite Rmult_0_l, Rplus_0_r. ring.
Qed.
Lemma electrons_derive ns G D pos ch u : length ch = length pos ->
  is_derive (fun t : R => - (4 * PI / INR (nprod ns)) * Re (sumC (indices ns) (fun x => if is_origin x then RtoC 0 else
      Cconj (structure_factor ch (displaced pos u t) (tget G x)) * spin_sum D x * RtoC (/ (norm2 (tget G x) + / 10 ^ 10)))%C)) 0
    (- work (length pos) (electron_force ns G D pos ch) u).
Proof.
  intros Hl.
  apply (is_derive_ext (fun t : R => - (4 * PI / INR (nprod ns)) * sumR (indices ns) (fun x => sumR (seq 0 (length pos)) (fun a =>
     if is_origin x then 0 else nth a ch 0 * / (norm2 (tget G x) + / 10 ^ 10) * Re (cis (dot (tget G x) (nth a pos vzero) + t * dot (tget G x) (u a)) * spin_sum D x)%C)))).
  { intros t. rewrite external_terms by (rewrite displaced_length; exact Hl). f_equal. apply sumR_ext. intros x _. rewrite displaced_length. apply sumR_ext. intros a Ha. apply in_seq in Ha.
    destruct (is_origin x); [reflexivity|]. rewrite nth_displaced by lia. rewrite dot_add_r, dot_scale_r. reflexivity. }
  assert (E : - work (length pos) (electron_force ns G D pos ch) u = - (4 * PI / INR (nprod ns)) * sumR (indices ns) (fun x => sumR (seq 0 (length pos)) (fun a =>
     if is_origin x then 0 else nth a ch 0 * / (norm2 (tget G x) + / 10 ^ 10) * (- dot (tget G x) (u a) * Im (cis (dot (tget G x) (nth a pos vzero)) * spin_sum D x)%C)))).
  { rewrite sumR_swap. unfold work. rewrite <- sumR_opp, <- sumR_scal. apply sumR_ext. intros a _. unfold electron_force. cbv zeta. rewrite dot_scale_l, dot_vsum, sumR_filter.
    rewrite <- sumR_scal. rewrite <- !sumR_scal, <- sumR_opp. apply sumR_ext. intros x _. unfold is_origin. destruct (forallb _ x); cbn [negb]; [ring|]. rewrite dot_scale_l. unfold Rdiv. ring. }
  rewrite E. apply (is_derive_scal (fun t : R => sumR (indices ns) (fun x => sumR (seq 0 (length pos)) (fun a =>
     if is_origin x then 0 else nth a ch 0 * / (norm2 (tget G x) + / 10 ^ 10) * Re (cis (dot (tget G x) (nth a pos vzero) + t * dot (tget G x) (u a)) * spin_sum D x)%C)))).
  apply (is_derive_sumR (indices ns) (fun x t => sumR (seq 0 (length pos)) (fun a =>
     if is_origin x then 0 else nth a ch 0 * / (norm2 (tget G x) + / 10 ^ 10) * Re (cis (dot (tget G x) (nth a pos vzero) + t * dot (tget G x) (u a)) * spin_sum D x)%C))). intros x _.
  apply (is_derive_sumR (seq 0 (length pos)) (fun a t => if is_origin x then 0 else nth a ch 0 * / (norm2 (tget G x) + / 10 ^ 10) * Re (cis (dot (tget G x) (nth a pos vzero) + t * dot (tget G x) (u a)) * spin_sum D x)%C)). intros a _.
  destruct (is_origin x); [apply (is_derive_const (V := R_NormedModule))|]. apply (is_derive_scal (fun t : R => Re (cis (dot (tget G x) (nth a pos vzero) + t * dot (tget G x) (u a)) * spin_sum D x)%C)). apply derive_cis.
Qed.

(** ** Nuclei *)
Lemma guarded_derive v u : sqrt (norm2 v + / 10 ^ 20) <> / 10 ^ 9 ->
  is_derive (fun t : R => guarded_norm (vadd v (vscale t u))) 0 (if Rle_dec (sqrt (norm2 v + / 10 ^ 20)) (/ 10 ^ 9) then 0 else dot v u / sqrt (norm2 v + / 10 ^ 20)).
Proof.
  intros Hd. pose proof (norm2_nonneg v) as Hv. assert (He : 0 < / 10 ^ 20) by (apply Rinv_0_lt_compat, pow_lt; lra). set (e := / 10 ^ 20) in *. set (m := / 10 ^ 9) in *.
  set (r := fun t : R => sqrt (norm2 (vadd v (vscale t u)) + e)).
  assert (N : forall t, norm2 (vadd v (vscale t u)) = norm2 v + 2 * t * dot v u + t * t * norm2 u) by (intros t; unfold norm2, dot, vadd, vscale; cbn [vx vy vz]; ring).
  assert (R0 : r 0 = sqrt (norm2 v + e)) by (unfold r; rewrite N; f_equal; ring).
  assert (Dr : is_derive r 0 (dot v u / sqrt (norm2 v + e))).
  { apply (is_derive_ext (fun t : R => sqrt (norm2 v + 2 * t * dot v u + t * t * norm2 u + e))); [intros t; unfold r; rewrite N; reflexivity|].
    auto_derive; [lra|]. rewrite !Rmult_0_r, !Rmult_0_l, !Rplus_0_r. field. apply Rgt_not_eq, sqrt_lt_R0. lra. }
  assert (Cr : continuous r 0) by (apply (ex_derive_continuous (V := R_NormedModule)); eexists; exact Dr).
  destruct (Rle_dec (sqrt (norm2 v + e)) m) as [L|L].
  - apply (is_derive_ext_loc (fun _ : R => 10 ^ 20)); [|apply (is_derive_const (V := R_NormedModule))].
    assert (L' : r 0 < m) by (rewrite R0; lra). pose proof (Cr (fun y => y < m) (open_lt m (r 0) L')) as Cl. change (locally 0 (fun t => r t < m)) in Cl. revert Cl. apply filter_imp. intros t Ht. unfold guarded_norm. fold e m. fold (r t). destruct (Rle_dec (r t) m); [reflexivity|lra].
  - apply (is_derive_ext_loc r); [|exact Dr].
    assert (L' : m < r 0) by (rewrite R0; lra). pose proof (Cr (fun y => m < y) (open_gt m (r 0) L')) as Cl. change (locally 0 (fun t => m < r t)) in Cl. revert Cl. apply filter_imp. intros t Ht. unfold guarded_norm. fold e m. fold (r t). destruct (Rle_dec (r t) m); [lra|reflexivity].
Qed.
Lemma overlap_derive f f' eta v u : (forall x, is_derive f x (f' x)) -> sqrt (norm2 v + / 10 ^ 20) <> / 10 ^ 9 ->
  is_derive (fun t : R => f (eta * guarded_norm (vadd v (vscale t u))) / guarded_norm (vadd v (vscale t u))) 0
    (dot (let d := sqrt (norm2 v + / 10 ^ 20) in if Rle_dec d (/ 10 ^ 9) then vzero else vscale ((eta * d * f' (eta * d) - f (eta * d)) / d ^ 3) v) u).
Proof.
  intros Hf Hd. pose proof (guarded_derive v u Hd) as Dg. cbv zeta. set (d := sqrt (norm2 v + / 10 ^ 20)) in *. set (g := fun t : R => guarded_norm (vadd v (vscale t u))) in *.
  assert (E0 : vadd v (vscale 0 u) = v) by (destruct v, u; unfold vadd, vscale; cbn; f_equal; ring).
  assert (G0 : g 0 = if Rle_dec d (/ 10 ^ 9) then 10 ^ 20 else d) by (unfold g; rewrite E0; reflexivity).
  assert (P20 : 0 < 10 ^ 20) by (apply pow_lt; lra). assert (Pd : 0 < d). { apply sqrt_lt_R0. pose proof (norm2_nonneg v). assert (0 < / 10 ^ 20) by (apply Rinv_0_lt_compat; exact P20). lra. }
  assert (Pg : g 0 <> 0) by (rewrite G0; destruct (Rle_dec d _); lra).
  assert (D1 : forall g', is_derive g 0 g' -> is_derive (fun t : R => f (eta * g t) / g t) 0 ((eta * g' * f' (eta * g 0) * g 0 - f (eta * g 0) * g') / (g 0 * g 0))).
  { intros g' Hg. assert (H1 : is_derive (fun t : R => f (eta * g t)) 0 (eta * g' * f' (eta * g 0))).
    { apply (is_derive_comp f (fun t : R => eta * g t) 0 (f' (eta * g 0)) (eta * g')); [apply Hf|]. apply (is_derive_scal g). exact Hg. }
    pose proof (is_derive_div (fun t : R => f (eta * g t)) g 0 _ _ H1 Hg Pg) as H2.
    replace ((eta * g' * f' (eta * g 0) * g 0 - f (eta * g 0) * g') / (g 0 * g 0)) with ((eta * g' * f' (eta * g 0) * g 0 - f (eta * g 0) * g') / g 0 ^ 2) by (field; exact Pg). exact H2. }
  specialize (D1 _ Dg). rewrite G0 in D1. destruct (Rle_dec d (/ 10 ^ 9)) as [L|L].
  - replace (dot vzero u) with 0 by (unfold dot, vzero; cbn; ring). match type of D1 with is_derive _ _ ?x => replace x with 0 in D1 by (unfold Rdiv; ring) end. exact D1.
  - rewrite dot_scale_l. match type of D1 with is_derive _ _ ?x => replace x with ((eta * d * f' (eta * d) - f (eta * d)) / d ^ 3 * dot v u) in D1 by (field; lra) end. exact D1.
Qed.
Lemma pair_derive f f' eta T G vol tau w : (forall x, is_derive f x (f' x)) -> eta <> 0 -> vol <> 0 -> (forall x, In x (indices (tshape G)) -> is_origin x = false -> norm2 (tget G x) <> 0) ->
  (forall t, In t T -> sqrt (norm2 (vsub tau t) + / 10 ^ 20) <> / 10 ^ 9) ->
  is_derive (fun s : R => ew_ovlp f eta T (vadd tau (vscale s w)) + ew_rprcl G vol eta (vadd tau (vscale s w))) 0 (dot (ewald_gradient f f' eta T G vol tau) w).
Proof.
  intros Hf He Hvol HG Hd. unfold ewald_gradient. rewrite dot_add_l. apply (is_derive_plus (V := R_NormedModule)).
  - unfold ew_ovlp. rewrite dot_vsum. apply (is_derive_sumR T (fun t s => let d := guarded_norm (vsub (vadd tau (vscale s w)) t) in f (eta * d) / d)). intros t Ht. cbv zeta.
    apply (is_derive_ext (fun s : R => f (eta * guarded_norm (vadd (vsub tau t) (vscale s w))) / guarded_norm (vadd (vsub tau t) (vscale s w)))).
    { intros s. replace (vadd (vsub tau t) (vscale s w)) with (vsub (vadd tau (vscale s w)) t) by (unfold vadd, vsub; cbn; f_equal; ring). reflexivity. }
    apply (overlap_derive f f' eta (vsub tau t) w Hf (Hd t Ht)).
  - unfold ew_rprcl. rewrite dot_scale_l, dot_vsum, sumR_filter.
    apply (is_derive_ext (fun s : R => 4 * PI / vol * sumR (indices (tshape G)) (fun x => if is_origin x then 0 else exp (- norm2 (tget G x) / (4 * eta ^ 2)) / norm2 (tget G x) * cos (dot (tget G x) tau + s * dot (tget G x) w)))).
    { intros s. change EwaldModel.is_origin with is_origin.
      assert (ES : sumR (indices (tshape G)) (fun i => let g2 := if is_origin i then 10 ^ 16 else norm2 (tget G i) in exp (- g2 / 4 / eta ^ 2) / g2 * (if is_origin i then 0 else cos (dot (tget G i) (vadd tau (vscale s w)))))
        = sumR (indices (tshape G)) (fun x => if is_origin x then 0 else exp (- norm2 (tget G x) / (4 * eta ^ 2)) / norm2 (tget G x) * cos (dot (tget G x) tau + s * dot (tget G x) w))).
      { apply sumR_ext. intros x _. cbv zeta. destruct (is_origin x); [ring|]. rewrite dot_add_r, dot_scale_r. f_equal. f_equal. f_equal. field. exact He. }
      cbv zeta in ES |- *. change EwaldModel.is_origin with is_origin. match goal with |- ?a = ?b => change (@eq R a b) end. rewrite ES. field. exact Hvol. }
    rewrite <- Ropp_mult_distr_l, Ropp_mult_distr_r. apply (is_derive_scal (fun s : R => sumR (indices (tshape G)) (fun x => if is_origin x then 0 else exp (- norm2 (tget G x) / (4 * eta ^ 2)) / norm2 (tget G x) * cos (dot (tget G x) tau + s * dot (tget G x) w)))).
    rewrite <- sumR_opp. apply (is_derive_sumR (indices (tshape G)) (fun x s => if is_origin x then 0 else exp (- norm2 (tget G x) / (4 * eta ^ 2)) / norm2 (tget G x) * cos (dot (tget G x) tau + s * dot (tget G x) w))).
    intros x Hx. unfold is_origin. destruct (forallb (Nat.eqb 0) x) eqn:O; cbn [negb]; [rewrite Ropp_0; apply (is_derive_const (V := R_NormedModule))|].
    rewrite dot_scale_l. set (k := exp _ / norm2 _). auto_derive; [exact I|]. rewrite Rmult_0_l, Rplus_0_r. ring.
Qed.
Lemma nuclei_derive f f' A n1 n2 n3 G vol eta T pos q u : (forall x, is_derive f x (f' x)) -> m3det A <> 0 -> g_vectors A [n1; n2; n3] = Ok G -> eta <> 0 -> vol <> 0 -> length q = length pos ->
  (forall i j t, (i < length pos)%nat -> (j < length pos)%nat -> In t T -> sqrt (norm2 (vsub (vsub (nth j pos vzero) (nth i pos vzero)) t) + / 10 ^ 20) <> / 10 ^ 9) ->
  exists E : R -> R, (forall t, ewald_coulomb_repulsion f (displaced pos u t) q G vol eta T = Ok (E t)) /\ is_derive E 0 (- work (length pos) (nuclear_force f f' eta T G vol pos q) u).
Proof.
  intros Hf HA HG He Hv Hl Hd. eexists. split.
  - intros t. unfold ewald_coulomb_repulsion. rewrite displaced_length, Hl, Nat.eqb_refl. cbn [negb]. reflexivity.
  - set (n := length pos) in *. set (c0 := _ - _).
    apply (is_derive_ext (fun t : R => / 2 * sumR (seq 0 n) (fun j => sumR (seq 0 n) (fun i => nth i q 0 * nth j q 0 * (let tau := vadd (vsub (nth j pos vzero) (nth i pos vzero)) (vscale t (vsub (u j) (u i))) in ew_ovlp f eta T tau + ew_rprcl G vol eta tau))) + c0)).
    { intros t. f_equal. rewrite Rmult_comm. unfold Rdiv. f_equal. apply sumR_ext. intros j Hj. apply in_seq in Hj. rewrite <- sumR_scal_r. apply sumR_ext. intros i Hi. apply in_seq in Hi. cbv zeta.
      rewrite !nth_displaced by (fold n; lia).
      replace (vsub (vadd (nth j pos vzero) (vscale t (u j))) (vadd (nth i pos vzero) (vscale t (u i)))) with (vadd (vsub (nth j pos vzero) (nth i pos vzero)) (vscale t (vsub (u j) (u i)))) by (unfold vadd, vsub, vscale; cbn; f_equal; ring). ring. }
    set (g := ewald_gradient f f' eta T G vol).
    assert (E : - work n (nuclear_force f f' eta T G vol pos q) u = / 2 * sumR (seq 0 n) (fun j => sumR (seq 0 n) (fun i => nth i q 0 * nth j q 0 * dot (g (vsub (nth j pos vzero) (nth i pos vzero))) (vsub (u j) (u i)))) + 0).
    { rewrite Rplus_0_r. transitivity (/ 2 * sumR (seq 0 n) (fun j => sumR (seq 0 n) (fun i => dot (vscale (nth i q 0 * nth j q 0) (g (vsub (nth j pos vzero) (nth i pos vzero)))) (vsub (u j) (u i))))).
      - rewrite work_swap. unfold work. rewrite <- sumR_opp, <- sumR_scal. apply sumR_ext. intros a _. unfold nuclear_force. cbv zeta. fold n. fold g. rewrite dot_scale_l, !dot_vsum, <- !sumR_scal, <- sumR_opp. apply sumR_ext. intros i _.
        unfold dot, vsub, vscale. cbn [vx vy vz]. field.
      - f_equal. apply sumR_ext. intros j _. apply sumR_ext. intros i _. apply dot_scale_l. }
    rewrite E. apply (is_derive_plus (V := R_NormedModule)); [|apply (is_derive_const (V := R_NormedModule))].
    apply (is_derive_scal (fun t : R => sumR (seq 0 n) (fun j => sumR (seq 0 n) (fun i => nth i q 0 * nth j q 0 * (let tau := vadd (vsub (nth j pos vzero) (nth i pos vzero)) (vscale t (vsub (u j) (u i))) in ew_ovlp f eta T tau + ew_rprcl G vol eta tau))))).
    apply (is_derive_sumR (seq 0 n) (fun j t => sumR (seq 0 n) (fun i => nth i q 0 * nth j q 0 * (let tau := vadd (vsub (nth j pos vzero) (nth i pos vzero)) (vscale t (vsub (u j) (u i))) in ew_ovlp f eta T tau + ew_rprcl G vol eta tau)))). intros j Hj. apply in_seq in Hj.
    apply (is_derive_sumR (seq 0 n) (fun i t => nth i q 0 * nth j q 0 * (let tau := vadd (vsub (nth j pos vzero) (nth i pos vzero)) (vscale t (vsub (u j) (u i))) in ew_ovlp f eta T tau + ew_rprcl G vol eta tau))). intros i Hi. apply in_seq in Hi. cbv zeta.
    apply (is_derive_scal (fun t : R => let tau := vadd (vsub (nth j pos vzero) (nth i pos vzero)) (vscale t (vsub (u j) (u i))) in ew_ovlp f eta T tau + ew_rprcl G vol eta tau)).
    apply (pair_derive f f' eta T G vol _ (vsub (u j) (u i)) Hf He Hv).
    + intros x Hx Ox. apply in_indices in Hx. destruct (g_vectors_dual A n1 n2 n3 G HA HG) as (SG & _). rewrite SG in Hx. exact (g_nonzero A n1 n2 n3 G x HA HG Hx Ox).
    + intros t Ht. apply Hd; [lia|lia|exact Ht].
Qed.
Lemma third_law f f' eta T G vol pos q : vsum (seq 0 (length pos)) (nuclear_force f f' eta T G vol pos q) = vzero.
Proof.
  set (n := length pos). set (g := ewald_gradient f f' eta T G vol).
  assert (Z : forall u, dot (vsum (seq 0 n) (nuclear_force f f' eta T G vol pos q)) u = 0).
  { intros u. rewrite dot_vsum. 
    pose proof (work_swap n (fun i j => vscale (nth i q 0 * nth j q 0) (g (vsub (nth j pos vzero) (nth i pos vzero)))) (fun _ => u)) as W.
    assert (L : sumR (seq 0 n) (fun j => sumR (seq 0 n) (fun i => dot (vscale (nth i q 0 * nth j q 0) (g (vsub (nth j pos vzero) (nth i pos vzero)))) (vsub u u))) = 0).
    { apply sumR_zero. intros j _. apply sumR_zero. intros i _. unfold dot, vsub. cbn [vx vy vz]. ring. }
    cbv beta in W. rewrite L in W. clear L. transitivity (- / 2 * 0); [|ring]. rewrite W, <- sumR_scal. apply sumR_ext. intros a _. unfold nuclear_force. cbv zeta. fold n. fold g. rewrite dot_scale_l, !dot_vsum, <- !sumR_scal. apply sumR_ext. intros i _.
    unfold dot, vsub, vscale. cbn [vx vy vz]. field. }
  apply v3_eq; [pose proof (Z (V3 1 0 0)) as H|pose proof (Z (V3 0 1 0)) as H|pose proof (Z (V3 0 0 1)) as H]; unfold dot in H; cbn [vx vy vz vzero] in *; lra.
Qed.

(** ** The total energy *)
Lemma energy_derive xcd xt A c pos ch G kpts vol occ e sp B n1 n2 n3 u : let ns := [n1; n2; n3] in let K := length kpts in
  m3det A <> 0 -> g_vectors A ns = Ok G -> vol <> 0 -> length ch = length pos -> tshape c = [sp; K; B] ++ ns -> tshape occ = [sp; K; B] ->
  total_energy xcd c pos ch G kpts vol (Some occ) false xt = Ok e ->
  exists D E, density_grid_reciprocal c vol (Some occ) = Ok D /\ (forall t, total_energy xcd c (displaced pos u t) ch G kpts vol (Some occ) false xt = Ok (E t)) /\
    is_derive E 0 (- work (length pos) (electron_force ns G D pos ch) u).
Proof.
  intros ns K HA HG Hv Hl Sc So He. destruct (g_vectors_dual A n1 n2 n3 G HA HG) as (SG & _). fold ns in SG.
  assert (Hn : Forall (fun n => (0 < n)%nat) ns) by (destruct (proj1 (g_vectors_ok A n1 n2 n3) (ex_intro _ G HG)) as (? & ? & ?); repeat constructor; lia).
  assert (HN : 0 < INR (nprod ns)) by (apply lt_0_INR, nprod_pos, Hn).
  unfold total_energy, total_energy_split, density_grid_reciprocal in *.
  destruct (wave_grid_eq c vol [sp; K; B] ns eq_refl Sc) as (w & Ew & _). rewrite Ew in *. cbn [bind] in *.
  destruct (density_eq c vol occ sp K B n1 n2 n3 Sc So) as (d0 & E0 & S0 & G0). destruct (wave_to_density_eq c vol occ sp K B n1 n2 n3 w d0 Sc So Ew E0) as (d & Ed & Eq).
  unfold wave_to_density_reciprocal in *. rewrite Ed in *. rewrite E0. cbn [bind] in *. fold ns in S0.
  assert (Sd : tshape d = sp :: ns) by (rewrite (proj1 Eq); exact S0).
  destruct (fftn3_eq (tmap RtoC d0) [sp] ns eq_refl S0) as (D0 & ED0 & SD0 & GD0). rewrite ED0. cbn [bind].
  destruct (fftn3_eq (tmap RtoC d) [sp] ns eq_refl Sd) as (D & ED & SD & GD). rewrite ED in *. cbn [bind] in *.
  assert (XD0 : forall x, spin_sum D x = spin_sum D0 x).
  { intros x. unfold spin_sum. rewrite SD, SD0. cbn [hd app]. apply sumC_ext. intros s Hs'. apply in_seq in Hs'.
    change (s :: x) with ([s] ++ x). rewrite GD, GD0 by reflexivity. apply dft_ext. intros y Hy. cbn [tmap tget app]. rewrite (proj2 Eq) by (rewrite Sd; constructor; [lia|exact Hy]). reflexivity. }
  destruct (e_kinetic G kpts c (Some occ)) as [ek|]; [|discriminate]. cbn [bind] in *.
  rewrite (e_external_eq D pos ch G vol sp n1 n2 n3 SD SG Hl Hv HN) in He. cbn [bind] in He.
  destruct (e_hartree D G vol false) as [eh|]; [|discriminate]. cbn [bind] in *. destruct (e_xc xcd d G vol xt false) as [ex|] eqn:EX; [|discriminate].
  exists D0. eexists. split; [reflexivity|]. split.
  - intros t. rewrite (e_external_eq D (displaced pos u t) ch G vol sp n1 n2 n3 SD SG ltac:(rewrite displaced_length; exact Hl) Hv HN). cbn [bind]. reflexivity.
  - cbv beta. pose proof (electrons_derive ns G D0 pos ch u Hl) as DE.
    match type of DE with is_derive ?F _ ?l => set (F0 := F) in *; set (l0 := l) in * end.
    apply (is_derive_ext (fun t : R => tget ek [] + F0 t + eh + ex)).
    { intros t. unfold F0. repeat f_equal. apply functional_extensionality. intros x. rewrite XD0. reflexivity. }
    apply (is_derive_ext (fun t : R => F0 t + (tget ek [] + eh + ex))); [intros t; unfold plus; cbn; ring|].
    replace l0 with (l0 + 0) by ring. apply (is_derive_plus (V := R_NormedModule)); [exact DE|apply (is_derive_const (V := R_NormedModule))].
Qed.
Lemma energy_returns lib vg xt A c pos ch G kpts vol occ sp B n1 n2 n3 : let ns := [n1; n2; n3] in let K := length kpts in
  m3det A <> 0 -> g_vectors A ns = Ok G -> vol <> 0 -> (sp = 1 \/ sp = 2)%nat -> (forall t pol, In t (split_on "+" xt) -> lib t pol <> None) -> length ch = length pos -> tshape c = [sp; K; B] ++ ns -> tshape occ = [sp; K; B] ->
  exists e, total_energy (xc_density lib vg) c pos ch G kpts vol (Some occ) false xt = Ok e.
Proof.
  intros ns K HA HG Hv Hs HL Hl Sc So. destruct (g_vectors_dual A n1 n2 n3 G HA HG) as (SG & _). fold ns in SG.
  assert (Hn : Forall (fun n => (0 < n)%nat) ns) by (destruct (proj1 (g_vectors_ok A n1 n2 n3) (ex_intro _ G HG)) as (? & ? & ?); repeat constructor; lia).
  assert (HN : 0 < INR (nprod ns)) by (apply lt_0_INR, nprod_pos, Hn).
  unfold total_energy, total_energy_split.
  destruct (wave_grid_eq c vol [sp; K; B] ns eq_refl Sc) as (w & Ew & _). rewrite Ew. cbn [bind].
  destruct (density_eq c vol occ sp K B n1 n2 n3 Sc So) as (d0 & E0 & S0 & G0). destruct (wave_to_density_eq c vol occ sp K B n1 n2 n3 w d0 Sc So Ew E0) as (d & Ed & Eq).
  unfold wave_to_density_reciprocal. rewrite Ed. cbn [bind]. fold ns in S0. assert (Sd : tshape d = sp :: ns) by (rewrite (proj1 Eq); exact S0).
  destruct (fftn3_eq (tmap RtoC d) [sp] ns eq_refl Sd) as (D & -> & SD & GD). cbn [bind].
  destruct (kinetic_some G kpts c occ sp B n1 n2 n3 SG Sc So) as (t & -> & _ & Gt). cbn [bind].
  rewrite (e_external_eq D pos ch G vol sp n1 n2 n3 SD SG Hl Hv HN). cbn [bind].
  rewrite (e_hartree_eq D G vol false sp n1 n2 n3 SD SG (fun x => g_nonzero A n1 n2 n3 G x HA HG)). cbn [bind].
  assert (HP : forall t, In t (split_on "+" xt) -> pick lib t (sp =? 2)%nat <> None) by (intros t0 Ht; unfold pick; apply HL; exact Ht).
  rewrite (e_xc_point lib vg xt d G vol sp n1 n2 n3 Hs Sd SG HP). cbn [bind]. eexists. reflexivity.
Qed.
Lemma electrons_force lib vg xt A c pos ch G kpts vol occ sp B n1 n2 n3 u : let ns := [n1; n2; n3] in let K := length kpts in
  m3det A <> 0 -> g_vectors A ns = Ok G -> vol <> 0 -> (sp = 1 \/ sp = 2)%nat -> (forall t pol, In t (split_on "+" xt) -> lib t pol <> None) -> length ch = length pos -> tshape c = [sp; K; B] ++ ns -> tshape occ = [sp; K; B] ->
  exists D E, density_grid_reciprocal c vol (Some occ) = Ok D /\ (forall t, total_energy (xc_density lib vg) c (displaced pos u t) ch G kpts vol (Some occ) false xt = Ok (E t)) /\
    is_derive E 0 (- work (length pos) (electron_force ns G D pos ch) u).
Proof.
  intros ns K HA HG Hv Hs HL Hl Sc So. destruct (energy_returns lib vg xt A c pos ch G kpts vol occ sp B n1 n2 n3 HA HG Hv Hs HL Hl Sc So) as (e & He).
  exact (energy_derive _ xt A c pos ch G kpts vol occ e sp B n1 n2 n3 u HA HG Hv Hl Sc So He).
Qed.
Lemma erfc_derive x : is_derive erfc x (- (2 / sqrt PI) * exp (- x ^ 2)).
Proof.
  unfold erfc. assert (H : is_derive (fun y : R => RInt (fun t => exp (- t ^ 2)) 0 y) x (exp (- x ^ 2))).
  { apply (is_derive_RInt (fun t : R => exp (- t ^ 2)) (fun y : R => RInt (fun t => exp (- t ^ 2)) 0 y) 0 x).
    - apply filter_forall. intros y. apply (RInt_correct (V := R_CompleteNormedModule)). exact (gauss_int 0 y).
    - apply (ex_derive_continuous (V := R_NormedModule)). auto_derive. exact I. }
  apply (is_derive_ext (fun y : R => 1 + - (2 / sqrt PI) * RInt (fun t => exp (- t ^ 2)) 0 y)); [intros y; match goal with |- ?a = ?b => change (@eq R a b) end; ring|].
  replace (- (2 / sqrt PI) * exp (- x ^ 2)) with (0 + - (2 / sqrt PI) * exp (- x ^ 2)) by ring. apply (is_derive_plus (V := R_NormedModule)); [apply (is_derive_const (V := R_NormedModule))|].
  apply (is_derive_scal (fun y : R => RInt (fun t => exp (- t ^ 2)) 0 y)). exact H.
Qed.
Lemma far_from_guard v : norm2 v = 0 \/ 1 <= norm2 v -> sqrt (norm2 v + / 10 ^ 20) <> / 10 ^ 9.
Proof.
  intros H E. assert (P : 0 <= norm2 v + / 10 ^ 20) by (pose proof (norm2_nonneg v); assert (0 < / 10 ^ 20) by (apply Rinv_0_lt_compat, pow_lt; lra); lra).
  apply (f_equal (fun z => z * z)) in E. rewrite sqrt_sqrt in E by exact P. destruct H as [H|H]; lra.
Qed.
