(** The Gaussian integral, the error function, and the Ewald energy against its formula. *)
From Coq Require Import Reals Lra Lia Permutation.
From Coquelicot Require Import Coquelicot.
From Coq Require Import List Arith ZArith Bool.
From Verif Require Import Base Sums Tensor GridModel Lin3 VecModel VecProofs EwaldModel EwaldSpec EwaldProofs EnergyProofs.
Import ListNotations.
Local Open Scope R_scope.

(** * The error function *)
Definition gauss (t : R) : R := exp (- t ^ 2).
Definition G0 (x : R) : R := RInt gauss 0 x.
Definition h0 (x t : R) : R := exp (- (x ^ 2 * (1 + t ^ 2))) / (1 + t ^ 2).
Definition H0 (x : R) : R := RInt (h0 x) 0 1.

Lemma gauss_cont t : continuous gauss t.
Proof. apply (ex_derive_continuous gauss). unfold gauss. auto_derive. exact I. Qed.
Lemma gauss_int a b : ex_RInt gauss a b.
Proof. apply (ex_RInt_continuous (V := R_CompleteNormedModule)). intros; apply gauss_cont. Qed.
Lemma G0_derive (x : R) : is_derive G0 x (gauss x).
Proof.
  apply (is_derive_RInt gauss G0 0 x); [|apply gauss_cont].
  apply filter_forall. intros y. apply (RInt_correct (V := R_CompleteNormedModule)), gauss_int.
Qed.
Lemma one_sq t : 1 + t ^ 2 <> 0. Proof. pose proof (pow2_ge_0 t). lra. Qed.
Lemma h0_derive (x t : R) : is_derive (fun u => h0 u t) x (- 2 * x * exp (- (x ^ 2 * (1 + t ^ 2)))).
Proof. unfold h0. pose proof (one_sq t). auto_derive; [exact I|]. change (t * (t * 1)) with (t ^ 2). change (x * (x * 1)) with (x ^ 2). field. exact H. Qed.
Lemma h0_cont x t : continuous (h0 x) t.
Proof. apply (ex_derive_continuous (h0 x)). unfold h0. auto_derive. exact (one_sq t). Qed.
Lemma h0_int x a b : ex_RInt (h0 x) a b.
Proof. apply (ex_RInt_continuous (V := R_CompleteNormedModule)). intros; apply h0_cont. Qed.

Lemma h0_cont2 x t : continuity_2d_pt (fun u v => Derive (fun z => h0 z v) u) x t.
Proof.
  apply (continuity_2d_pt_ext (fun u v => - 2 * u * exp (- (u * u * (1 + v * v))))).
  { intros u v. symmetry. refine (eq_trans (is_derive_unique _ _ _ (h0_derive u v)) _). f_equal. f_equal. ring. }
  apply continuity_2d_pt_mult; [apply continuity_2d_pt_mult; [apply continuity_2d_pt_const|apply continuity_2d_pt_id1]|].
  apply (continuity_1d_2d_pt_comp exp (fun u v => - (u * u * (1 + v * v)))); [apply derivable_continuous_pt, derivable_pt_exp|].
  apply continuity_2d_pt_opp. apply continuity_2d_pt_mult; [apply continuity_2d_pt_mult; apply continuity_2d_pt_id1|].
  apply continuity_2d_pt_plus; [apply continuity_2d_pt_const|]. apply continuity_2d_pt_mult; apply continuity_2d_pt_id2.
Qed.
Lemma exp_split (x t : R) : - 2 * x * exp (- (x ^ 2 * (1 + t ^ 2))) = - 2 * exp (- x ^ 2) * (x * exp (- (x * t + 0) ^ 2)).
Proof. replace (exp (- (x ^ 2 * (1 + t ^ 2)))) with (exp (- x ^ 2) * exp (- (x * t + 0) ^ 2)) by (rewrite <- exp_plus; f_equal; ring). ring. Qed.
Lemma H0_derive (x : R) : is_derive H0 x (- 2 * gauss x * G0 x).
Proof.
  replace (- 2 * gauss x * G0 x) with (RInt (fun t => Derive (fun u => h0 u t) x) 0 1).
  - apply (is_derive_RInt_param h0 0 1 x); [|intros; apply h0_cont2|].
    + apply filter_forall. intros y t _. eexists. apply h0_derive.
    + apply filter_forall. intros y. apply h0_int.
  - transitivity (RInt (fun t => scal (- 2 * gauss x) (scal x (gauss (x * t + 0)))) 0 1).
    { apply RInt_ext. intros t _. refine (eq_trans (is_derive_unique _ _ _ (h0_derive x t)) _). apply exp_split. }
    transitivity (scal (- 2 * gauss x) (RInt (fun t => scal x (gauss (x * t + 0))) 0 1)).
    { apply (RInt_scal (V := R_CompleteNormedModule)). apply (ex_RInt_comp_lin (V := R_CompleteNormedModule)). apply gauss_int. }
    transitivity (scal (- 2 * gauss x) (RInt gauss (x * 0 + 0) (x * 1 + 0))).
    { f_equal. apply (RInt_comp_lin (V := R_CompleteNormedModule)). apply gauss_int. }
    unfold scal; cbn; unfold mult; cbn. f_equal. unfold G0. replace (x * 0 + 0) with 0 by ring. replace (x * 1 + 0) with x by ring. reflexivity.
Qed.
Lemma H0_nonneg x : 0 <= H0 x.
Proof. apply RInt_ge_0; [lra|apply h0_int|]. intros t _. unfold h0. apply Rlt_le, Rdiv_lt_0_compat; [apply exp_pos|]. pose proof (pow2_ge_0 t). lra. Qed.
Lemma h0_zero (t : R) : / (1 + t ^ 2) = h0 0 t.
Proof. unfold h0. replace (- (0 ^ 2 * (1 + t ^ 2))) with 0 by ring. rewrite exp_0. field. apply one_sq. Qed.
Lemma H0_zero : H0 0 = PI / 4.
Proof.
  unfold H0. rewrite <- atan_1. apply is_RInt_unique.
  replace (atan 1) with (minus (atan 1) (atan 0)) by (unfold minus, plus, opp; cbn; rewrite atan_0; ring).
  apply (is_RInt_ext (fun t => / (1 + t ^ 2))).
  { intros t _. apply h0_zero. }
  apply (is_RInt_derive (V := R_CompleteNormedModule) atan).
  - intros t _. apply is_derive_Reals. apply derivable_pt_lim_atan.
  - intros t _. apply (ex_derive_continuous (fun t => / (1 + t ^ 2))). auto_derive. exact (one_sq t).
Qed.
Lemma gauss_square x : G0 x ^ 2 + H0 x = PI / 4.
Proof.
  rewrite <- H0_zero. replace (H0 0) with (G0 0 ^ 2 + H0 0) by (unfold G0; rewrite RInt_point; unfold zero; cbn; ring).
  destruct (MVT_gen (fun y => G0 y ^ 2 + H0 y) 0 x (fun _ => 0)) as (c & _ & Hc).
  - intros y _. evar_last; [apply (is_derive_plus (fun y => G0 y ^ 2) H0); [|apply H0_derive]|].
    + apply (is_derive_pow G0 2 y (gauss y)), G0_derive.
    + unfold plus; cbn. ring.
  - intros y _. apply continuity_pt_filterlim. apply (ex_derive_continuous (fun y => G0 y ^ 2 + H0 y)).
    eexists. apply (is_derive_plus (fun y => G0 y ^ 2) H0); [|apply H0_derive]. apply (is_derive_pow G0 2 y (gauss y)), G0_derive.
  - lra.
Qed.
Lemma G0_split x y : G0 y = G0 x + RInt gauss x y.
Proof. symmetry. apply (RInt_Chasles (V := R_CompleteNormedModule) gauss 0 x y); apply gauss_int. Qed.
Lemma G0_mono x y : x <= y -> G0 x <= G0 y.
Proof.
  intros H. rewrite (G0_split x y).
  assert (0 <= RInt gauss x y). { apply RInt_ge_0; [exact H|apply gauss_int|]. intros t _. apply Rlt_le, exp_pos. } lra.
Qed.
Lemma G0_zero : G0 0 = 0. Proof. unfold G0. rewrite RInt_point. reflexivity. Qed.
Lemma G0_bound x : G0 x <= sqrt PI / 2.
Proof.
  destruct (Rle_dec (G0 x) 0) as [H|H]; [pose proof (sqrt_pos PI); lra|].
  apply Rsqr_incr_0_var; [|pose proof (sqrt_pos PI); lra]. unfold Rsqr. pose proof (gauss_square x). pose proof (H0_nonneg x).
  replace (sqrt PI / 2 * (sqrt PI / 2)) with (PI / 4). { lra. }
  pose proof PI_RGT_0. rewrite <- (sqrt_sqrt PI) at 1 by lra. field.
Qed.
Lemma G0_lip x y : Rabs (G0 x - G0 y) <= Rabs (x - y).
Proof.
  assert (F : forall x y, x <= y -> Rabs (G0 x - G0 y) <= Rabs (x - y)).
  { clear. intros x y H. rewrite (G0_split x y).
    assert (0 <= RInt gauss x y). { apply RInt_ge_0; [exact H|apply gauss_int|]. intros t _. apply Rlt_le, exp_pos. }
    assert (Hu : RInt gauss x y <= (y - x) * 1).
    { eapply Rle_trans; [apply (RInt_le gauss (fun _ => 1)); [exact H|apply gauss_int|apply (ex_RInt_const (V := R_NormedModule))|]|].
      - intros t _. unfold gauss. rewrite <- exp_0. destruct (Req_dec t 0) as [->|N]; [right; f_equal; ring|]. left. apply exp_increasing. pose proof (pow2_gt_0 t N). lra.
      - right. exact (RInt_const (V := R_CompleteNormedModule) x y 1). }
    rewrite Rabs_left1 by lra. rewrite Rabs_left1 by lra. lra. }
  destruct (Rle_dec x y) as [H|H]; [apply F; exact H|]. rewrite Rabs_minus_sym, (Rabs_minus_sym x). apply F. lra.
Qed.
Lemma sqrt_PI_pos : 0 < sqrt PI. Proof. apply sqrt_lt_R0, PI_RGT_0. Qed.
Lemma erfc_contract : erfc_ok erfc.
Proof.
  pose proof sqrt_PI_pos as Hs. assert (Hi : 0 < 2 / sqrt PI) by (apply Rdiv_lt_0_compat; lra). split.
  - intros x Hx. unfold erfc. change (RInt _ 0 x) with (G0 x). pose proof (G0_mono 0 x Hx) as H0'. rewrite G0_zero in H0'. pose proof (G0_bound x) as H1'. split.
    + assert (2 / sqrt PI * G0 x <= 2 / sqrt PI * (sqrt PI / 2)) by (apply Rmult_le_compat_l; lra).
      replace (2 / sqrt PI * (sqrt PI / 2)) with 1 in H by (field; lra). lra.
    + assert (0 <= 2 / sqrt PI * G0 x) by (apply Rmult_le_pos; lra). lra.
  - intros x y. unfold erfc. change (RInt _ 0 x) with (G0 x). change (RInt _ 0 y) with (G0 y).
    replace (1 - 2 / sqrt PI * G0 x - (1 - 2 / sqrt PI * G0 y)) with (2 / sqrt PI * (G0 y - G0 x)) by ring.
    rewrite Rabs_mult, (Rabs_right (2 / sqrt PI)), (Rabs_minus_sym x) by lra. apply Rmult_le_compat_l; [lra|]. apply G0_lip.
Qed.

(** * The energy against the formula *)
Lemma norm_pos v : v <> vzero -> 0 < norm v.
Proof. intros H. unfold norm. apply sqrt_lt_R0. destruct (Rle_lt_or_eq_dec _ _ (norm2_nonneg v)) as [L|L]; [exact L|]. exfalso. apply H, norm2_zero. auto. Qed.
Lemma norm_zero v : norm v = 0 <-> v = vzero.
Proof.
  split; [|intros ->; unfold norm; rewrite (proj2 (norm2_zero vzero) eq_refl); apply sqrt_0].
  intros H. destruct (Req_dec (norm2 v) 0) as [E|E]; [apply norm2_zero; exact E|]. exfalso. assert (Hv : v <> vzero) by (intros ->; apply E, norm2_zero; reflexivity).
  pose proof (norm_pos v Hv). lra.
Qed.
Lemma recip_formula A n1 n2 n3 G vol eta tau : m3det A <> 0 -> g_vectors A [n1; n2; n3] = Ok G -> vol <> 0 -> eta <> 0 ->
  ew_rprcl G vol eta tau = sumR (map (tget G) (indices (tshape G))) (smooth vol eta tau).
Proof.
  intros HA HG Hv He. unfold ew_rprcl. rewrite sumR_map. destruct (g_vectors_dual A n1 n2 n3 G HA HG) as (S & Hz & _).
  unfold Rdiv at 1. rewrite !Rmult_assoc, <- (sumR_scal_r (indices (tshape G))). apply sumR_ext. intros i Hi. apply in_indices in Hi. rewrite S in Hi.
  unfold smooth. destruct (is_origin i) eqn:Eo.
  - rewrite (origin3 _ _ _ _ Hi Eo). destruct (Req_EM_T _ 0) as [_|N]; [ring|]. exfalso. apply N. apply norm_zero. exact Hz.
  - pose proof (g_nonzero A n1 n2 n3 G i HA HG Hi Eo) as Hn. destruct (Req_EM_T (norm (tget G i)) 0) as [E|N].
    + exfalso. apply Hn. rewrite <- norm_sq, E. ring.
    + rewrite norm_sq. replace (- norm2 (tget G i) / (4 * eta ^ 2)) with (- norm2 (tget G i) / 4 / eta ^ 2) by (field; auto). field. auto.
Qed.
Lemma classic_v (v : v3) : v = vzero \/ v <> vzero.
Proof. destruct (Req_dec (norm2 v) 0) as [E|E]; [left; apply norm2_zero; exact E|right; intros ->; apply E, norm2_zero; reflexivity]. Qed.
Lemma lip_const : 2 / sqrt PI <= 2.
Proof.
  pose proof sqrt_PI_pos. assert (1 <= sqrt PI). { rewrite <- sqrt_1. apply sqrt_le_1_alt. pose proof PI2_3_2. unfold PI2 in *. lra. }
  apply (Rmult_le_reg_r (sqrt PI)); [lra|]. replace (2 / sqrt PI * sqrt PI) with 2 by (field; lra). lra.
Qed.
Lemma screened_near f eta v delta : erfc_ok f -> 0 <= eta -> / 10 ^ 9 <= delta -> v = vzero \/ delta <= norm v ->
  Rabs (f (eta * guarded_norm v) / guarded_norm v - screened f eta v) <= regular_error eta delta.
Proof.
  intros [F1 F2] He Hd Hv. assert (P9 : 0 < / 10 ^ 9) by apply pow10_inv_pos. assert (P20 : 0 < / 10 ^ 20) by apply pow10_inv_pos.
  assert (Hd0 : 0 < delta) by lra. assert (D2 : 0 < / delta ^ 2) by (apply Rinv_0_lt_compat, pow_lt; lra). assert (D3 : 0 < / delta ^ 3) by (apply Rinv_0_lt_compat, pow_lt; lra).
  assert (T2 : 0 <= eta / delta ^ 2) by (apply Rmult_le_pos; lra).
  unfold regular_error. destruct (classic_v v) as [->|Hn].
  - unfold screened. rewrite (proj2 (norm_zero vzero) eq_refl). destruct (Req_EM_T 0 0) as [_|N]; [|contradiction]. rewrite Rminus_0_r.
    unfold guarded_norm. rewrite (proj2 (norm2_zero vzero) eq_refl), Rplus_0_l.
    assert (E : sqrt (/ 10 ^ 20) = / 10 ^ 10). { replace (/ 10 ^ 20) with (/ 10 ^ 10 * / 10 ^ 10) by (field; lra). apply sqrt_square. left. apply pow10_inv_pos. }
    rewrite E. destruct (Rle_dec (/ 10 ^ 10) (/ 10 ^ 9)) as [_|N]; [|exfalso; lra].
    destruct (F1 (eta * 10 ^ 20)) as [A1 A2]; [apply Rmult_le_pos; lra|]. unfold Rdiv at 1. rewrite Rabs_mult, (Rabs_right (f _)), (Rabs_right (/ 10 ^ 20)) by lra.
    apply Rle_trans with (1 * / 10 ^ 20); [apply Rmult_le_compat_r; lra|]. rewrite Rmult_1_l. rewrite <- (Rmult_1_r (/ 10 ^ 20)) at 1. apply Rmult_le_compat_l; lra.
  - destruct Hv as [Hv|Hv]; [contradiction|]. pose proof (norm_pos v Hn) as Hd'. unfold screened. set (d := norm v) in *. destruct (Req_EM_T d 0) as [E|_]; [lra|].
    unfold guarded_norm. replace (norm2 v) with (d * d) by (unfold d; rewrite <- norm_sq; ring). set (r := sqrt (d * d + / 10 ^ 20)).
    assert (Hrr : r * r = d * d + / 10 ^ 20) by (apply sqrt_sqrt; nra). assert (Hr0 : 0 <= r) by apply sqrt_pos. assert (Hrd : d < r) by nra.
    destruct (Rle_dec r (/ 10 ^ 9)) as [N|_]; [exfalso; lra|].
    assert (Hdiff : (r - d) * (2 * d) <= / 10 ^ 20) by nra.
    assert (Hdiff' : r - d <= / 10 ^ 20 / (2 * delta)).
    { apply (Rmult_le_reg_r (2 * delta)); [lra|]. replace (/ 10 ^ 20 / (2 * delta) * (2 * delta)) with (/ 10 ^ 20) by (field; lra). nra. }
    destruct (F1 (eta * d)) as [A1 A2]; [apply Rmult_le_pos; lra|].
    replace (f (eta * r) / r - f (eta * d) / d) with ((f (eta * r) - f (eta * d)) / r - f (eta * d) * ((r - d) / (r * d))) by (field; lra).
    assert (B1 : Rabs ((f (eta * r) - f (eta * d)) / r) <= / 10 ^ 20 * (eta / delta ^ 2)).
    { unfold Rdiv at 1. rewrite Rabs_mult, (Rabs_right (/ r)) by (apply Rle_ge, Rlt_le, Rinv_0_lt_compat; lra).
      apply Rle_trans with (2 * (eta * (/ 10 ^ 20 / (2 * delta))) * / delta).
      - apply Rmult_le_compat; [apply Rabs_pos|left; apply Rinv_0_lt_compat; lra| |apply Rinv_le_contravar; lra].
        eapply Rle_trans; [apply F2|]. replace (eta * r - eta * d) with (eta * (r - d)) by ring. rewrite Rabs_mult, (Rabs_right eta), (Rabs_right (r - d)) by lra.
        apply Rmult_le_compat; [left; apply Rdiv_lt_0_compat; [lra|apply sqrt_PI_pos]|apply Rmult_le_pos; lra|apply lip_const|apply Rmult_le_compat_l; lra].
      - right. field. lra. }
    assert (B2 : Rabs (f (eta * d) * ((r - d) / (r * d))) <= / 10 ^ 20 * / delta ^ 3).
    { assert (Q : 0 <= (r - d) / (r * d)) by (apply Rmult_le_pos; [lra|left; apply Rinv_0_lt_compat; nra]).
      rewrite Rabs_mult, (Rabs_right (f _)), (Rabs_right ((r - d) / (r * d))) by lra.
      apply Rle_trans with (1 * (/ 10 ^ 20 / (2 * delta) * / (delta * delta))).
      - apply Rmult_le_compat; [lra|lra|lra|]. apply Rmult_le_compat; [lra|left; apply Rinv_0_lt_compat; nra|exact Hdiff'|apply Rinv_le_contravar; nra].
      - replace (1 * (/ 10 ^ 20 / (2 * delta) * / (delta * delta))) with (/ 10 ^ 20 * / delta ^ 3 * / 2) by (field; lra).
        assert (0 < / 10 ^ 20 * / delta ^ 3) by (apply Rmult_lt_0_compat; lra). lra. }
    eapply Rle_trans; [apply Rabs_triang|]. rewrite Rabs_Ropp. lra.
Qed.

Lemma sumR_abs {X} (l : list X) f : Rabs (sumR l f) <= sumR l (fun x => Rabs (f x)).
Proof. induction l as [|x l IH]; cbn; [rewrite Rabs_R0; lra|]. eapply Rle_trans; [apply Rabs_triang|]. unfold sumR in *. lra. Qed.
Lemma pair_sum_near l f g e : 0 <= e -> (forall a b, In a l -> In b l -> Rabs (f (vsub (fst b) (fst a)) - g (vsub (fst b) (fst a))) <= e) ->
  Rabs (pair_sum l f - pair_sum l g) <= sumR (charges l) Rabs ^ 2 * e.
Proof.
  intros He H. unfold pair_sum, charges. rewrite <- sumR_minus. eapply Rle_trans; [apply sumR_abs|]. rewrite sumR_map.
  replace (sumR l (fun x => Rabs (snd x)) ^ 2 * e) with (sumR l (fun a => Rabs (snd a) * (sumR l (fun b => Rabs (snd b)) * e))).
  2: { rewrite (sumR_scal_r l). ring. }
  apply sumR_le. intros a Ha. rewrite <- sumR_minus. eapply Rle_trans; [apply sumR_abs|].
  rewrite <- sumR_scal_r, <- sumR_scal. apply sumR_le. intros b Hb.
  replace (snd a * snd b * f (vsub (fst b) (fst a)) - snd a * snd b * g (vsub (fst b) (fst a))) with (snd a * (snd b * (f (vsub (fst b) (fst a)) - g (vsub (fst b) (fst a))))) by ring.
  rewrite !Rabs_mult. apply Rmult_le_compat_l; [apply Rabs_pos|]. apply Rmult_le_compat_l; [apply Rabs_pos|]. apply H; assumption.
Qed.
Lemma regular_error_pos eta delta : 0 <= eta -> 0 < delta -> 0 <= regular_error eta delta.
Proof.
  intros He Hd. unfold regular_error. apply Rmult_le_pos; [left; apply pow10_inv_pos|]. assert (0 < / delta ^ 3) by (apply Rinv_0_lt_compat, pow_lt; lra).
  assert (0 <= eta / delta ^ 2) by (apply Rmult_le_pos; [lra|left; apply Rinv_0_lt_compat, pow_lt; lra]). lra.
Qed.
Lemma ewald_near f l A n1 n2 n3 G vol eta T delta e : erfc_ok f -> m3det A <> 0 -> g_vectors A [n1; n2; n3] = Ok G -> vol <> 0 -> 0 < eta -> / 10 ^ 9 <= delta ->
  (forall a b t, In a l -> In b l -> In t T -> vsub (vsub (fst b) (fst a)) t = vzero \/ delta <= norm (vsub (vsub (fst b) (fst a)) t)) ->
  ewald_coulomb_repulsion f (positions l) (charges l) G vol eta T = Ok e ->
  Rabs (e - ewald_formula f l (map (tget G) (indices (tshape G))) vol eta T) <= sumR (charges l) Rabs ^ 2 * INR (length T) * regular_error eta delta / 2.
Proof.
  intros Hf HA HG Hv He Hd Hsep H. rewrite ewald_pairs in H. apply Ok_inj in H. subst e. unfold ewald_formula, self_part.
  assert (P9 : 0 < / 10 ^ 9) by apply pow10_inv_pos.
  set (F := fun tau => sumR T (fun t => screened f eta (vsub tau t)) + sumR (map (tget G) (indices (tshape G))) (smooth vol eta tau)).
  pose proof (sqrt_PI_pos) as Hs.
  match goal with |- Rabs ?x <= _ => replace x with ((pair_sum l (kern f G vol eta T) - pair_sum l F) / 2) by (field; repeat split; lra) end.
  unfold Rdiv. rewrite Rabs_mult, (Rabs_right (/ 2)) by lra. apply Rmult_le_compat_r; [lra|]. rewrite Rmult_assoc. apply pair_sum_near.
  { apply Rmult_le_pos; [apply pos_INR|]. apply regular_error_pos; lra. }
  intros a b Ha Hb. unfold kern, F. rewrite (recip_formula A n1 n2 n3 G vol eta _ HA HG Hv ltac:(lra)).
  match goal with |- Rabs (?x + ?z - (?y + ?z)) <= _ => replace (x + z - (y + z)) with (x - y) by ring end.
  unfold ew_ovlp. rewrite <- sumR_minus. eapply Rle_trans; [apply sumR_abs|].
  replace (INR (length T) * regular_error eta delta) with (sumR T (fun _ => regular_error eta delta)) by (rewrite sumR_const; ring).
  apply sumR_le. intros t Ht. apply screened_near; [exact Hf|lra|exact Hd|]. apply Hsep; assumption.
Qed.
