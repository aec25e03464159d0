From Coq Require Import Reals Lra Lia.
From Coquelicot Require Import Complex.
From Coq Require Import List Arith ZArith Bool Permutation.
From Verif Require Import Base Sums SphModel SphSpec.
Import ListNotations.
Local Open Scope R_scope.

(** ** Polar angle in the plane *)
Lemma sqrt_ratio x y : 0 < x -> sqrt (x ^ 2 + y ^ 2) = x * sqrt (1 + (y / x)²).
Proof.
  intros H. replace (x ^ 2 + y ^ 2) with (x ^ 2 * (1 + (y / x)²)) by (unfold Rsqr; field; lra).
  rewrite sqrt_mult; [|apply pow2_ge_0|pose proof (Rle_0_sqr (y / x)); lra]. rewrite <- Rsqr_pow2, sqrt_Rsqr by lra. reflexivity.
Qed.
Lemma atan_polar x y : 0 < x -> sqrt (x ^ 2 + y ^ 2) * cos (atan (y / x)) = x /\ sqrt (x ^ 2 + y ^ 2) * sin (atan (y / x)) = y.
Proof.
  intros H. rewrite cos_atan, sin_atan, sqrt_ratio by exact H.
  assert (0 < sqrt (1 + (y / x)²)) by (apply sqrt_lt_R0; pose proof (Rle_0_sqr (y / x)); lra).
  split; field; lra.
Qed.
Lemma arctan2_polar x y : sqrt (x ^ 2 + y ^ 2) * cos (arctan2 y x) = x /\ sqrt (x ^ 2 + y ^ 2) * sin (arctan2 y x) = y.
Proof.
  unfold arctan2. destruct (Rlt_dec 0 x) as [Hx|Hx]; [apply atan_polar; exact Hx|].
  destruct (Rlt_dec x 0) as [Hx'|Hx'].
  - assert (G : sqrt (x ^ 2 + y ^ 2) * cos (atan (y / x)) = - x /\ sqrt (x ^ 2 + y ^ 2) * sin (atan (y / x)) = - y).
    { replace (y / x) with ((- y) / (- x)) by (field; lra). replace (x ^ 2 + y ^ 2) with ((- x) ^ 2 + (- y) ^ 2) by ring. apply atan_polar. lra. }
    destruct G as [G1 G2]. destruct (Rle_dec 0 y).
    + rewrite neg_cos, neg_sin. split; lra.
    + unfold Rminus. rewrite cos_plus, sin_plus, cos_neg, sin_neg, cos_PI, sin_PI. split; lra.
  - assert (x = 0) as -> by lra. replace (0 ^ 2 + y ^ 2) with (y ^ 2) by ring.
    destruct (Rlt_dec 0 y); [|destruct (Rlt_dec y 0)].
    + rewrite <- Rsqr_pow2, sqrt_Rsqr by lra. rewrite cos_PI2, sin_PI2. split; lra.
    + replace (y ^ 2) with ((- y)²) by (unfold Rsqr; ring). rewrite sqrt_Rsqr by lra. rewrite cos_neg, sin_neg, cos_PI2, sin_PI2. split; lra.
    + assert (y = 0) as -> by lra. replace (0 ^ 2) with 0 by ring. rewrite sqrt_0. split; ring.
Qed.
Lemma arctan2_range y x : - PI < arctan2 y x <= PI.
Proof.
  unfold arctan2. pose proof PI_RGT_0 as HP. pose proof (atan_bound (y / x)) as [B1 B2].
  destruct (Rlt_dec 0 x); [lra|]. destruct (Rlt_dec x 0).
  - assert (S : y / x = (- y) * / (- x)) by (field; lra). assert (0 < / (- x)) by (apply Rinv_0_lt_compat; lra).
    destruct (Rle_dec 0 y).
    + assert (atan (y / x) <= 0). { rewrite <- atan_0. assert (y / x <= 0) by (rewrite S; nra). destruct (Req_dec (y / x) 0) as [->|]; [lra|]. left. apply atan_increasing. lra. }
      lra.
    + assert (0 < atan (y / x)). { rewrite <- atan_0. apply atan_increasing. rewrite S. nra. }
      lra.
  - destruct (Rlt_dec 0 y); [lra|]. destruct (Rlt_dec y 0); lra.
Qed.

(** ** mod *)
Lemma Int_part_unique x k : IZR k <= x < IZR k + 1 -> Int_part x = k.
Proof.
  intros [H1 H2]. destruct (base_Int_part x) as [B1 B2].
  assert (IZR (Int_part x) < IZR (k + 1)) by (rewrite plus_IZR; lra).
  assert (IZR k < IZR (Int_part x + 1)) by (rewrite plus_IZR; lra).
  apply lt_IZR in H. apply lt_IZR in H0. lia.
Qed.
Lemma rmod_angle a : - PI < a <= PI -> rmod (a + 2 * PI) (2 * PI) = if Rlt_dec a 0 then a + 2 * PI else a.
Proof.
  intros H. pose proof PI_RGT_0 as HP. unfold rmod.
  assert (E : (a + 2 * PI) / (2 * PI) = a / (2 * PI) + 1) by (field; lra).
  assert (H2 : 0 < / (2 * PI)) by (apply Rinv_0_lt_compat; lra).
  assert (H3 : 2 * PI * / (2 * PI) = 1) by (apply Rinv_r; lra).
  destruct (Rlt_dec a 0).
  - rewrite (Int_part_unique _ 0); [ring|]. rewrite E. unfold Rdiv. nra.
  - rewrite (Int_part_unique _ 1); [ring|]. rewrite E. unfold Rdiv. nra.
Qed.
Lemma cos_sin_2PI a : cos (a + 2 * PI) = cos a /\ sin (a + 2 * PI) = sin a.
Proof. pose proof (cos_period a 1) as H1. pose proof (sin_period a 1) as H2. cbn [INR] in *. rewrite Rmult_1_r in *. auto. Qed.

(** ** The coordinates *)
Lemma norm3_sq v : norm3 v * norm3 v = vx v ^ 2 + vy v ^ 2 + vz v ^ 2.
Proof. unfold norm3. apply sqrt_sqrt. pose proof (pow2_ge_0 (vx v)). pose proof (pow2_ge_0 (vy v)). pose proof (pow2_ge_0 (vz v)). lra. Qed.
Lemma norm3_nonneg v : 0 <= norm3 v.
Proof. apply sqrt_pos. Qed.
Lemma norm3_zero v : norm3 v = 0 <-> v = origin.
Proof.
  split.
  - intros H. pose proof (norm3_sq v) as S. rewrite H in S. destruct v as [[x y] z]. unfold vx, vy, vz in S. cbn [fst snd] in S.
    pose proof (pow2_ge_0 x). pose proof (pow2_ge_0 y). pose proof (pow2_ge_0 z).
    assert (x ^ 2 = 0) by lra. assert (y ^ 2 = 0) by lra. assert (z ^ 2 = 0) by lra.
    unfold origin. repeat f_equal; apply Rsqr_0_uniq; unfold Rsqr; lra.
  - intros ->. unfold norm3, origin, vx, vy, vz. cbn [fst snd]. replace (0 ^ 2 + 0 ^ 2 + 0 ^ 2) with 0 by ring. apply sqrt_0.
Qed.
Lemma rclip_id x : -1 <= x <= 1 -> rclip x (-1) 1 = x.
Proof. intros H. unfold rclip. rewrite Rmax_left, Rmin_left by lra. reflexivity. Qed.

Lemma spherical_inverse eps v : v <> origin ->
  let s := cartesian_to_spherical eps v in
  spherical_point s = v /\ vx s = norm3 v /\ 0 < vx s /\ 0 <= vy s < 2 * PI /\ 0 <= vz s <= PI.
Proof.
  intros Hv. assert (Hn : norm3 v <> 0) by (intros E; apply Hv, norm3_zero, E). pose proof (norm3_nonneg v) as Hp. pose proof (norm3_sq v) as Hs.
  cbv zeta. unfold cartesian_to_spherical. destruct (Req_EM_T (norm3 v) 0) as [E|_]; [contradiction|].
  set (r := norm3 v) in *. clearbody r. destruct v as [[x y] z]. unfold vx, vy, vz in *. cbn [fst snd] in *.
  assert (Hr : 0 < r) by lra. assert (Hi : 0 < / r) by (apply Rinv_0_lt_compat; exact Hr). assert (Hri : r * / r = 1) by (apply Rinv_r; lra).
  assert (Hz : (z / r) ^ 2 <= 1). { replace ((z / r) ^ 2) with (z ^ 2 * (/ r * / r)) by (field; lra). replace 1 with ((x ^ 2 + y ^ 2 + z ^ 2) * (/ r * / r)) by (rewrite <- Hs; field; lra).
    apply Rmult_le_compat_r; [nra|]. pose proof (pow2_ge_0 x). pose proof (pow2_ge_0 y). lra. }
  assert (Hz1 : -1 <= z / r <= 1) by nra. rewrite rclip_id by exact Hz1.
  pose proof (arctan2_range y x) as Ha. pose proof (arctan2_polar x y) as [P1 P2].
  rewrite rmod_angle by exact Ha. set (a := arctan2 y x) in *.
  assert (Ec : cos (if Rlt_dec a 0 then a + 2 * PI else a) = cos a /\ sin (if Rlt_dec a 0 then a + 2 * PI else a) = sin a)
    by (destruct (Rlt_dec a 0); [apply cos_sin_2PI|split; reflexivity]).
  destruct Ec as [Ec Es]. unfold spherical_point, vx, vy, vz. cbn [fst snd]. rewrite Ec, Es.
  assert (Esn : r * sin (acos (z / r)) = sqrt (x ^ 2 + y ^ 2)).
  { rewrite sin_acos by exact Hz1. replace (x ^ 2 + y ^ 2) with (r² * (1 - (z / r)²)) by (unfold Rsqr; replace (r * r * (1 - z / r * (z / r))) with (r * r - z ^ 2) by (field; lra); lra).
    rewrite sqrt_mult_alt by apply Rle_0_sqr. rewrite sqrt_Rsqr by lra. reflexivity. }
  split; [|split; [reflexivity|split; [exact Hr|split]]].
  - rewrite Esn, P1, P2, cos_acos by exact Hz1. f_equal. field. lra.
  - destruct (Rlt_dec a 0); lra.
  - apply acos_bound.
Qed.
Lemma spherical_origin eps : eps <> 0 -> cartesian_to_spherical eps origin = (eps, 0, PI / 2).
Proof.
  intros He. unfold cartesian_to_spherical. rewrite (proj2 (norm3_zero origin) eq_refl). destruct (Req_EM_T 0 0); [|contradiction].
  unfold origin, vx, vy, vz. cbn [fst snd]. replace (0 / eps) with 0 by (field; exact He). rewrite rclip_id by lra. rewrite acos_0.
  assert (E : arctan2 0 0 = 0). { unfold arctan2. repeat (destruct (Rlt_dec _ _); try lra). }
  rewrite E, rmod_angle by (pose proof PI_RGT_0; lra). destruct (Rlt_dec 0 0); [lra|]. reflexivity.
Qed.

(** ** Kernel trick *)
Lemma Ok_inj {A} (a b : A) : Ok a = Ok b -> a = b.
Proof. intros H. injection H. auto. Qed.
Definition cos_between (x y : vec) : R := dot x y / (norm3 x * norm3 y).
Lemma kernel_trick l phi : legendre_kernel_trick l = Ok phi -> (l = 0 \/ l = 1)%Z /\
  forall x y, x <> origin -> y <> origin -> dot (phi x) (phi y) = (2 * IZR l + 1) * legendre (Z.to_nat l) (cos_between x y).
Proof.
  unfold legendre_kernel_trick. destruct (Z.eqb_spec l 0) as [->|N0].
  - intros H. injection H as <-. split; [auto|]. intros x y _ _. unfold dot, vx, vy, vz. cbn [fst snd]. cbn.
    assert (sqrt 3 * sqrt 3 = 3) by (apply sqrt_sqrt; lra). nra.
  - destruct (Z.eqb_spec l 1) as [->|N1]; [|discriminate]. intros H. apply Ok_inj in H. subst phi. split; [auto|]. intros x y Hx Hy. cbv zeta.
    change (Z.to_nat 1) with 1%nat. unfold legendre. cbn [legendre_pair fst]. unfold cos_between.
    assert (Nx : norm3 x <> 0) by (intros E; apply Hx, norm3_zero, E). assert (Ny : norm3 y <> 0) by (intros E; apply Hy, norm3_zero, E).
    change (sqrt (vx x ^ 2 + vy x ^ 2 + vz x ^ 2)) with (norm3 x). change (sqrt (vx y ^ 2 + vy y ^ 2 + vz y ^ 2)) with (norm3 y).
    destruct (Req_EM_T (norm3 x) 0); [contradiction|]. destruct (Req_EM_T (norm3 y) 0); [contradiction|].
    assert (S3 : sqrt 3 * sqrt 3 = 3) by (apply sqrt_sqrt; lra).
    set (nx := norm3 x) in *. set (ny := norm3 y) in *. set (s3 := sqrt 3) in *. clearbody nx ny s3. clear Hx Hy.
    destruct x as [[x1 x2] x3]. destruct y as [[y1 y2] y3]. unfold dot, vx, vy, vz. cbn [fst snd].
    transitivity ((s3 * s3) * ((x1 * y1 + x2 * y2 + x3 * y3) / (nx * ny))); [field; split; assumption|rewrite S3; ring].
Qed.
Lemma kernel_trick_zero phi x : legendre_kernel_trick 1 = Ok phi -> dot (phi origin) (phi x) = 0 /\ phi origin = origin.
Proof.
  intros H. apply Ok_inj in H. assert (E : phi origin = origin).
  { subst phi. cbv zeta. change (sqrt (vx origin ^ 2 + vy origin ^ 2 + vz origin ^ 2)) with (norm3 origin).
    rewrite (proj2 (norm3_zero origin) eq_refl). destruct (Req_EM_T 0 0); [|contradiction]. rewrite Rmult_0_r. reflexivity. }
  split; [|exact E]. rewrite E. unfold dot, origin, vx at 1, vy at 1, vz at 1. cbn [fst snd]. ring.
Qed.
Lemma kernel_trick_raises l : legendre_kernel_trick l = Err NotImplementedErr <-> (l <> 0 /\ l <> 1)%Z.
Proof.
  unfold legendre_kernel_trick. destruct (Z.eqb_spec l 0); [split; [discriminate|tauto]|]. destruct (Z.eqb_spec l 1); [split; [discriminate|tauto]|].
  split; auto.
Qed.

Lemma nth_map' {A B} (f : A -> B) l i d d' : (i < length l)%nat -> nth i (map f l) d = f (nth i l d').
Proof. intros H. rewrite (nth_indep _ d (f d')) by (rewrite map_length; exact H). apply map_nth. Qed.
Lemma nth_firstn_lt {A} (l : list A) n i d : (i < n)%nat -> nth i (firstn n l) d = nth i l d.
Proof. revert n i. induction l as [|a l IH]; intros [|n] [|i] H; cbn; try lia; try reflexivity. apply IH. lia. Qed.
Lemma nth_skipn' {A} (l : list A) n i d : nth i (skipn n l) d = nth (n + i) l d.
Proof. revert l. induction n as [|n IH]; intros [|a l]; cbn; try reflexivity; [destruct i; reflexivity|apply IH]. Qed.
(** ** Real harmonics *)
Section Harmonics.
Variable Y : Z -> Z -> R -> R -> C.
Lemma length_ms l : length (ms l) = (2 * l + 1)%nat.
Proof. unfold ms. rewrite map_length, seq_length. reflexivity. Qed.
Lemma nth_ms l j : (j < 2 * l + 1)%nat -> nth j (ms l) 0%Z = (Z.of_nat j - Z.of_nat l)%Z.
Proof.
  intros H. unfold ms. rewrite (nth_map' _ _ _ _ 0%nat) by (rewrite seq_length; exact H). rewrite seq_nth by exact H. reflexivity.
Qed.
Lemma nth_combine' {A B} (a : list A) (b : list B) i da db : length a = length b -> nth i (combine a b) (da, db) = (nth i a da, nth i b db).
Proof. intros H. apply combine_nth. exact H. Qed.

Lemma batch_nth l th ph j : (j < 2 * l + 1)%nat -> nth j (batch_sph_harm Y l th ph) (RtoC 0) = Y (Z.of_nat l) (Z.of_nat j - Z.of_nat l)%Z ph th.
Proof. intros H. unfold batch_sph_harm. rewrite (nth_map' _ _ _ _ 0%Z) by (rewrite length_ms; exact H). rewrite nth_ms by exact H. reflexivity. Qed.
Lemma length_real l th ph : length (batch_sph_harm_real Y l th ph) = (2 * l + 1)%nat.
Proof.
  unfold batch_sph_harm_real. rewrite !app_length, firstn_length, skipn_length, map_length, !combine_length, map_length, combine_length.
  unfold batch_sph_harm. rewrite map_length, length_ms. cbn [length]. lia.
Qed.
(** Entry m of the real harmonics. *)
Lemma real_nth l th ph j : (j < 2 * l + 1)%nat ->
  nth j (batch_sph_harm_real Y l th ph) 0 =
  let m := (Z.of_nat j - Z.of_nat l)%Z in let y := Y (Z.of_nat l) m ph th in
  if (m =? 0)%Z then Re y else if (0 <? m)%Z then sqrt 2 * sgn m * Re y else - (sqrt 2 * Im y).
Proof.
  intros Hj. unfold batch_sph_harm_real. set (h1 := batch_sph_harm Y l th ph).
  set (h2 := map _ (combine h1 (ms l))). set (out := map _ (combine (combine h1 h2) (ms l))). cbv zeta.
  assert (L1 : length h1 = (2 * l + 1)%nat) by (unfold h1, batch_sph_harm; rewrite map_length, length_ms; reflexivity).
  assert (L2 : length h2 = (2 * l + 1)%nat) by (unfold h2; rewrite map_length, combine_length, L1, length_ms; lia).
  assert (L3 : length out = (2 * l + 1)%nat) by (unfold out; rewrite map_length, !combine_length, L1, L2, length_ms; lia).
  assert (Ej : nth j h1 (RtoC 0) = Y (Z.of_nat l) (Z.of_nat j - Z.of_nat l)%Z ph th) by (apply batch_nth; exact Hj).
  assert (Eo : nth j out 0 = if (0 <=? Z.of_nat j - Z.of_nat l)%Z then Re (nth j h1 (RtoC 0)) * sqrt 2 * sgn (Z.of_nat j - Z.of_nat l)
                             else - (sqrt 2 * Im (nth j h1 (RtoC 0)))).
  { unfold out. rewrite (nth_map' _ _ _ _ (RtoC 0, RtoC 0, 0%Z)) by (rewrite !combine_length, L1, L2, length_ms; lia).
    rewrite !nth_combine' by (rewrite ?combine_length, ?L1, ?L2, ?length_ms; lia). cbn [fst snd]. rewrite nth_ms by exact Hj.
    destruct (0 <=? Z.of_nat j - Z.of_nat l)%Z; [reflexivity|]. unfold h2.
    rewrite (nth_map' _ _ _ _ (RtoC 0, 0%Z)) by (rewrite combine_length, L1, length_ms; lia).
    rewrite nth_combine' by (rewrite L1, length_ms; reflexivity). cbn [fst snd]. rewrite nth_ms by exact Hj.
    destruct (nth j h1 (RtoC 0)) as [a b]. unfold Cmult, Cconj, RtoC, Im, sgn. cbn [fst snd].
    destruct (Z.even _); ring. }
  destruct (lt_eq_lt_dec j l) as [[H|E]|H]; [|subst j|].
  - rewrite app_nth1 by (rewrite firstn_length; lia). rewrite nth_firstn_lt by exact H. rewrite Eo, Ej.
    destruct (Z.leb_spec 0 (Z.of_nat j - Z.of_nat l)); [lia|]. destruct (Z.eqb_spec (Z.of_nat j - Z.of_nat l) 0); [lia|].
    destruct (Z.ltb_spec 0 (Z.of_nat j - Z.of_nat l)); [lia|reflexivity].
  - rewrite app_nth2 by (rewrite firstn_length; lia). rewrite firstn_length, Nat.min_l by lia. rewrite Nat.sub_diag. cbn [app nth]. rewrite Z.sub_diag, Z.eqb_refl.
    rewrite Ej, Z.sub_diag. reflexivity.
  - rewrite app_nth2 by (rewrite firstn_length; lia). rewrite firstn_length, Nat.min_l by lia.
    replace (j - l)%nat with (S (j - S l)) by lia. cbn [app nth]. rewrite nth_skipn'. replace (S l + (j - S l))%nat with j by lia. rewrite Eo, Ej.
    destruct (Z.leb_spec 0 (Z.of_nat j - Z.of_nat l)); [|lia]. destruct (Z.eqb_spec (Z.of_nat j - Z.of_nat l) 0); [lia|].
    destruct (Z.ltb_spec 0 (Z.of_nat j - Z.of_nat l)); [ring|lia].
Qed.

(** The real harmonics give the same kernel as the complex ones. *)
Lemma seq_reflect n : Permutation (seq 0 n) (map (fun j => (n - 1 - j)%nat) (seq 0 n)).
Proof.
  apply NoDup_Permutation_bis; [apply seq_NoDup|rewrite map_length; lia|].
  intros x H. apply in_seq in H. apply in_map_iff. exists (n - 1 - x)%nat. split; [lia|]. apply in_seq. lia.
Qed.
Lemma sum_reflect n f : sumR (seq 0 n) f = sumR (seq 0 n) (fun j => f (n - 1 - j)%nat).
Proof. rewrite (sumR_perm _ _ f (seq_reflect n)), sumR_map. reflexivity. Qed.
Lemma sum_pairs n f g : (forall j, (j < n)%nat -> f j + f (n - 1 - j)%nat = g j + g (n - 1 - j)%nat) -> sumR (seq 0 n) f = sumR (seq 0 n) g.
Proof.
  intros H. assert (E : sumR (seq 0 n) f + sumR (seq 0 n) f = sumR (seq 0 n) g + sumR (seq 0 n) g).
  { rewrite (sum_reflect n f) at 2. rewrite (sum_reflect n g) at 2. rewrite <- !sumR_plus. apply sumR_ext. intros j Hj. apply in_seq in Hj. apply H. lia. }
  lra.
Qed.
Lemma sgn_sq m : sgn m * sgn m = 1.
Proof. unfold sgn. destruct (Z.even m); ring. Qed.
Lemma sqrt2_sq : sqrt 2 * sqrt 2 = 2.
Proof. apply sqrt_sqrt. lra. Qed.
Lemma symm_parts l m ph th : conjugation_symmetry Y l -> (0 <= m <= Z.of_nat l)%Z ->
  Re (Y (Z.of_nat l) (- m)%Z ph th) = sgn m * Re (Y (Z.of_nat l) m ph th) /\ Im (Y (Z.of_nat l) (- m)%Z ph th) = - (sgn m * Im (Y (Z.of_nat l) m ph th)).
Proof.
  intros H Hm. rewrite (H m ph th Hm). change (if Z.even m then 1 else -1) with (sgn m). destruct (Y (Z.of_nat l) m ph th) as [a b].
  unfold Cmult, Cconj, RtoC, Re, Im. cbn [fst snd]. split; ring.
Qed.
Lemma real_pair l th ph th' ph' j : conjugation_symmetry Y l -> (j < 2 * l + 1)%nat ->
  let f j := nth j (batch_sph_harm_real Y l th ph) 0 * nth j (batch_sph_harm_real Y l th' ph') 0 in
  let y j := Y (Z.of_nat l) (Z.of_nat j - Z.of_nat l)%Z ph th in let y' j := Y (Z.of_nat l) (Z.of_nat j - Z.of_nat l)%Z ph' th' in
  let g j := Re (y j) * Re (y' j) + Im (y j) * Im (y' j) in let h j := Im (y j) * Re (y' j) - Re (y j) * Im (y' j) in
  f j + f (2 * l + 1 - 1 - j)%nat = g j + g (2 * l + 1 - 1 - j)%nat /\ h j + h (2 * l + 1 - 1 - j)%nat = 0.
Proof.
  intros Hc. 
  assert (G : forall j, (l <= j < 2 * l + 1)%nat ->
    let f j := nth j (batch_sph_harm_real Y l th ph) 0 * nth j (batch_sph_harm_real Y l th' ph') 0 in
    let y j := Y (Z.of_nat l) (Z.of_nat j - Z.of_nat l)%Z ph th in let y' j := Y (Z.of_nat l) (Z.of_nat j - Z.of_nat l)%Z ph' th' in
    let g j := Re (y j) * Re (y' j) + Im (y j) * Im (y' j) in let h j := Im (y j) * Re (y' j) - Re (y j) * Im (y' j) in
    f j + f (2 * l + 1 - 1 - j)%nat = g j + g (2 * l + 1 - 1 - j)%nat /\ h j + h (2 * l + 1 - 1 - j)%nat = 0).
  { clear j. intros j Hj. cbv beta zeta. rewrite !real_nth by lia. cbv beta zeta.
    replace (Z.of_nat (2 * l + 1 - 1 - j) - Z.of_nat l)%Z with (- (Z.of_nat j - Z.of_nat l))%Z by lia.
    set (m := (Z.of_nat j - Z.of_nat l)%Z). assert (Hm : (0 <= m <= Z.of_nat l)%Z) by lia.
    destruct (symm_parts l m ph th Hc Hm) as [E1 E2]. destruct (symm_parts l m ph' th' Hc Hm) as [E3 E4].
    destruct (Z.eqb_spec m 0) as [Em|Nm].
    - rewrite Em in *. cbn [Z.opp Z.eqb] in *. unfold sgn in *. cbn [Z.even] in *. split; nra.
    - destruct (Z.eqb_spec (- m) 0); [lia|]. destruct (Z.ltb_spec 0 m); [|lia]. destruct (Z.ltb_spec 0 (- m)); [lia|].
      rewrite E1, E2, E3, E4. set (a := Re _). set (b := Im (Y (Z.of_nat l) m ph th)). set (a' := Re (Y (Z.of_nat l) m ph' th')). set (b' := Im (Y (Z.of_nat l) m ph' th')).
      pose proof (sgn_sq m) as S1. pose proof sqrt2_sq as S2. set (s := sgn m) in *. set (q := sqrt 2) in *. clearbody a b a' b' s q.
      split.
      + transitivity ((q * q) * (s * s) * (a * a' + b * b')); [ring|]. rewrite S1, S2. transitivity ((1 + s * s) * (a * a' + b * b')); [rewrite S1; ring|ring].
      + transitivity ((1 - s * s) * (b * a' - a * b')); [ring|rewrite S1; ring]. }
  intros Hj. destruct (le_lt_dec l j) as [H|H]; [apply G; lia|].
  specialize (G (2 * l + 1 - 1 - j)%nat ltac:(lia)). cbv beta zeta in G |- *. replace (2 * l + 1 - 1 - (2 * l + 1 - 1 - j))%nat with j in G by lia.
  destruct G as [G1 G2]. split; lra.
Qed.
Lemma real_kernel l th ph th' ph' : conjugation_symmetry Y l ->
  RtoC (sumR (seq 0 (2 * l + 1)) (fun j => nth j (batch_sph_harm_real Y l th ph) 0 * nth j (batch_sph_harm_real Y l th' ph') 0)) =
  sumC (ms l) (fun m => Cmult (Y (Z.of_nat l) m ph th) (Cconj (Y (Z.of_nat l) m ph' th'))).
Proof.
  intros Hc. unfold ms. rewrite sumC_map. apply injective_projections.
  - change (sumR (seq 0 (2 * l + 1)) (fun j => nth j (batch_sph_harm_real Y l th ph) 0 * nth j (batch_sph_harm_real Y l th' ph') 0) =
      Re (sumC (seq 0 (2 * l + 1)) (fun j => Cmult (Y (Z.of_nat l) (Z.of_nat j - Z.of_nat l)%Z ph th) (Cconj (Y (Z.of_nat l) (Z.of_nat j - Z.of_nat l)%Z ph' th'))))).
    rewrite Re_sumC. apply sum_pairs. intros j Hj. destruct (real_pair l th ph th' ph' j Hc Hj) as [E _]. cbv beta zeta in E. rewrite E.
    unfold Cmult, Cconj, Re, Im. cbn [fst snd]. ring.
  - change (0 = Im (sumC (seq 0 (2 * l + 1)) (fun j => Cmult (Y (Z.of_nat l) (Z.of_nat j - Z.of_nat l)%Z ph th) (Cconj (Y (Z.of_nat l) (Z.of_nat j - Z.of_nat l)%Z ph' th'))))).
    rewrite Im_sumC. rewrite <- (sumR_0 (seq 0 (2 * l + 1))). apply sum_pairs. intros j Hj. destruct (real_pair l th ph th' ph' j Hc Hj) as [_ E]. cbv beta zeta in E.
    unfold Cmult, Cconj, Re, Im in *. cbn [fst snd] in *. lra.
Qed.
(** Padding with zeros does not change the kernel. *)
Lemma padded_kernel lmax l x x' : (l <= lmax)%nat -> conjugation_symmetry Y l ->
  let s := cartesian_to_spherical (/ 10 ^ 10) x in let s' := cartesian_to_spherical (/ 10 ^ 10) x' in
  sumC (seq 0 (2 * lmax + 1)) (fun j => Cmult (Cconj (compute_spherical_harmonics Y lmax x l j)) (compute_spherical_harmonics Y lmax x' l j)) =
  sumC (ms l) (fun m => Cmult (Y (Z.of_nat l) m (vz s) (vy s)) (Cconj (Y (Z.of_nat l) m (vz s') (vy s')))).
Proof.
  intros Hl Hc s s'. rewrite <- real_kernel by exact Hc. rewrite <- sumC_RtoC.
  replace (2 * lmax + 1)%nat with ((2 * l + 1) + 2 * (lmax - l))%nat by lia. rewrite seq_app, sumC_app.
  assert (Z2 : sumC (seq (0 + (2 * l + 1)) (2 * (lmax - l))) (fun j => Cmult (Cconj (compute_spherical_harmonics Y lmax x l j)) (compute_spherical_harmonics Y lmax x' l j)) = RtoC 0).
  { apply sumC_zero. intros j Hj. apply in_seq in Hj. unfold compute_spherical_harmonics. destruct (Nat.ltb_spec j (2 * l + 1)); [lia|]. apply Cmult_0_r. }
  rewrite Z2, Cplus_0_r. apply sumC_ext. intros j Hj. apply in_seq in Hj. unfold compute_spherical_harmonics. destruct (Nat.ltb_spec j (2 * l + 1)); [|lia].
  fold s s'. unfold Cmult, Cconj, RtoC. cbn [fst snd]. f_equal; ring.
Qed.
End Harmonics.
Lemma unit_dot eps x x' : x <> origin -> x' <> origin ->
  let s := cartesian_to_spherical eps x in let s' := cartesian_to_spherical eps x' in
  dot (spherical_point (1, vy s, vz s)) (spherical_point (1, vy s', vz s')) = cos_between x x'.
Proof.
  intros Hx Hx' s s'. destruct (spherical_inverse eps x Hx) as (E & En & Hp & _). destruct (spherical_inverse eps x' Hx') as (E' & En' & Hp' & _).
  fold s in E, En, Hp. fold s' in E', En', Hp'. clearbody s s'. unfold cos_between. rewrite <- En, <- En'. rewrite <- E at 1. rewrite <- E' at 1.
  unfold dot, spherical_point, vx, vy, vz in *. destruct s as [[r t] p]. destruct s' as [[r' t'] p']. cbn [fst snd] in *. field. lra.
Qed.
Lemma polar_range eps x : 0 <= vz (cartesian_to_spherical eps x) <= PI.
Proof. unfold cartesian_to_spherical, vz. cbn [snd]. apply acos_bound. Qed.
Lemma legendre_kernel Y lmax l x x' : (l <= lmax)%nat -> conjugation_symmetry Y l -> addition_theorem Y l -> x <> origin -> x' <> origin ->
  sumC (seq 0 (2 * lmax + 1)) (fun j => Cmult (Cconj (compute_spherical_harmonics Y lmax x l j)) (compute_spherical_harmonics Y lmax x' l j)) =
  RtoC ((2 * INR l + 1) / (4 * PI) * legendre l (cos_between x x')).
Proof.
  intros Hl Hc Ha Hx Hx'. rewrite padded_kernel by assumption. cbv zeta.
  rewrite Ha by apply polar_range. rewrite unit_dot by assumption. reflexivity.
Qed.
(** the l = 1 harmonics (unnormalised) as an instance *)
Definition Y1 (l m : Z) (p a : R) : C :=
  if (m =? 0)%Z then RtoC (cos p) else if (0 <? m)%Z then (- (sin p * cos a), - (sin p * sin a)) else (sin p * cos a, - (sin p * sin a)).
Lemma Y1_symm : conjugation_symmetry Y1 1.
Proof.
  intros m p a Hm. assert (m = 0 \/ m = 1)%Z as [-> | ->] by lia; cbn; unfold Y1, Cmult, Cconj, RtoC; cbn; f_equal; ring.
Qed.
Lemma doc_origin : ~ (forall eps, eps <> 0 -> vx (cartesian_to_spherical eps origin) = 0).
Proof. intros H. specialize (H 1 ltac:(lra)). rewrite spherical_origin in H by lra. unfold vx in H. cbn in H. lra. Qed.
Lemma addition_l0 : conjugation_symmetry (fun _ _ _ _ => RtoC (sqrt (/ (4 * PI)))) 0 /\ addition_theorem (fun _ _ _ _ => RtoC (sqrt (/ (4 * PI)))) 0.
Proof.
  pose proof PI_RGT_0 as HP. assert (0 < / (4 * PI)) by (apply Rinv_0_lt_compat; lra).
  assert (S : sqrt (/ (4 * PI)) * sqrt (/ (4 * PI)) = / (4 * PI)) by (apply sqrt_sqrt; lra).
  split.
  - intros m p a Hm. assert (m = 0)%Z as -> by lia. cbn [Z.even]. unfold Cmult, Cconj, RtoC. cbn [fst snd]. f_equal; ring.
  - intros p a p' a' _ _. unfold ms. cbn [seq Nat.mul Nat.add map sumC]. unfold legendre. cbn [legendre_pair fst INR].
    unfold sumC. cbn [fold_right map]. apply injective_projections; cbn [fst snd RtoC Cmult Cconj Cplus]; [|ring].
    transitivity (sqrt (/ (4 * PI)) * sqrt (/ (4 * PI))); [ring|]. rewrite S. field. lra.
Qed.
