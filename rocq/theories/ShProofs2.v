(** legendre_to_sph_harm, and the explicit form of the real harmonics. *)
From Coq Require Import Reals Lra Lia.
From Coquelicot Require Import Coquelicot.
From Coq Require Import List Arith ZArith Bool.
From Verif Require Import Base Sums SphModel SphSpec SphProofs ShProofs.
Import ListNotations.
Local Open Scope R_scope.

Section Y.
Variable Y : Z -> Z -> R -> R -> C.
Lemma features_raise l lmax x : raises (legendre_to_sph_harm Y l lmax x) <-> (lmax < l)%nat.
Proof.
  unfold legendre_to_sph_harm, raises. cbv zeta. destruct (Z.ltb_spec ((Z.of_nat lmax - Z.of_nat l) * 2) 0) as [H|H]; split.
  - intros _. lia.
  - intros _. exists ValueErr. reflexivity.
  - intros [e E]. discriminate E.
  - lia.
Qed.
Lemma features_ok l lmax x v : legendre_to_sph_harm Y l lmax x = Ok v -> (l <= lmax)%nat /\
  v = map (fun y => Cmult (Cmult y (RtoC 2)) (RtoC (sqrt PI))) (map (fun m => sph_harm Y m (Z.of_nat l) (vy (cartesian_to_spherical (/ 10 ^ 10) x)) (vz (cartesian_to_spherical (/ 10 ^ 10) x))) (ms l) ++ repeat (RtoC 0) (2 * (lmax - l))).
Proof.
  unfold legendre_to_sph_harm. cbv zeta. destruct (Z.ltb_spec ((Z.of_nat lmax - Z.of_nat l) * 2) 0) as [H|H]; [discriminate|]. intros E. split; [lia|].
  injection E as <-. do 3 f_equal. lia.
Qed.
Lemma features_shape l lmax x v : legendre_to_sph_harm Y l lmax x = Ok v -> length v = (2 * lmax + 1)%nat /\ forall j, (2 * l + 1 <= j)%nat -> nth j v (RtoC 0) = RtoC 0.
Proof.
  intros E. destruct (features_ok _ _ _ _ E) as (Hl & ->). split; [rewrite map_length, app_length, map_length, length_ms, repeat_length; lia|].
  intros j Hj. destruct (lt_dec j (2 * lmax + 1)) as [H|H].
  - rewrite (nth_map' _ _ _ _ (RtoC 0)) by (rewrite app_length, map_length, length_ms, repeat_length; lia). rewrite app_nth2 by (rewrite map_length, length_ms; lia).
    rewrite nth_repeat. ring.
  - apply nth_overflow. rewrite map_length, app_length, map_length, length_ms, repeat_length. lia.
Qed.
Lemma combine_app {A B} (a a' : list A) (b b' : list B) : length a = length b -> combine (a ++ a') (b ++ b') = combine a b ++ combine a' b'.
Proof. revert b. induction a as [|u a IH]; intros [|w b] H; cbn in *; try lia; [reflexivity|]. rewrite IH by lia. reflexivity. Qed.
Lemma combine_map2 {T A B} (f : T -> A) (g : T -> B) l : combine (map f l) (map g l) = map (fun t => (f t, g t)) l.
Proof. induction l as [|t l IH]; [reflexivity|]. cbn. rewrite IH. reflexivity. Qed.
Lemma combine_repeat {A B} (a : A) (b : B) n : combine (repeat a n) (repeat b n) = repeat (a, b) n.
Proof. induction n as [|n IH]; [reflexivity|]. cbn. rewrite IH. reflexivity. Qed.
Lemma features_kernel l lmax x x' v v' : addition_theorem Y l -> x <> origin -> x' <> origin ->
  legendre_to_sph_harm Y l lmax x = Ok v -> legendre_to_sph_harm Y l lmax x' = Ok v' ->
  sumC (combine v v') (fun p => Cmult (fst p) (Cconj (snd p))) = RtoC ((2 * INR l + 1) * legendre l (dot x x' / (norm3 x * norm3 x'))).
Proof.
  intros Ha Hx Hx' E E'. destruct (features_ok _ _ _ _ E) as (_ & ->). destruct (features_ok _ _ _ _ E') as (_ & ->). clear E E'.
  rewrite !map_app, !map_map, combine_app by (rewrite !map_length; reflexivity). rewrite combine_map2. 
  replace (map (fun y => Cmult (Cmult y (RtoC 2)) (RtoC (sqrt PI))) (repeat (RtoC 0) (2 * (lmax - l)))) with (repeat (RtoC 0) (2 * (lmax - l))).
  2:{ induction (2 * (lmax - l))%nat as [|n IH]; [reflexivity|]. cbn [repeat map]. rewrite <- IH. f_equal. ring. }
  rewrite combine_repeat, sumC_app, sumC_map. rewrite (sumC_zero (repeat (RtoC 0, RtoC 0) _)) by (intros p Hp; apply repeat_spec in Hp; subst p; cbn [fst snd]; ring).
  rewrite Cplus_0_r. cbn [fst snd]. unfold sph_harm.
  set (s := cartesian_to_spherical (/ 10 ^ 10) x). set (s' := cartesian_to_spherical (/ 10 ^ 10) x').
  rewrite (sumC_ext _ _ (fun m => Cmult (RtoC (4 * PI)) (Cmult (Y (Z.of_nat l) m (vz s) (vy s)) (Cconj (Y (Z.of_nat l) m (vz s') (vy s')))))).
  - rewrite sumC_scal, Ha by apply polar_range. unfold s, s'. rewrite unit_dot by assumption. rewrite <- RtoC_mult. f_equal. unfold cos_between. pose proof PI_RGT_0. set (P := legendre _ _). field. lra.
  - intros m _. rewrite !Cconj_mult, !Cconj_R. pose proof PI_RGT_0. replace (4 * PI) with (2 * 2 * (sqrt PI * sqrt PI)) by (rewrite sqrt_sqrt by lra; ring). rewrite !RtoC_mult. ring.
Qed.
End Y.
(** The zero vector is treated as the direction (1, 0, 0). *)
Lemma spherical_ex eps : vy (cartesian_to_spherical eps (1, 0, 0)) = 0 /\ vz (cartesian_to_spherical eps (1, 0, 0)) = PI / 2.
Proof.
  assert (Q : (1, 0, 0) <> origin) by (intros H; injection H; lra).
  unfold cartesian_to_spherical. set (r := if Req_EM_T _ _ then _ else _). unfold vx, vy, vz. cbn [fst snd]. split.
  - unfold arctan2. destruct (Rlt_dec 0 1); [|lra]. replace (0 / 1) with 0 by field. rewrite atan_0. pose proof PI_RGT_0. rewrite rmod_angle by lra. destruct (Rlt_dec 0 0); lra.
  - replace (0 / r) with 0 by (unfold Rdiv; ring). rewrite rclip_id by lra. apply acos_0.
Qed.
Lemma features_zero Y l lmax : legendre_to_sph_harm Y l lmax origin = legendre_to_sph_harm Y l lmax (1, 0, 0).
Proof.
  unfold legendre_to_sph_harm. cbv zeta. destruct (spherical_ex (/ 10 ^ 10)) as [-> ->]. rewrite spherical_origin by (apply Rinv_neq_0_compat, pow_nonzero; lra). reflexivity.
Qed.

Lemma real_form l th ph j : (j < 2 * l + 1)%nat -> nth j (batch_sph_harm_real standard_harmonic l th ph) 0 = real_harmonic l (Z.of_nat j - Z.of_nat l) ph th.
Proof.
  intros Hj. rewrite real_nth by exact Hj. cbv zeta. set (m := (Z.of_nat j - Z.of_nat l)%Z). unfold real_harmonic. cbv zeta. unfold standard_harmonic. rewrite Nat2Z.id.
  destruct (Z.eqb_spec m 0) as [->|N].
  - cbn [Z.leb Z.compare Z.to_nat Z.abs_nat]. unfold harmonic_nonneg. cbn [INR pow]. rewrite Rmult_0_l, cos_0, sin_0. unfold Cmult, RtoC, Re. cbn [fst snd]. ring.
  - destruct (Z.ltb_spec 0 m) as [H|H].
    + destruct (Z.leb_spec 0 m); [|lia]. unfold sgn. rewrite even_pow by lia. replace (Z.abs_nat m) with (Z.to_nat m) by lia. unfold harmonic_nonneg. pose proof (sgn_pow (Z.to_nat m)) as G. set (g := (-1) ^ _) in *.
      unfold Cmult, RtoC, Re. cbn [fst snd]. match goal with |- sqrt 2 * g * (g * ?a * ?b * ?c - _) = _ => transitivity ((g * g) * (sqrt 2 * a * b * c)); [ring|rewrite G; ring] end.
    + destruct (Z.leb_spec 0 m); [lia|]. replace (Z.abs_nat m) with (Z.to_nat (- m)) by lia. unfold harmonic_nonneg. pose proof (sgn_pow (Z.to_nat (- m))) as G. set (g := (-1) ^ _) in *.
      unfold Cmult, Cconj, RtoC, Im. cbn [fst snd].
      match goal with |- context [g * ?a * ?b * sin ?c] => transitivity ((g * g) * (sqrt 2 * a * b * sin c)); [ring|rewrite G; ring] end.
Qed.
Lemma standard_11 p a : 0 <= p <= PI -> standard_harmonic 1 1 p a = (- sqrt (3 / (8 * PI)) * sin p * cos a, - sqrt (3 / (8 * PI)) * sin p * sin a).
Proof.
  intros Hp. unfold standard_harmonic. cbn [Z.leb Z.compare]. change (Z.to_nat 1) with 1%nat. unfold harmonic_nonneg, assoc_legendre. rewrite Derive_n_legendre, sqrt_sin by exact Hp.
  replace (D 1 1 (cos p)) with 1 by reflexivity. cbn [Nat.sub Nat.add fact Nat.mul INR pow]. pose proof PI_RGT_0.
  replace ((2 * 1 + 1) / (4 * PI) * (1 / (1 + 1))) with (3 / (8 * PI)) by (field; lra). unfold Cmult, RtoC. cbn [fst snd]. rewrite !Rmult_1_l. f_equal; ring.
Qed.
Lemma doc_shape : ~ (forall Y l lmax x v, legendre_to_sph_harm Y l lmax x = Ok v -> length v = (2 * l + 1)%nat).
Proof.
  intros H. specialize (H (fun _ _ _ _ => RtoC 0) 0%nat 4%nat origin). eassert (E : legendre_to_sph_harm (fun _ _ _ _ => RtoC 0) 0 4 origin = Ok _) by reflexivity.
  specialize (H _ E). apply features_shape in E. rewrite (proj1 E) in H. lia.
Qed.
