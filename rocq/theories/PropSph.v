(** C68, C69, C99, C122: spherical coordinates and angular functions. *)
From Coq Require Import Reals Lra Lia.
From Coquelicot Require Import Coquelicot.
From Coq Require Import List Arith ZArith Bool.
From Verif Require Import Base Sums SphModel SphSpec SphProofs ShProofs ShProofs2.
Import ListNotations.
Local Open Scope R_scope.

(** ** C68 *)
Theorem C68_legendre_kernel : forall l phi, legendre_kernel_trick l = Ok phi -> (l = 0 \/ l = 1)%Z /\
  forall x y, x <> origin -> y <> origin ->
    dot (phi x) (phi y) = (2 * IZR l + 1) * legendre (Z.to_nat l) (dot x y / (norm3 x * norm3 y)).
Proof. exact kernel_trick. Qed.
Print Assumptions C68_legendre_kernel.
Theorem C68_raises_iff : forall l, legendre_kernel_trick l = Err NotImplementedErr <-> (l <> 0 /\ l <> 1)%Z.
Proof. exact kernel_trick_raises. Qed.
Print Assumptions C68_raises_iff.
(** For l = 1 the zero vector maps to the zero vector. *)
Theorem C68_zero_vector : forall phi x, legendre_kernel_trick 1 = Ok phi -> dot (phi origin) (phi x) = 0 /\ phi origin = origin.
Proof. exact kernel_trick_zero. Qed.
Print Assumptions C68_zero_vector.
Example C68_example : exists phi, legendre_kernel_trick 1 = Ok phi /\ (1, 2, 2) <> origin /\ (2 * IZR 1 + 1) * legendre (Z.to_nat 1) (1 / 3) = 1.
Proof. eexists. split; [reflexivity|]. split; [intros H; injection H; intros; lra|]. change (Z.to_nat 1) with 1%nat. unfold legendre. cbn. field. Qed.

(** ** C69 *)
Theorem C69_inverse : forall eps v, v <> origin ->
  let s := cartesian_to_spherical eps v in
  spherical_point s = v /\ vx s = norm3 v /\ 0 < vx s /\ 0 <= vy s < 2 * PI /\ 0 <= vz s <= PI.
Proof. exact spherical_inverse. Qed.
Print Assumptions C69_inverse.
Example C69_example : (0, -1, 0) <> origin.
Proof. intros H. injection H. intros. lra. Qed.
(** At the origin the result is (eps, 0, pi/2), not the documented (0, NaN, pi/2). *)
Theorem C69_origin : forall eps, eps <> 0 -> cartesian_to_spherical eps origin = (eps, 0, PI / 2).
Proof. exact spherical_origin. Qed.
Print Assumptions C69_origin.
Theorem C69_documented_origin_refuted : ~ (forall eps, eps <> 0 -> vx (cartesian_to_spherical eps origin) = 0).
Proof. exact doc_origin. Qed.
Print Assumptions C69_documented_origin_refuted.

(** ** C99 *)
(** Whatever harmonics the library returns, if they have the conjugation symmetry, the real
    combination has the same kernel, summed over m. *)
Theorem C99_real_kernel : forall Y l th ph th' ph', conjugation_symmetry Y l ->
  RtoC (sumR (seq 0 (2 * l + 1)) (fun j => nth j (batch_sph_harm_real Y l th ph) 0 * nth j (batch_sph_harm_real Y l th' ph') 0)) =
  sumC (ms l) (fun m => Cmult (Y (Z.of_nat l) m ph th) (Cconj (Y (Z.of_nat l) m ph' th'))).
Proof. exact real_kernel. Qed.
Print Assumptions C99_real_kernel.
Theorem C99_one_per_m : forall Y l th ph, length (batch_sph_harm_real Y l th ph) = (2 * l + 1)%nat.
Proof. exact length_real. Qed.
Print Assumptions C99_one_per_m.
(** The zero-padded table used by the projectors: its kernel is the Legendre polynomial of the
    angle, for every l up to l_max. *)
Theorem C99_padded_table_is_legendre : forall Y lmax l x x', (l <= lmax)%nat -> conjugation_symmetry Y l -> addition_theorem Y l -> x <> origin -> x' <> origin ->
  sumC (seq 0 (2 * lmax + 1)) (fun j => Cmult (Cconj (compute_spherical_harmonics Y lmax x l j)) (compute_spherical_harmonics Y lmax x' l j)) =
  RtoC ((2 * INR l + 1) / (4 * PI) * legendre l (dot x x' / (norm3 x * norm3 x'))).
Proof. exact legendre_kernel. Qed.
Print Assumptions C99_padded_table_is_legendre.
Example C99_example : conjugation_symmetry Y1 1 /\ Y1 1 1 (PI / 2) 0 <> RtoC 0.
Proof. split; [exact Y1_symm|]. intros H. apply (f_equal Re) in H. unfold Y1 in H. cbn in H. rewrite sin_PI2, cos_0 in H. lra. Qed.
Example C99_addition_example : conjugation_symmetry (fun _ _ _ _ => RtoC (sqrt (/ (4 * PI)))) 0 /\ addition_theorem (fun _ _ _ _ => RtoC (sqrt (/ (4 * PI)))) 0.
Proof. exact addition_l0. Qed.
(** The standard spherical harmonics have both properties, for every l, so for them the table needs
    no hypothesis. *)
Theorem C99_standard_harmonics : forall l, conjugation_symmetry standard_harmonic l /\ addition_theorem standard_harmonic l.
Proof. exact (fun l => conj (standard_symm l) (standard_addition l)). Qed.
Print Assumptions C99_standard_harmonics.
Theorem C99_standard_table : forall lmax l x x', (l <= lmax)%nat -> x <> origin -> x' <> origin ->
  sumC (seq 0 (2 * lmax + 1)) (fun j => Cmult (Cconj (compute_spherical_harmonics standard_harmonic lmax x l j)) (compute_spherical_harmonics standard_harmonic lmax x' l j)) =
  RtoC ((2 * INR l + 1) / (4 * PI) * legendre l (dot x x' / (norm3 x * norm3 x'))).
Proof. exact (fun lmax l x x' Hl Hx Hx' => legendre_kernel standard_harmonic lmax l x x' Hl (standard_symm l) (standard_addition l) Hx Hx'). Qed.
Print Assumptions C99_standard_table.
(** Entry j of the real row is the real harmonic with m = j - l, in the convention without a sign. *)
Theorem C99_real_form : forall l th ph j, (j < 2 * l + 1)%nat -> nth j (batch_sph_harm_real standard_harmonic l th ph) 0 = real_harmonic l (Z.of_nat j - Z.of_nat l) ph th.
Proof. exact real_form. Qed.
Print Assumptions C99_real_form.
Example C99_standard_example : standard_harmonic 1 1 (PI / 2) 0 = (- sqrt (3 / (8 * PI)) * sin (PI / 2) * cos 0, - sqrt (3 / (8 * PI)) * sin (PI / 2) * sin 0).
Proof. apply standard_11. pose proof PI_RGT_0. lra. Qed.

(** ** C122 *)
(** The feature vectors of two directions: their Hermitian product is (2l+1) P_l of the cosine. *)
Theorem C122_kernel : forall Y l lmax x x' v v', addition_theorem Y l -> x <> origin -> x' <> origin ->
  legendre_to_sph_harm Y l lmax x = Ok v -> legendre_to_sph_harm Y l lmax x' = Ok v' ->
  sumC (combine v v') (fun p => Cmult (fst p) (Cconj (snd p))) = RtoC ((2 * INR l + 1) * legendre l (dot x x' / (norm3 x * norm3 x'))).
Proof. exact features_kernel. Qed.
Print Assumptions C122_kernel.
Theorem C122_kernel_standard : forall l lmax x x' v v', x <> origin -> x' <> origin ->
  legendre_to_sph_harm standard_harmonic l lmax x = Ok v -> legendre_to_sph_harm standard_harmonic l lmax x' = Ok v' ->
  sumC (combine v v') (fun p => Cmult (fst p) (Cconj (snd p))) = RtoC ((2 * INR l + 1) * legendre l (dot x x' / (norm3 x * norm3 x'))).
Proof. exact (fun l lmax x x' v v' => features_kernel standard_harmonic l lmax x x' v v' (standard_addition l)). Qed.
Print Assumptions C122_kernel_standard.
(** Every vector has 2 l_max + 1 entries, zero beyond the first 2l + 1: not 2l + 1 as documented. *)
Theorem C122_shape : forall Y l lmax x v, legendre_to_sph_harm Y l lmax x = Ok v -> length v = (2 * lmax + 1)%nat /\ forall j, (2 * l + 1 <= j)%nat -> nth j v (RtoC 0) = RtoC 0.
Proof. exact features_shape. Qed.
Print Assumptions C122_shape.
Theorem C122_documented_shape_refuted : ~ (forall Y l lmax x v, legendre_to_sph_harm Y l lmax x = Ok v -> length v = (2 * l + 1)%nat).
Proof. exact doc_shape. Qed.
Print Assumptions C122_documented_shape_refuted.
Theorem C122_raises_iff : forall Y l lmax x, raises (legendre_to_sph_harm Y l lmax x) <-> (lmax < l)%nat.
Proof. exact features_raise. Qed.
Print Assumptions C122_raises_iff.
(** The zero vector gets the features of the x axis, for every l. *)
Theorem C122_zero_vector : forall Y l lmax, legendre_to_sph_harm Y l lmax origin = legendre_to_sph_harm Y l lmax (1, 0, 0).
Proof. exact features_zero. Qed.
Print Assumptions C122_zero_vector.
Example C122_example : exists v v', legendre_to_sph_harm standard_harmonic 2 4 (1, 2, 2) = Ok v /\ legendre_to_sph_harm standard_harmonic 2 4 (2, 1, -2) = Ok v' /\
  (1, 2, 2) <> origin /\ (2, 1, -2) <> origin /\ (2 * INR 2 + 1) * legendre 2 0 = - (5 / 2).
Proof.
  eexists. eexists. split; [reflexivity|]. split; [reflexivity|]. split; [intros H; injection H; intros; lra|]. split; [intros H; injection H; intros; lra|].
  unfold legendre. cbn. field.
Qed.
