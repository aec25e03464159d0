(** Property theorems C01-C06: grid sizes, frequencies and masks. *)
From Coq Require Import List ZArith Lia.
From Verif Require Import Base GridModel GridSpec GridProofs GridCountProofs.
Import ListNotations.
Local Open Scope Z_scope.

(** C01 *)
Theorem C01_fft_factor_least : forall n m,
  fft_factor n = Ok m <-> n <= 2048 /\ least_at_least smooth7 n m.
Proof. exact fft_factor_least. Qed.
Print Assumptions C01_fft_factor_least.
Example C01_example : fft_factor 11 = Ok 12 /\ fft_factor 2017 = Ok 2025 /\ fft_factor 2048 = Ok 2048.
Proof. vm_compute. auto. Qed.

Theorem C01_fft_factor_raises : forall n e,
  fft_factor n = Err e <-> n > 2048 /\ e = ValueErr.
Proof. exact fft_factor_err. Qed.
Print Assumptions C01_fft_factor_raises.
Example C01_raises_example : fft_factor 2049 = Err ValueErr.
Proof. reflexivity. Qed.

Theorem C01_documented_set_refuted :
  exists n m, 1 <= n /\ fft_factor n = Ok m /\ ~ least_at_least doc_fft_size n m.
Proof. exact fft_factor_doc_refuted. Qed.
Print Assumptions C01_documented_set_refuted.

(** C02 *)
Theorem C02_each_axis_least : forall a l r, requested a = Some l -> proper_grid_size a = Ok r ->
  Forall2 (fun n m => least_at_least smooth7 n m) l r.
Proof. exact pgs_spec. Qed.
Print Assumptions C02_each_axis_least.
Example C02_example : proper_grid_size (GSeq [11; 13; 17; 0]) = Ok [12; 14; 18; 1] /\
  proper_grid_size (GScalar 11) = Ok [12; 12; 12].
Proof. vm_compute. auto. Qed.

Theorem C02_idempotent : forall a r, proper_grid_size a = Ok r -> proper_grid_size (GSeq r) = Ok r.
Proof. exact pgs_idem. Qed.
Print Assumptions C02_idempotent.

Theorem C02_monotone : forall a a' l l' r r',
  requested a = Some l -> requested a' = Some l' -> Forall2 Z.le l l' ->
  proper_grid_size a = Ok r -> proper_grid_size a' = Ok r' -> Forall2 Z.le r r'.
Proof. exact pgs_mono. Qed.
Print Assumptions C02_monotone.
Example C02_monotone_example :
  Forall2 Z.le [11; 11; 11] [13; 11; 16] /\ proper_grid_size (GSeq [13; 11; 16]) = Ok [14; 12; 16].
Proof. split; [repeat constructor; lia|vm_compute; reflexivity]. Qed.

Theorem C02_raises : forall a l, requested a = Some l ->
  (raises (proper_grid_size a) <-> exists n, In n l /\ n > 2048).
Proof. exact pgs_raises. Qed.
Print Assumptions C02_raises.
Example C02_raises_example : raises (proper_grid_size (GSeq [12; 3000])).
Proof. exists ValueErr. reflexivity. Qed.

(** C03 *)
Theorem C03_range : forall n i, 1 <= n -> 0 <= i < n -> fft_frequency n (fftfreq n i).
Proof. exact fftfreq_range. Qed.
Print Assumptions C03_range.
Theorem C03_congruent : forall n i, 1 <= n -> 0 <= i < n -> (fftfreq n i) mod n = i.
Proof. exact fftfreq_mod. Qed.
Print Assumptions C03_congruent.
Theorem C03_injective : forall n i j, 1 <= n -> 0 <= i < n -> 0 <= j < n ->
  fftfreq n i = fftfreq n j -> i = j.
Proof. exact fftfreq_inj. Qed.
Print Assumptions C03_injective.
Theorem C03_surjective : forall n f, 1 <= n -> fft_frequency n f ->
  exists i, 0 <= i < n /\ fftfreq n i = f.
Proof. exact fftfreq_surj. Qed.
Print Assumptions C03_surjective.
Theorem C03_negation : forall n, 1 <= n ->
  ((forall f, fft_frequency n f -> fft_frequency n (- f)) <-> Z.odd n = true).
Proof. exact fftfreq_neg_closed. Qed.
Print Assumptions C03_negation.
Example C03_example : map (fftfreq 6) (positions 6) = [0; 1; 2; -3; -2; -1] /\
  map (fftfreq 5) (positions 5) = [0; 1; 2; -2; -1].
Proof. vm_compute. auto. Qed.

(** C04 *)
Theorem C04_axis : forall n i, 1 <= n -> 0 <= i < n ->
  (cubic_mask_axis n i = true <-> n = 2 \/ selected n (fftfreq n i)).
Proof. exact cubic_mask_axis_spec. Qed.
Print Assumptions C04_axis.

Theorem C04_mask : forall n1 n2 n3 m i1 i2 i3,
  1 <= n1 -> 1 <= n2 -> 1 <= n3 -> 0 <= i1 < n1 -> 0 <= i2 < n2 -> 0 <= i3 < n3 ->
  cubic_mask [n1; n2; n3] = Ok m ->
  (m [i1; i2; i3] = true <->
     (n1 = 2 \/ selected n1 (fftfreq n1 i1)) /\ (n2 = 2 \/ selected n2 (fftfreq n2 i2))
     /\ (n3 = 2 \/ selected n3 (fftfreq n3 i3))).
Proof. exact cubic_mask_spec. Qed.
Print Assumptions C04_mask.

Theorem C04_inversion_symmetric_iff : forall n, 1 <= n -> n <> 2 ->
  ((forall f, selected n f -> selected n (- f)) <-> ((n - 1) / 2) mod 2 = 0).
Proof. exact cubic_mask_symmetric. Qed.
Print Assumptions C04_inversion_symmetric_iff.
Theorem C04_three_axes : forall sizes e,
  ((exists m, cubic_mask sizes = Ok m) <-> length sizes = 3%nat)
  /\ (cubic_mask sizes = Err e <-> length sizes <> 3%nat /\ e = ValueErr).
Proof. intros sizes e. exact (conj (cubic_mask_returns sizes) (cubic_mask_raises sizes e)). Qed.
Print Assumptions C04_three_axes.
Example C04_example :
  map (cubic_mask_axis 8) (positions 8) = [true; true; false; false; false; false; true; true] /\
  map (cubic_mask_axis 2) (positions 2) = [true; true] /\
  map (cubic_mask_axis 4) (positions 4) = [true; false; false; true].
Proof. vm_compute. auto. Qed.

(** C05 *)
Theorem C05_count : forall n1 n2 n3 m,
  1 <= n1 -> 1 <= n2 -> 1 <= n3 -> n1 <> 2 -> n2 <> 2 -> n3 <> 2 ->
  cubic_mask [n1; n2; n3] = Ok m ->
  count_true [n1; n2; n3] m = zprod (half_frequency_shape [n1; n2; n3]).
Proof. exact cubic_count_half. Qed.
Print Assumptions C05_count.
Example C05_example : zprod (half_frequency_shape [7; 8; 9]) = 80 /\
  exists m, cubic_mask [7; 8; 9] = Ok m /\ count_true [7; 8; 9] m = 80.
Proof. split; [reflexivity|]. eexists. split; [reflexivity|]. vm_compute. reflexivity. Qed.

(** Every axis of size 2 doubles the number of entries. *)
Theorem C05_exact : forall sizes m,
  Forall (fun n => 1 <= n) sizes -> cubic_mask sizes = Ok m ->
  count_true sizes m
  = zprod (half_frequency_shape sizes) * 2 ^ Z.of_nat (count_occ Z.eq_dec sizes 2).
Proof. exact cubic_count_exact. Qed.
Print Assumptions C05_exact.
Example C05_exact_example : exists m, cubic_mask [2; 7; 2] = Ok m /\ count_true [2; 7; 2] m = 16
  /\ zprod (half_frequency_shape [2; 7; 2]) = 4.
Proof. eexists. split; [reflexivity|]. vm_compute. auto. Qed.

Theorem C05_size_two_refuted : forall n1 n2 n3 m, 1 <= n1 -> 1 <= n2 -> 1 <= n3 ->
  n1 = 2 \/ n2 = 2 \/ n3 = 2 -> cubic_mask [n1; n2; n3] = Ok m ->
  count_true [n1; n2; n3] m > zprod (half_frequency_shape [n1; n2; n3]).
Proof. exact cubic_count_half_2. Qed.
Print Assumptions C05_size_two_refuted.

(** C06 *)
Theorem C06_no_alias : forall n i j, 1 <= n -> n <> 2 -> 0 <= i < n -> 0 <= j < n ->
  cubic_mask_axis n i = true -> cubic_mask_axis n j = true ->
  fft_frequency n (fftfreq n i - fftfreq n j).
Proof. exact no_alias_mask. Qed.
Print Assumptions C06_no_alias.
Example C06_example : cubic_mask_axis 8 1 = true /\ cubic_mask_axis 8 6 = true /\
  fftfreq 8 1 - fftfreq 8 6 = 3.
Proof. vm_compute. auto. Qed.

Theorem C06_size_two_refuted : exists i j, 0 <= i < 2 /\ 0 <= j < 2 /\
  cubic_mask_axis 2 i = true /\ cubic_mask_axis 2 j = true /\
  ~ fft_frequency 2 (fftfreq 2 i - fftfreq 2 j).
Proof. exact alias_at_2. Qed.
Print Assumptions C06_size_two_refuted.
