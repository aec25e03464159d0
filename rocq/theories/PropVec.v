(** Property theorems C08-C15, C28, C29: vector grids, k meshes, cutoff masks, lattice
    translations, volume and scaled positions. *)
From Coq Require Import List Arith ZArith Reals Lia Lra.
From Coquelicot Require Import Complex.
From Verif Require Import Base Tensor DFT GridModel GridSpec Lin3 VecModel VecProofs.
Import ListNotations.
Local Open Scope R_scope.

(** A non-orthogonal example cell used below. *)
Definition ex_cell := M3 (V3 2 0 0) (V3 1 3 0) (V3 0 1 4).
Example ex_cell_invertible : m3det ex_cell <> 0.
Proof. unfold ex_cell. lin3. lra. Qed.
Example ex_cell_not_symmetric : m3t ex_cell <> ex_cell.
Proof. unfold ex_cell, m3t. cbn. intros E. injection E. intros. lra. Qed.

(** C08 *)
Theorem C08_dual_to_cell : forall A n1 n2 n3 G, m3det A <> 0 -> g_vectors A [n1; n2; n3] = Ok G ->
  tshape G = [n1; n2; n3] /\ tget G [0; 0; 0]%nat = vzero /\
  (forall i j, inb i [n1; n2; n3] -> inb j [n1; n2; n3] -> tget G i = tget G j -> i = j) /\
  forall i1 i2 i3, (i1 < n1)%nat -> (i2 < n2)%nat -> (i3 < n3)%nat ->
    dot (tget G [i1; i2; i3]) (m0 A) = 2 * PI * IZR (fftfreq (Z.of_nat n1) (Z.of_nat i1)) /\
    dot (tget G [i1; i2; i3]) (m1 A) = 2 * PI * IZR (fftfreq (Z.of_nat n2) (Z.of_nat i2)) /\
    dot (tget G [i1; i2; i3]) (m2 A) = 2 * PI * IZR (fftfreq (Z.of_nat n3) (Z.of_nat i3)).
Proof. exact g_vectors_dual. Qed.
Print Assumptions C08_dual_to_cell.
Theorem C08_returns_iff : forall A n1 n2 n3,
  (exists G, g_vectors A [n1; n2; n3] = Ok G) <-> (1 <= n1 /\ 1 <= n2 /\ 1 <= n3)%nat.
Proof. exact g_vectors_ok. Qed.
Print Assumptions C08_returns_iff.
Example C08_example : exists G, g_vectors ex_cell [4; 3; 5]%nat = Ok G.
Proof. apply g_vectors_ok. lia. Qed.

(** C09.  [cis t] is exp(i t); [phase ns g x] is sum_j g_j x_j / n_j. *)
Theorem C09_fft_pair : forall A n1 n2 n3 G X, m3det A <> 0 ->
  g_vectors A [n1; n2; n3] = Ok G -> r_vectors A [n1; n2; n3] = Ok X ->
  forall g x, inb g [n1; n2; n3] -> inb x [n1; n2; n3] ->
  cis (dot (tget G g) (tget X x)) = cis (2 * PI * phase [n1; n2; n3] (zs g) (zs x)).
Proof. exact fft_pair. Qed.
Print Assumptions C09_fft_pair.
Example C09_example : (exists X, r_vectors ex_cell [4; 3; 5]%nat = Ok X) /\ inb [3; 2; 4]%nat [4; 3; 5]%nat.
Proof. split; [apply vector_grid_ok; lia|repeat constructor; lia]. Qed.

(** C10 *)
Theorem C10_g2r_with_cell : forall A A' sizes G, g_vectors A' sizes = Ok G ->
  g2r_vector_grid G (Some A) = r_vectors A sizes.
Proof. exact g2r_given. Qed.
Print Assumptions C10_g2r_with_cell.
Theorem C10_r2g_with_cell : forall A A' sizes X, r_vectors A' sizes = Ok X ->
  r2g_vector_grid X (Some A) = g_vectors A sizes.
Proof. exact r2g_given. Qed.
Print Assumptions C10_r2g_with_cell.
Theorem C10_r2g_without_cell : forall A n1 n2 n3 X, (2 <= n1)%nat -> (2 <= n2)%nat -> (2 <= n3)%nat ->
  r_vectors A [n1; n2; n3] = Ok X -> r2g_vector_grid X None = g_vectors A [n1; n2; n3].
Proof. exact r2g_inferred. Qed.
Print Assumptions C10_r2g_without_cell.
Theorem C10_g2r_without_cell : forall A n1 n2 n3 G, m3det A <> 0 ->
  (2 <= n1)%nat -> (2 <= n2)%nat -> (2 <= n3)%nat ->
  g_vectors A [n1; n2; n3] = Ok G -> g2r_vector_grid G None = r_vectors (m3t A) [n1; n2; n3].
Proof. exact g2r_inferred. Qed.
Print Assumptions C10_g2r_without_cell.
Theorem C10_g2r_without_cell_refuted : exists A G X X', m3det A <> 0 /\ g_vectors A [4; 4; 4]%nat = Ok G /\
  r_vectors A [4; 4; 4]%nat = Ok X /\ g2r_vector_grid G None = Ok X' /\ ~ teq X' X.
Proof. exact g2r_inferred_refuted. Qed.
Print Assumptions C10_g2r_without_cell_refuted.

(** C11 *)
Theorem C11_r2cell : forall A n1 n2 n3 X, (2 <= n1)%nat -> (2 <= n2)%nat -> (2 <= n3)%nat ->
  r_vectors A [n1; n2; n3] = Ok X -> r2cell_vectors X = Ok A.
Proof. exact r2cell_spec. Qed.
Print Assumptions C11_r2cell.
Theorem C11_g2cell_transposes : forall A n1 n2 n3 G, m3det A <> 0 ->
  (2 <= n1)%nat -> (2 <= n2)%nat -> (2 <= n3)%nat ->
  g_vectors A [n1; n2; n3] = Ok G -> g2cell_vectors G = Ok (m3t A).
Proof. exact g2cell_spec. Qed.
Print Assumptions C11_g2cell_transposes.
Theorem C11_g2cell_refuted : exists A G, m3det A <> 0 /\ g_vectors A [2; 2; 2]%nat = Ok G /\
  g2cell_vectors G <> Ok A.
Proof.
  destruct (vector_grid_ok (reciprocal_vectors ex_cell) 2 2 2 false) as [G HG]; try lia.
  exists ex_cell, G. split; [exact ex_cell_invertible|]. split; [exact HG|].
  rewrite (g2cell_spec ex_cell 2 2 2 G ex_cell_invertible); try lia; [|exact HG].
  intros E. apply ex_cell_not_symmetric. injection E. intros. unfold m3t, ex_cell. cbn. congruence.
Qed.
Print Assumptions C11_g2cell_refuted.

(** C12 *)
Theorem C12_count : forall A sizes ks, k_vectors A sizes = Ok ks -> length ks = nprod sizes.
Proof. exact k_vectors_length. Qed.
Print Assumptions C12_count.
Theorem C12_time_reversal : forall A sizes ks, k_vectors A sizes = Ok ks -> rev ks = map vneg ks.
Proof. exact k_vectors_mirror. Qed.
Print Assumptions C12_time_reversal.
Theorem C12_distinct : forall A sizes ks, m3det A <> 0 -> k_vectors A sizes = Ok ks -> NoDup ks.
Proof. exact k_vectors_NoDup. Qed.
Print Assumptions C12_distinct.
Theorem C12_gamma_iff_odd : forall A sizes ks, m3det A <> 0 -> k_vectors A sizes = Ok ks ->
  (In vzero ks <-> Forall (fun n => Nat.odd n = true) sizes).
Proof. exact k_vectors_gamma. Qed.
Print Assumptions C12_gamma_iff_odd.
Theorem C12_first_is_gamma_iff : forall A sizes ks, m3det A <> 0 -> k_vectors A sizes = Ok ks ->
  (hd_error ks = Some vzero <-> Forall (fun n => n = 1%nat) sizes).
Proof. exact k_vectors_first. Qed.
Print Assumptions C12_first_is_gamma_iff.
Theorem C12_inside_primitive_zone : forall A sizes ks, m3det A <> 0 -> k_vectors A sizes = Ok ks ->
  forall k, In k ks -> forall a, In a [m0 A; m1 A; m2 A] -> - PI < dot k a < PI.
Proof. exact k_vectors_zone. Qed.
Print Assumptions C12_inside_primitive_zone.
Example C12_example : exists ks, k_vectors ex_cell [2; 3; 4]%nat = Ok ks.
Proof. eexists. reflexivity. Qed.

(** C13 *)
Theorem C13_ball : forall A sizes E m, spherical_mask A sizes E = Ok m ->
  exists G, g_vectors A sizes = Ok G /\ tshape m = sizes /\
  forall i, tget m i = true <-> norm2 (tget G i) / 2 <= E.
Proof. exact spherical_mask_spec. Qed.
Print Assumptions C13_ball.
Theorem C13_monotone : forall A sizes E E' m m', E <= E' ->
  spherical_mask A sizes E = Ok m -> spherical_mask A sizes E' = Ok m' ->
  forall i, tget m i = true -> tget m' i = true.
Proof. exact spherical_mask_mono. Qed.
Print Assumptions C13_monotone.
Theorem C13_zero_iff : forall A n1 n2 n3 E m, spherical_mask A [n1; n2; n3] E = Ok m ->
  (tget m [0; 0; 0]%nat = true <-> 0 <= E).
Proof. exact spherical_mask_zero. Qed.
Print Assumptions C13_zero_iff.
Example C13_example : exists m, spherical_mask ex_cell [4; 3; 5]%nat 10 = Ok m.
Proof. eexists. reflexivity. Qed.

(** C14 *)
Theorem C14_attained : forall A mask E, estimate_max_cutoff_energy A mask = Ok E ->
  exists G, g_vectors A (tshape mask) = Ok G /\
  (forall i, inb i (tshape mask) -> tget mask i = true -> norm2 (tget G i) / 2 <= E) /\
  (E = 0 \/ exists i, inb i (tshape mask) /\ tget mask i = true /\ E = norm2 (tget G i) / 2) /\
  0 <= E.
Proof. exact estimate_spec. Qed.
Print Assumptions C14_attained.
Theorem C14_covers : forall A mask E m, estimate_max_cutoff_energy A mask = Ok E ->
  spherical_mask A (tshape mask) E = Ok m ->
  forall i, inb i (tshape mask) -> tget mask i = true -> tget m i = true.
Proof. exact estimate_covers. Qed.
Print Assumptions C14_covers.
Theorem C14_least : forall A mask E E' m', estimate_max_cutoff_energy A mask = Ok E ->
  (exists i, inb i (tshape mask) /\ tget mask i = true) ->
  spherical_mask A (tshape mask) E' = Ok m' ->
  (forall i, inb i (tshape mask) -> tget mask i = true -> tget m' i = true) -> E <= E'.
Proof. exact estimate_least. Qed.
Print Assumptions C14_least.
Example C14_example : exists E, estimate_max_cutoff_energy ex_cell (mkT [3; 3; 3]%nat (fun i => Nat.ltb (nth 0 i 0%nat) 2)) = Ok E.
Proof. apply estimate_ok; lia. Qed.

(** C15 *)
Theorem C15_returns_iff : forall A cutoff,
  (exists l, translation_vectors A cutoff = Ok l) <->
  vadd (vadd (m0 A) (m1 A)) (m2 A) <> vzero /\ 0 < cutoff.
Proof. exact translation_ok. Qed.
Print Assumptions C15_returns_iff.
Theorem C15_lattice_and_zero : forall A cutoff l, translation_vectors A cutoff = Ok l ->
  In vzero l /\ forall v, In v l -> lattice_vector A v.
Proof. exact translation_lattice. Qed.
Print Assumptions C15_lattice_and_zero.
Theorem C15_distinct : forall A cutoff l, m3det A <> 0 -> translation_vectors A cutoff = Ok l -> NoDup l.
Proof. exact translation_NoDup. Qed.
Print Assumptions C15_distinct.
Theorem C15_members : forall A cutoff l, m3det A <> 0 -> translation_vectors A cutoff = Ok l ->
  let n := ceil (cutoff / norm2 (row_sum A)) in
  forall a b c : Z, In (vmul (V3 (IZR a) (IZR b) (IZR c)) A) l <->
    fft_frequency n a /\ fft_frequency n b /\ fft_frequency n c.
Proof. exact translation_members. Qed.
Print Assumptions C15_members.
Theorem C15_symmetric_iff_odd : forall A cutoff l, m3det A <> 0 -> translation_vectors A cutoff = Ok l ->
  ((forall v, In v l -> In (vneg v) l) <-> Z.odd (ceil (cutoff / norm2 (row_sum A))) = true).
Proof. exact translation_symmetric. Qed.
Print Assumptions C15_symmetric_iff_odd.
Theorem C15_cutoff_distance_refuted : exists A cutoff l v,
  m3det A <> 0 /\ translation_vectors A cutoff = Ok l /\ lattice_vector A v /\ norm v < cutoff /\ ~ In v l.
Proof. exact translation_cutoff_refuted. Qed.
Print Assumptions C15_cutoff_distance_refuted.
Example C15_example : exists l, translation_vectors ex_cell 10000 = Ok l.
Proof. apply translation_ok. split; [|lra]. unfold row_sum, ex_cell. intros E. injection E. intros. cbn in *. lra. Qed.

(** C28 *)
Theorem C28_nonneg_and_invertible : forall A,
  0 <= volume A /\ (0 < volume A <-> exists B, m3mul A B = m3id).
Proof. exact volume_pos_iff. Qed.
Print Assumptions C28_nonneg_and_invertible.
Theorem C28_scaling : forall s A, volume (m3scale s A) = Rabs s ^ 3 * volume A.
Proof. exact volume_scale. Qed.
Print Assumptions C28_scaling.
Theorem C28_rotation : forall A Q, m3mul Q (m3t Q) = m3id -> volume (m3mul A Q) = volume A.
Proof. exact volume_rotation. Qed.
Print Assumptions C28_rotation.
Example C28_rotation_example : let Q := M3 (V3 0 1 0) (V3 (-1) 0 0) (V3 0 0 1) in m3mul Q (m3t Q) = m3id.
Proof. cbv zeta. lin3; ring. Qed.
Theorem C28_row_permutations : forall A,
  volume (M3 (m1 A) (m0 A) (m2 A)) = volume A /\ volume (M3 (m1 A) (m2 A) (m0 A)) = volume A /\
  volume (M3 (m0 A) (m2 A) (m1 A)) = volume A.
Proof. exact volume_swap. Qed.
Print Assumptions C28_row_permutations.
Theorem C28_shear : forall A k, volume (M3 (vadd (m0 A) (vscale k (m1 A))) (m1 A) (m2 A)) = volume A.
Proof. exact volume_shear. Qed.
Print Assumptions C28_shear.
Theorem C28_reciprocal : forall A, m3det A <> 0 -> volume A * volume (reciprocal_vectors A) = (2 * PI) ^ 3.
Proof. exact volume_recip. Qed.
Print Assumptions C28_reciprocal.
Example C28_example : volume ex_cell = 24.
Proof. unfold volume, ex_cell, m3det, dot, cross. cbn [m0 m1 m2 vx vy vz]. rewrite Rabs_pos_eq; lra. Qed.

(** C29.  [vmul s A] = s_1 a_1 + s_2 a_2 + s_3 a_3 is the position with scaled coordinates s. *)
Theorem C29_symmetric_cell : forall A p, m3det A <> 0 -> m3t A = A -> vmul (scaled_position A p) A = p.
Proof. exact scaled_symmetric. Qed.
Print Assumptions C29_symmetric_cell.
Theorem C29_only_symmetric_cells : forall A, m3det A <> 0 ->
  (forall p, vmul (scaled_position A p) A = p) -> m3t A = A.
Proof. exact scaled_only_symmetric. Qed.
Print Assumptions C29_only_symmetric_cells.
Theorem C29_coordinates_in_columns : forall A p, m3det A <> 0 -> vmul (scaled_position A p) (m3t A) = p.
Proof. exact scaled_transposed. Qed.
Print Assumptions C29_coordinates_in_columns.
Theorem C29_scaled_positions_refuted : exists A p, m3det A <> 0 /\ vmul (scaled_position A p) A <> p.
Proof. exact scaled_refuted. Qed.
Print Assumptions C29_scaled_positions_refuted.
