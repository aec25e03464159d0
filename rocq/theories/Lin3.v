(** Vectors and matrices of size three over the reals.  Definitions are the textbook ones;
    [m3inv] (adjugate over determinant) stands for numpy.linalg.inv, which computes the
    inverse by LU: the two agree on every invertible matrix (inverses are unique), and on a
    singular matrix numpy raises or returns inf/nan where [m3inv] has a junk value, so every
    theorem that mentions it assumes [m3det A <> 0]. *)
From Coq Require Import Reals Lra List.
Import ListNotations.
Local Open Scope R_scope.

Record v3 := V3 { vx : R; vy : R; vz : R }.
Record m3 := M3 { m0 : v3; m1 : v3; m2 : v3 }.   (* rows *)

Definition vzero := V3 0 0 0.
Definition vadd u v := V3 (vx u + vx v) (vy u + vy v) (vz u + vz v).
Definition vsub u v := V3 (vx u - vx v) (vy u - vy v) (vz u - vz v).
Definition vneg u := V3 (- vx u) (- vy u) (- vz u).
Definition vscale a u := V3 (a * vx u) (a * vy u) (a * vz u).
Definition dot u v := vx u * vx v + vy u * vy v + vz u * vz v.
Definition norm2 u := dot u u.
Definition norm u := sqrt (norm2 u).
Definition cross u v :=
  V3 (vy u * vz v - vz u * vy v) (vz u * vx v - vx u * vz v) (vx u * vy v - vy u * vx v).

Definition m3det A := dot (m0 A) (cross (m1 A) (m2 A)).
Definition m3t A :=
  M3 (V3 (vx (m0 A)) (vx (m1 A)) (vx (m2 A)))
     (V3 (vy (m0 A)) (vy (m1 A)) (vy (m2 A)))
     (V3 (vz (m0 A)) (vz (m1 A)) (vz (m2 A))).
Definition m3id := M3 (V3 1 0 0) (V3 0 1 0) (V3 0 0 1).
Definition m3scale a A := M3 (vscale a (m0 A)) (vscale a (m1 A)) (vscale a (m2 A)).
(** row vector times matrix *)
Definition vmul u A := vadd (vscale (vx u) (m0 A)) (vadd (vscale (vy u) (m1 A)) (vscale (vz u) (m2 A))).
Definition m3mul A B := M3 (vmul (m0 A) B) (vmul (m1 A) B) (vmul (m2 A) B).
(** adjugate over determinant: columns are the cross products of the rows *)
Definition m3adj A := m3t (M3 (cross (m1 A) (m2 A)) (cross (m2 A) (m0 A)) (cross (m0 A) (m1 A))).
Definition m3inv A := m3scale (/ m3det A) (m3adj A).

Lemma v3_eq u v : vx u = vx v -> vy u = vy v -> vz u = vz v -> u = v.
Proof. destruct u, v; simpl; congruence. Qed.
Lemma m3_eq A B : m0 A = m0 B -> m1 A = m1 B -> m2 A = m2 B -> A = B.
Proof. destruct A, B; simpl; congruence. Qed.

Ltac lin3_unf := unfold m3inv, m3adj, m3det, m3mul, vmul, m3scale, m3t, m3id, norm2, dot, cross, vadd, vsub, vneg, vscale, vzero in *.
Ltac lin3_dest := repeat match goal with
  | A : m3 |- _ => destruct A as [[? ? ?] [? ? ?] [? ? ?]]
  | u : v3 |- _ => destruct u as [? ? ?] end.
Ltac lin3 := intros; lin3_dest; lin3_unf; cbn [vx vy vz m0 m1 m2] in *;
  try (apply m3_eq; cbn [vx vy vz m0 m1 m2]); try (apply v3_eq; cbn [vx vy vz m0 m1 m2]).

Lemma m3mul_assoc A B D : m3mul (m3mul A B) D = m3mul A (m3mul B D).
Proof. lin3; ring. Qed.
Lemma vmul_assoc u A B : vmul (vmul u A) B = vmul u (m3mul A B).
Proof. lin3; ring. Qed.
Lemma m3mul_id_l A : m3mul m3id A = A. Proof. lin3; ring. Qed.
Lemma m3mul_id_r A : m3mul A m3id = A. Proof. lin3; ring. Qed.
Lemma vmul_id u : vmul u m3id = u. Proof. lin3; ring. Qed.
Lemma m3t_t A : m3t (m3t A) = A. Proof. lin3; reflexivity. Qed.
Lemma m3t_mul A B : m3t (m3mul A B) = m3mul (m3t B) (m3t A). Proof. lin3; ring. Qed.
Lemma m3det_mul A B : m3det (m3mul A B) = m3det A * m3det B. Proof. lin3; ring. Qed.
Lemma m3det_t A : m3det (m3t A) = m3det A. Proof. lin3; ring. Qed.
Lemma m3det_id : m3det m3id = 1. Proof. lin3; ring. Qed.
Lemma m3det_scale a A : m3det (m3scale a A) = a ^ 3 * m3det A. Proof. lin3; ring. Qed.
Lemma m3mul_scale_l a A B : m3mul (m3scale a A) B = m3scale a (m3mul A B). Proof. lin3; ring. Qed.
Lemma m3mul_scale_r a A B : m3mul A (m3scale a B) = m3scale a (m3mul A B). Proof. lin3; ring. Qed.
Lemma m3scale_scale a b A : m3scale a (m3scale b A) = m3scale (a * b) A. Proof. lin3; ring. Qed.
Lemma m3scale_1 A : m3scale 1 A = A. Proof. lin3; ring. Qed.
Lemma m3adj_l A : m3mul (m3adj A) A = m3scale (m3det A) m3id.
Proof. lin3; ring. Qed.
Lemma m3adj_r A : m3mul A (m3adj A) = m3scale (m3det A) m3id.
Proof. lin3; ring. Qed.
Lemma m3inv_l A : m3det A <> 0 -> m3mul (m3inv A) A = m3id.
Proof. intros H. unfold m3inv. rewrite m3mul_scale_l, m3adj_l, m3scale_scale, Rinv_l, m3scale_1 by exact H. reflexivity. Qed.
Lemma m3inv_r A : m3det A <> 0 -> m3mul A (m3inv A) = m3id.
Proof. intros H. unfold m3inv. rewrite m3mul_scale_r, m3adj_r, m3scale_scale, Rinv_l, m3scale_1 by exact H. reflexivity. Qed.
Lemma m3t_scale a A : m3t (m3scale a A) = m3scale a (m3t A). Proof. lin3; reflexivity. Qed.
Lemma m3t_id : m3t m3id = m3id. Proof. reflexivity. Qed.
Lemma vmul_add u v A : vmul (vadd u v) A = vadd (vmul u A) (vmul v A). Proof. lin3; ring. Qed.
Lemma vmul_neg u A : vmul (vneg u) A = vneg (vmul u A). Proof. lin3; ring. Qed.
Lemma vmul_scale a u A : vmul (vscale a u) A = vscale a (vmul u A). Proof. lin3; ring. Qed.
Lemma vmul_zero A : vmul vzero A = vzero. Proof. lin3; ring. Qed.
Lemma vmul_mscale a u A : vmul u (m3scale a A) = vscale a (vmul u A). Proof. lin3; ring. Qed.
Lemma dot_comm u v : dot u v = dot v u. Proof. lin3; ring. Qed.
Lemma dot_add_l u v w : dot (vadd u v) w = dot u w + dot v w. Proof. lin3; ring. Qed.
Lemma dot_add_r u v w : dot w (vadd u v) = dot w u + dot w v. Proof. lin3; ring. Qed.
Lemma dot_sub_r u v w : dot w (vsub u v) = dot w u - dot w v. Proof. lin3; ring. Qed.
Lemma dot_neg_l u w : dot (vneg u) w = - dot u w. Proof. lin3; ring. Qed.
Lemma dot_neg_r u w : dot w (vneg u) = - dot w u. Proof. lin3; ring. Qed.
Lemma dot_scale_l a u w : dot (vscale a u) w = a * dot u w. Proof. lin3; ring. Qed.
Lemma dot_scale_r a u w : dot w (vscale a u) = a * dot w u. Proof. lin3; ring. Qed.
Lemma dot_vmul_t u A v : dot (vmul u A) v = dot u (vmul v (m3t A)). Proof. lin3; ring. Qed.
Lemma norm2_nonneg u : 0 <= norm2 u.
Proof. lin3. pose proof (Rle_0_sqr vx0). pose proof (Rle_0_sqr vy0). pose proof (Rle_0_sqr vz0). unfold Rsqr in *. lra. Qed.
Lemma norm2_zero u : norm2 u = 0 <-> u = vzero.
Proof.
  split; [|intros ->; unfold norm2, dot, vzero; simpl; ring].
  destruct u as [x y z]. unfold norm2, dot, vzero; simpl. intros H.
  pose proof (Rle_0_sqr x). pose proof (Rle_0_sqr y). pose proof (Rle_0_sqr z). unfold Rsqr in *.
  assert (forall a, a * a = 0 -> a = 0) as Hz by (intros a Ha; apply Rmult_integral in Ha; tauto).
  rewrite (Hz x), (Hz y), (Hz z); [reflexivity|lra|lra|lra].
Qed.
Lemma norm2_neg u : norm2 (vneg u) = norm2 u. Proof. lin3; ring. Qed.
Lemma norm2_scale a u : norm2 (vscale a u) = a * a * norm2 u. Proof. lin3; ring. Qed.
Lemma norm_sq u : norm u ^ 2 = norm2 u.
Proof. unfold norm. simpl. rewrite Rmult_1_r. apply sqrt_sqrt, norm2_nonneg. Qed.

(** Determinant and invertibility *)
Lemma m3det_inv A : m3det A <> 0 -> m3det (m3inv A) = / m3det A.
Proof.
  intros H. apply (Rmult_eq_reg_r (m3det A)); [|exact H].
  rewrite <- m3det_mul, m3inv_l, m3det_id by exact H. field. exact H.
Qed.
Lemma m3inv_unique A B : m3mul A B = m3id -> m3inv A = B.
Proof.
  intros H. assert (Hd : m3det A <> 0).
  { intros H0. apply (f_equal m3det) in H. rewrite m3det_mul, m3det_id, H0 in H. lra. }
  rewrite <- (m3mul_id_l B), <- (m3inv_l A Hd), m3mul_assoc, H, m3mul_id_r. reflexivity.
Qed.
Lemma m3inv_unique_l A B : m3mul B A = m3id -> m3inv A = B.
Proof.
  intros H. assert (Hd : m3det A <> 0).
  { intros H0. apply (f_equal m3det) in H. rewrite m3det_mul, m3det_id, H0 in H. lra. }
  rewrite <- (m3mul_id_r B), <- (m3inv_r A Hd), <- m3mul_assoc, H, m3mul_id_l. reflexivity.
Qed.
Lemma m3inv_inv A : m3det A <> 0 -> m3inv (m3inv A) = A.
Proof. intros H. apply m3inv_unique, m3inv_l, H. Qed.
Lemma m3inv_t A : m3det A <> 0 -> m3inv (m3t A) = m3t (m3inv A).
Proof. intros H. apply m3inv_unique. rewrite <- m3t_mul, m3inv_l, m3t_id by exact H. reflexivity. Qed.
Lemma m3inv_scale a A : a <> 0 -> m3det A <> 0 -> m3inv (m3scale a A) = m3scale (/ a) (m3inv A).
Proof.
  intros Ha H. apply m3inv_unique. rewrite m3mul_scale_l, m3mul_scale_r, m3scale_scale, m3inv_r by exact H.
  rewrite Rinv_r by exact Ha. apply m3scale_1.
Qed.
Lemma m3inv_mul A B : m3det A <> 0 -> m3det B <> 0 -> m3inv (m3mul A B) = m3mul (m3inv B) (m3inv A).
Proof.
  intros HA HB. apply m3inv_unique. rewrite m3mul_assoc, <- (m3mul_assoc B), m3inv_r by exact HB.
  rewrite m3mul_id_l. apply m3inv_r, HA.
Qed.
Lemma m3inv_id : m3inv m3id = m3id.
Proof. apply m3inv_unique, m3mul_id_l. Qed.
Lemma vmul_inj A u v : m3det A <> 0 -> vmul u A = vmul v A -> u = v.
Proof.
  intros H E. rewrite <- (vmul_id u), <- (vmul_id v), <- (m3inv_r A H), <- !vmul_assoc, E. reflexivity.
Qed.
