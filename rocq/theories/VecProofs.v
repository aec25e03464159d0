From Coq Require Import List Arith ZArith Reals Bool Lra Lia Permutation.
From Coquelicot Require Import Complex.
From Verif Require Import Base Sums Tensor DFT GridModel GridSpec GridProofs Lin3 VecModel.
Import ListNotations.
Local Open Scope R_scope.

(** integer frequency of an index, as a real *)
Definition fr (n i : nat) : R := IZR (fftfreq (Z.of_nat n) (Z.of_nat i)).

Lemma INR_pos n : (1 <= n)%nat -> 0 < INR n. Proof. intros. apply lt_0_INR. lia. Qed.

Lemma fftfreq_d_false n i : (1 <= n)%nat -> fftfreq_d n (1 / INR n) i = fr n i.
Proof. intros H. unfold fftfreq_d, fr. pose proof (INR_pos n H). field. lra. Qed.
Lemma fftfreq_d_true n i : (1 <= n)%nat -> fftfreq_d n 1 i = fr n i / INR n.
Proof. intros H. unfold fftfreq_d, fr. pose proof (INR_pos n H). field. lra. Qed.

Lemma vector_grid_inv B sizes nz g : vector_grid B sizes nz = Ok g ->
  exists n1 n2 n3, sizes = [n1; n2; n3] /\ (1 <= n1)%nat /\ (1 <= n2)%nat /\ (1 <= n3)%nat.
Proof.
  unfold vector_grid. destruct sizes as [|n1 [|n2 [|n3 [|]]]]; try discriminate.
  destruct (_ || _) eqn:E; [discriminate|]. intros _. exists n1, n2, n3.
  apply orb_false_iff in E. destruct E as [E E3]. apply orb_false_iff in E. destruct E as [E1 E2].
  apply Nat.eqb_neq in E1, E2, E3. repeat split; lia.
Qed.

Lemma vector_grid_ok B n1 n2 n3 nz : (1 <= n1)%nat -> (1 <= n2)%nat -> (1 <= n3)%nat ->
  exists g, vector_grid B [n1; n2; n3] nz = Ok g.
Proof.
  intros H1 H2 H3. unfold vector_grid.
  replace (n1 =? 0)%nat with false by (symmetry; apply Nat.eqb_neq; lia).
  replace (n2 =? 0)%nat with false by (symmetry; apply Nat.eqb_neq; lia).
  replace (n3 =? 0)%nat with false by (symmetry; apply Nat.eqb_neq; lia).
  cbn [orb]. eexists. reflexivity.
Qed.

Definition coef (nz : bool) (n i : nat) : R := if nz then fr n i / INR n else fr n i.

Lemma vector_grid_get B n1 n2 n3 nz g : vector_grid B [n1; n2; n3] nz = Ok g ->
  tshape g = [n1; n2; n3] /\
  forall i j k, tget g [i; j; k] = vmul (V3 (coef nz n1 i) (coef nz n2 j) (coef nz n3 k)) B.
Proof.
  intros H. destruct (vector_grid_inv _ _ _ _ H) as (a & b & c & E & H1 & H2 & H3).
  injection E as <- <- <-. unfold vector_grid in H. destruct (_ || _); [discriminate|].
  injection H as <-. cbn [tshape tget nth]. split; [reflexivity|]. intros i j k.
  assert (Hc : forall n x, (1 <= n)%nat -> fftfreq_d n (if nz then 1 else 1 / INR n) x = coef nz n x).
  { intros n x Hn. unfold coef. destruct nz; [apply fftfreq_d_true|apply fftfreq_d_false]; exact Hn. }
  rewrite !Hc by assumption. unfold vmul. cbn [vx vy vz]. lin3; ring.
Qed.

Lemma fr_inj n i j : (1 <= n)%nat -> (i < n)%nat -> (j < n)%nat -> fr n i = fr n j -> i = j.
Proof.
  intros Hn Hi Hj H. apply eq_IZR in H.
  apply fftfreq_inj in H; lia.
Qed.
Lemma fr_0 n : (1 <= n)%nat -> fr n 0 = 0.
Proof.
  intros Hn. unfold fr, fftfreq. replace (Z.of_nat 0 <=? _)%Z with true; [reflexivity|].
  symmetry. apply Z.leb_le. apply Z.div_pos; lia.
Qed.
Lemma fr_0_inv n i : (1 <= n)%nat -> (i < n)%nat -> fr n i = 0 -> i = 0%nat.
Proof. intros Hn Hi H. apply (fr_inj n i 0 Hn Hi); [lia|]. rewrite H, fr_0 by exact Hn. reflexivity. Qed.

Lemma coef_inj nz n i j : (1 <= n)%nat -> (i < n)%nat -> (j < n)%nat -> coef nz n i = coef nz n j -> i = j.
Proof.
  intros Hn Hi Hj H. apply (fr_inj n); auto. unfold coef in H. destruct nz; [|exact H].
  pose proof (INR_pos n Hn). apply (Rmult_eq_reg_r (/ INR n)); [exact H|]. apply Rinv_neq_0_compat. lra.
Qed.
Lemma coef_0 nz n : (1 <= n)%nat -> coef nz n 0 = 0.
Proof. intros H. unfold coef. rewrite fr_0 by exact H. destruct nz; [|reflexivity]. unfold Rdiv. ring. Qed.

Lemma inb3 i n1 n2 n3 : inb i [n1; n2; n3] -> exists a b c, i = [a; b; c] /\ (a < n1)%nat /\ (b < n2)%nat /\ (c < n3)%nat.
Proof.
  intros H. inversion H as [|a ? r ? Ha Hr]; subst. inversion Hr as [|b ? r2 ? Hb Hr2]; subst.
  inversion Hr2 as [|c ? r3 ? Hc Hr3]; subst. inversion Hr3; subst. exists a, b, c. auto.
Qed.

Lemma V3_inj a b c a' b' c' : V3 a b c = V3 a' b' c' -> a = a' /\ b = b' /\ c = c'.
Proof. intros H. injection H. auto. Qed.

Lemma vector_grid_inj B sizes nz g : m3det B <> 0 -> vector_grid B sizes nz = Ok g ->
  forall i j, inb i sizes -> inb j sizes -> tget g i = tget g j -> i = j.
Proof.
  intros HB Hg i j Hi Hj E. destruct (vector_grid_inv _ _ _ _ Hg) as (n1 & n2 & n3 & -> & H1 & H2 & H3).
  destruct (vector_grid_get _ _ _ _ _ _ Hg) as [_ G].
  apply inb3 in Hi. destruct Hi as (a & b & c & -> & Ha & Hb & Hc).
  apply inb3 in Hj. destruct Hj as (a' & b' & c' & -> & Ha' & Hb' & Hc').
  rewrite !G in E. apply vmul_inj in E; [|exact HB]. apply V3_inj in E. destruct E as (E1 & E2 & E3).
  apply coef_inj in E1; auto. apply coef_inj in E2; auto. apply coef_inj in E3; auto. congruence.
Qed.

Lemma det_recip A : m3det A <> 0 -> m3det (reciprocal_vectors A) = (2 * PI) ^ 3 / m3det A.
Proof. intros H. unfold reciprocal_vectors. rewrite m3det_scale, m3det_t, m3det_inv by exact H. reflexivity. Qed.
Lemma twoPI_neq : 2 * PI <> 0. Proof. pose proof PI_RGT_0. lra. Qed.
Lemma det_recip_neq A : m3det A <> 0 -> m3det (reciprocal_vectors A) <> 0.
Proof.
  intros H. rewrite det_recip by exact H. unfold Rdiv. apply Rmult_integral_contrapositive_currified.
  - apply pow_nonzero, twoPI_neq.
  - apply Rinv_neq_0_compat, H.
Qed.

(** G . a_j = 2 pi f_j : the coordinates of [vmul u (reciprocal A)] against the rows of A. *)
Lemma recip_dual A u : m3det A <> 0 -> vmul (vmul u (reciprocal_vectors A)) (m3t A) = vscale (2 * PI) u.
Proof.
  intros H. unfold reciprocal_vectors. rewrite vmul_mscale, vmul_scale, vmul_assoc, <- m3t_mul, m3inv_r by exact H.
  rewrite m3t_id, vmul_id. reflexivity.
Qed.
Lemma vmul_t_dots u A : vmul u (m3t A) = V3 (dot u (m0 A)) (dot u (m1 A)) (dot u (m2 A)).
Proof. lin3; ring. Qed.

Lemma recip_dots A u : m3det A <> 0 ->
  dot (vmul u (reciprocal_vectors A)) (m0 A) = 2 * PI * vx u /\
  dot (vmul u (reciprocal_vectors A)) (m1 A) = 2 * PI * vy u /\
  dot (vmul u (reciprocal_vectors A)) (m2 A) = 2 * PI * vz u.
Proof.
  intros H. pose proof (recip_dual A u H) as E. rewrite vmul_t_dots in E. unfold vscale in E.
  apply V3_inj in E. exact E.
Qed.

Lemma recip_dot A u w : m3det A <> 0 -> dot (vmul u (reciprocal_vectors A)) (vmul w A) = 2 * PI * dot u w.
Proof.
  intros H. rewrite (dot_comm _ (vmul w A)), dot_vmul_t, recip_dual by exact H.
  rewrite dot_scale_r, dot_comm. ring.
Qed.

(** ** C08 *)
Lemma g_vectors_dual A n1 n2 n3 G : m3det A <> 0 -> g_vectors A [n1; n2; n3] = Ok G ->
  tshape G = [n1; n2; n3] /\ tget G [0; 0; 0]%nat = vzero /\
  (forall i j, inb i [n1; n2; n3] -> inb j [n1; n2; n3] -> tget G i = tget G j -> i = j) /\
  forall i1 i2 i3, (i1 < n1)%nat -> (i2 < n2)%nat -> (i3 < n3)%nat ->
    dot (tget G [i1; i2; i3]) (m0 A) = 2 * PI * IZR (fftfreq (Z.of_nat n1) (Z.of_nat i1)) /\
    dot (tget G [i1; i2; i3]) (m1 A) = 2 * PI * IZR (fftfreq (Z.of_nat n2) (Z.of_nat i2)) /\
    dot (tget G [i1; i2; i3]) (m2 A) = 2 * PI * IZR (fftfreq (Z.of_nat n3) (Z.of_nat i3)).
Proof.
  intros HA HG. unfold g_vectors in HG. destruct (vector_grid_get _ _ _ _ _ _ HG) as [Hs Hv].
  destruct (vector_grid_inv _ _ _ _ HG) as (a & b & c & E & H1 & H2 & H3). injection E as <- <- <-.
  split; [exact Hs|]. split; [|split].
  - rewrite Hv, !coef_0 by assumption. apply vmul_zero.
  - apply (vector_grid_inj _ _ _ _ (det_recip_neq A HA) HG).
  - intros i1 i2 i3 _ _ _. rewrite Hv.
    pose proof (recip_dots A (V3 (coef false n1 i1) (coef false n2 i2) (coef false n3 i3)) HA) as R.
    cbn [vx vy vz coef] in R. exact R.
Qed.

Lemma g_vectors_ok A n1 n2 n3 : (exists G, g_vectors A [n1; n2; n3] = Ok G) <-> (1 <= n1 /\ 1 <= n2 /\ 1 <= n3)%nat.
Proof.
  split.
  - intros [G H]. destruct (vector_grid_inv _ _ _ _ H) as (a & b & c & E & H1 & H2 & H3).
    injection E as <- <- <-. auto.
  - intros (H1 & H2 & H3). apply vector_grid_ok; assumption.
Qed.

(** ** C09 *)
Lemma fftfreq_congr n i : (1 <= n)%nat -> (i < n)%nat -> exists k, fftfreq (Z.of_nat n) (Z.of_nat i) = (Z.of_nat i + k * Z.of_nat n)%Z.
Proof.
  intros Hn Hi. unfold fftfreq. destruct (_ <=? _)%Z; [exists 0%Z|exists (-1)%Z]; lia.
Qed.

Lemma signed_congr ns i : Forall (fun n => (1 <= n)%nat) ns -> inb i ns ->
  congr ns (map (fun p => fftfreq (Z.of_nat (fst p)) (Z.of_nat (snd p))) (combine ns i)) (zs i).
Proof.
  intros H Hi. revert H. induction Hi as [|k n i ns Hk Hi IH]; intros H; simpl; [exact I|].
  inversion H; subst. split; [|apply IH; assumption]. apply fftfreq_congr; auto.
Qed.

Lemma fft_pair A n1 n2 n3 G X : m3det A <> 0 ->
  g_vectors A [n1; n2; n3] = Ok G -> r_vectors A [n1; n2; n3] = Ok X ->
  forall g x, inb g [n1; n2; n3] -> inb x [n1; n2; n3] ->
  cis (dot (tget G g) (tget X x)) = cis (2 * PI * phase [n1; n2; n3] (zs g) (zs x)).
Proof.
  intros HA HG HX g x Hg Hx. unfold g_vectors in HG. unfold r_vectors in HX.
  destruct (vector_grid_get _ _ _ _ _ _ HG) as [_ Gv]. destruct (vector_grid_get _ _ _ _ _ _ HX) as [_ Xv].
  destruct (vector_grid_inv _ _ _ _ HG) as (a & b & c & E & H1 & H2 & H3). injection E as <- <- <-.
  set (ns := [n1; n2; n3]) in *.
  assert (Hpos : Forall (fun n => (1 <= n)%nat) ns) by (repeat constructor; assumption).
  rewrite <- (cis_phase_congr ns _ _ (zs x) Hpos (signed_congr ns g Hpos Hg)).
  2:{ unfold zs. rewrite map_length. exact (inb_length _ _ Hx). }
  rewrite phase_comm. rewrite <- (cis_phase_congr ns _ _ _ Hpos (signed_congr ns x Hpos Hx)).
  2:{ rewrite map_length, combine_length, (inb_length _ _ Hg). apply Nat.min_id. }
  f_equal. apply inb3 in Hg. destruct Hg as (g1 & g2 & g3 & -> & _). apply inb3 in Hx. destruct Hx as (x1 & x2 & x3 & -> & _).
  rewrite Gv, Xv, recip_dot by exact HA. f_equal.
  unfold ns, coef, fr, dot. cbn [vx vy vz combine map phase fst snd]. rewrite !mult_IZR.
  pose proof (INR_pos n1 H1). pose proof (INR_pos n2 H2). pose proof (INR_pos n3 H3). field. lra.
Qed.

(** ** Gram matrices, C11 *)
Fixpoint sumM (l : list v3) (f : v3 -> m3) : m3 :=
  match l with [] => m3zero | x :: l' => m3add (f x) (sumM l' f) end.

Lemma at_b_map {X} (l : list X) (f g : X -> v3) :
  at_b (map f l) (map g l) = fold_right (fun x M => m3add (outer (f x) (g x)) M) m3zero l.
Proof. induction l as [|x l IH]; simpl; [reflexivity|]. rewrite IH. reflexivity. Qed.

Lemma m3add_mul A B D : m3mul (m3add A B) D = m3add (m3mul A D) (m3mul B D).
Proof. unfold m3add. lin3; ring. Qed.
Lemma outer_mul a b D : m3mul (outer a b) D = outer a (vmul b D).
Proof. unfold outer. lin3; ring. Qed.
Lemma m3zero_mul D : m3mul m3zero D = m3zero.
Proof. unfold m3zero. lin3; ring. Qed.
Lemma outer_scale s a b : outer (vscale s a) b = m3scale s (outer a b).
Proof. unfold outer. lin3; ring. Qed.
Lemma m3scale_add s A B : m3scale s (m3add A B) = m3add (m3scale s A) (m3scale s B).
Proof. unfold m3add. lin3; ring. Qed.
Lemma m3scale_zero s : m3scale s m3zero = m3zero. Proof. unfold m3zero. lin3; ring. Qed.

Lemma at_b_mul a b D : at_b a (map (fun v => vmul v D) b) = m3mul (at_b a b) D.
Proof.
  revert b. induction a as [|x a IH]; intros [|y b]; simpl; try (symmetry; apply m3zero_mul).
  rewrite IH, m3add_mul, outer_mul. reflexivity.
Qed.

Lemma at_b_mul_rows a b l D : b = map (fun v => vmul v D) l -> at_b a b = m3mul (at_b a l) D.
Proof. intros ->. apply at_b_mul. Qed.

(** quadratic form of a Gram matrix *)
Lemma gram_quad (l : list v3) u : dot (vmul u (at_b l l)) u = sumR l (fun v => dot v u * dot v u).
Proof.
  induction l as [|v l IH].
  - simpl. unfold m3zero. lin3; ring.
  - cbn [at_b sumR]. rewrite <- IH. generalize (at_b l l). intros M. unfold m3add, outer. lin3; ring.
Qed.

Lemma Rsqr_zero a : a * a = 0 -> a = 0.
Proof. intros H. apply Rmult_integral in H. tauto. Qed.

(** A singular matrix has a left kernel vector. *)
Lemma kernel_vector M : m3det M = 0 -> exists u, u <> vzero /\ vmul u M = vzero.
Proof.
  intros Hd.
  pose proof (m3adj_l M) as Hadj. rewrite Hd in Hadj.
  assert (Hrows : vmul (m0 (m3adj M)) M = vzero /\ vmul (m1 (m3adj M)) M = vzero /\ vmul (m2 (m3adj M)) M = vzero).
  { assert (Hz : m3scale 0 m3id = m3zero) by (unfold m3zero; lin3; ring). rewrite Hz in Hadj.
    unfold m3mul in Hadj. injection Hadj. intros. 
    repeat split; apply v3_eq; cbn [vx vy vz vzero]; assumption. }
  destruct Hrows as (R0 & R1 & R2).
  assert (Hdec : forall u, u = vzero \/ u <> vzero).
  { intros [x y z]. destruct (Req_EM_T x 0); [|right; intros E; injection E; intros; contradiction].
    destruct (Req_EM_T y 0); [|right; intros E; injection E; intros; contradiction].
    destruct (Req_EM_T z 0); [|right; intros E; injection E; intros; contradiction].
    left. subst. reflexivity. }
  destruct (Hdec (m0 (m3adj M))) as [Z0|N0]; [|eexists; split; [exact N0|exact R0]].
  destruct (Hdec (m1 (m3adj M))) as [Z1|N1]; [|eexists; split; [exact N1|exact R1]].
  destruct (Hdec (m2 (m3adj M))) as [Z2|N2]; [|eexists; split; [exact N2|exact R2]].
  clear R0 R1 R2 Hadj Hd.
  destruct M as [[a b c] [d e f] [g h i]]. unfold m3adj, m3t, cross in Z0, Z1, Z2.
  cbn [vx vy vz m0 m1 m2] in *. unfold vzero in *.
  apply V3_inj in Z0, Z1, Z2. destruct Z0 as (p1 & p2 & p3), Z1 as (q1 & q2 & q3), Z2 as (s1 & s2 & s3).
  destruct (Hdec (V3 a b c)) as [Z|N].
  { exists (V3 1 0 0). split; [intros E; injection E; lra|]. unfold vzero in Z. injection Z as -> -> ->.
    unfold vmul, vadd, vscale; cbn [vx vy vz m0 m1 m2]. apply v3_eq; cbn; ring. }
  assert (Hn : a <> 0 \/ b <> 0 \/ c <> 0).
  { destruct (Req_EM_T a 0); [|auto]. destruct (Req_EM_T b 0); [|auto]. destruct (Req_EM_T c 0); [|auto].
    exfalso. apply N. subst. reflexivity. }
  destruct Hn as [Ha|[Hb|Hc]].
  - exists (V3 d (- a) 0). split; [intros E; injection E; intros; lra|].
    unfold vmul, vadd, vscale; cbn [vx vy vz m0 m1 m2]. apply v3_eq; cbn; lra.
  - exists (V3 e (- b) 0). split; [intros E; injection E; intros; lra|].
    unfold vmul, vadd, vscale; cbn [vx vy vz m0 m1 m2]. apply v3_eq; cbn; lra.
  - exists (V3 f (- c) 0). split; [intros E; injection E; intros; lra|].
    unfold vmul, vadd, vscale; cbn [vx vy vz m0 m1 m2]. apply v3_eq; cbn; lra.
Qed.

(** The Gram matrix of a spanning list is invertible. *)
Lemma gram_invertible l a b c : a <> 0 -> b <> 0 -> c <> 0 ->
  In (V3 a 0 0) l -> In (V3 0 b 0) l -> In (V3 0 0 c) l -> m3det (at_b l l) <> 0.
Proof.
  intros Ha Hb Hc I1 I2 I3 Hd. destruct (kernel_vector _ Hd) as (u & Hu & E).
  apply Hu. pose proof (gram_quad l u) as Q. rewrite E in Q.
  assert (Q0 : sumR l (fun v => dot v u * dot v u) = 0) by (rewrite <- Q; lin3; ring).
  assert (Hz : forall v, In v l -> dot v u = 0).
  { intros v Hv. apply Rsqr_zero. refine (sumR_nonneg_zero l _ _ Q0 v Hv).
    intros w _. pose proof (Rle_0_sqr (dot w u)). unfold Rsqr in *. assumption. }
  apply Hz in I1, I2, I3. unfold dot in I1, I2, I3. cbn [vx vy vz] in *. unfold vzero.
  destruct u as [x y z]. cbn [vx vy vz] in *.
  assert (a * x = 0) by lra. assert (b * y = 0) by lra. assert (c * z = 0) by lra.
  apply Rmult_integral in H, H0, H1. f_equal; tauto.
Qed.

Lemma rows_vector_grid B n1 n2 n3 nz g : vector_grid B [n1; n2; n3] nz = Ok g ->
  exists l, rows g = map (fun v => vmul v B) l /\
   l = map (fun i => V3 (coef nz n1 (nth 0 i 0%nat)) (coef nz n2 (nth 1 i 0%nat)) (coef nz n3 (nth 2 i 0%nat))) (indices [n1; n2; n3]).
Proof.
  intros H. destruct (vector_grid_get _ _ _ _ _ _ H) as [Hs Hv]. eexists. split; [|reflexivity].
  unfold rows. rewrite Hs, map_map. apply map_ext_in. intros i Hi. apply in_indices in Hi.
  apply inb3 in Hi. destruct Hi as (a & b & c & -> & _). rewrite Hv. reflexivity.
Qed.

Lemma coefs_invertible nz n1 n2 n3 : (2 <= n1)%nat -> (2 <= n2)%nat -> (2 <= n3)%nat ->
  let l := map (fun i => V3 (coef nz n1 (nth 0 i 0%nat)) (coef nz n2 (nth 1 i 0%nat)) (coef nz n3 (nth 2 i 0%nat))) (indices [n1; n2; n3]) in
  m3det (at_b l l) <> 0.
Proof.
  intros H1 H2 H3 l.
  assert (Hne : forall n, (2 <= n)%nat -> coef nz n 1 <> 0).
  { intros n Hn E. rewrite <- (coef_0 nz n ltac:(lia)) in E. apply (coef_inj nz n 1 0) in E; lia. }
  apply (gram_invertible l (coef nz n1 1) (coef nz n2 1) (coef nz n3 1)); auto; unfold l; apply in_map_iff.
  - exists [1; 0; 0]%nat. cbn [nth]. rewrite !coef_0 by lia. split; [reflexivity|]. apply in_indices. repeat constructor; lia.
  - exists [0; 1; 0]%nat. cbn [nth]. rewrite !coef_0 by lia. split; [reflexivity|]. apply in_indices. repeat constructor; lia.
  - exists [0; 0; 1]%nat. cbn [nth]. rewrite !coef_0 by lia. split; [reflexivity|]. apply in_indices. repeat constructor; lia.
Qed.

Lemma at_b_scale_l s a b : at_b (map (vscale s) a) b = m3scale s (at_b a b).
Proof.
  revert b. induction a as [|x a IH]; intros [|y b]; simpl; try (symmetry; apply m3scale_zero).
  rewrite IH, outer_scale, m3scale_add. reflexivity.
Qed.

Lemma recip_id : reciprocal_vectors m3id = m3scale (2 * PI) m3id.
Proof. unfold reciprocal_vectors. rewrite m3inv_id, m3t_id. reflexivity. Qed.

Lemma r2cell_spec A n1 n2 n3 X : (2 <= n1)%nat -> (2 <= n2)%nat -> (2 <= n3)%nat ->
  r_vectors A [n1; n2; n3] = Ok X -> r2cell_vectors X = Ok A.
Proof.
  intros H1 H2 H3 HX. unfold r2cell_vectors. unfold r_vectors in HX.
  destruct (vector_grid_get _ _ _ _ _ _ HX) as [Hs _]. rewrite Hs. unfold r_vectors.
  destruct (vector_grid_ok m3id n1 n2 n3 true) as [D HD]; try lia. rewrite HD. cbn [bind].
  destruct (rows_vector_grid _ _ _ _ _ _ HX) as (l & El & Hl). destruct (rows_vector_grid _ _ _ _ _ _ HD) as (l' & El' & Hl').
  rewrite <- Hl in Hl'. subst l'. rewrite El, El'.
  rewrite (map_ext (fun v => vmul v m3id) (fun v => v) vmul_id), map_id, at_b_mul.
  rewrite <- m3mul_assoc, m3inv_l, m3mul_id_l; [reflexivity|].
  rewrite Hl. apply coefs_invertible; assumption.
Qed.

Lemma g2cell_spec A n1 n2 n3 G : m3det A <> 0 -> (2 <= n1)%nat -> (2 <= n2)%nat -> (2 <= n3)%nat ->
  g_vectors A [n1; n2; n3] = Ok G -> g2cell_vectors G = Ok (m3t A).
Proof.
  intros HA H1 H2 H3 HG. unfold g2cell_vectors. unfold g_vectors in HG.
  destruct (vector_grid_get _ _ _ _ _ _ HG) as [Hs _]. rewrite Hs. unfold g_vectors.
  destruct (vector_grid_ok (reciprocal_vectors m3id) n1 n2 n3 false) as [D HD]; try lia. rewrite HD. cbn [bind].
  destruct (rows_vector_grid _ _ _ _ _ _ HG) as (l & El & Hl). destruct (rows_vector_grid _ _ _ _ _ _ HD) as (l' & El' & Hl').
  rewrite <- Hl in Hl'. subst l'.
  assert (Hinv : m3det (at_b l l) <> 0) by (rewrite Hl; apply coefs_invertible; assumption).
  assert (Erows : rows D = map (vscale (2 * PI)) l).
  { rewrite El'. apply map_ext. intros v. rewrite recip_id, vmul_mscale, vmul_id. reflexivity. }
  rewrite (at_b_mul_rows (rows D) (rows G) l (reciprocal_vectors A) El).
  rewrite Erows. rewrite !at_b_scale_l.
  assert (Esym : at_b l (map (vscale (2 * PI)) l) = m3scale (2 * PI) (at_b l l)).
  { rewrite (map_ext _ (fun v => vmul v (m3scale (2 * PI) m3id))), at_b_mul.
    - rewrite m3mul_scale_r, m3mul_id_r. reflexivity.
    - intros v. rewrite vmul_mscale, vmul_id. reflexivity. }
  rewrite Esym, m3scale_scale. pose proof twoPI_neq as Hpi. f_equal.
  rewrite m3inv_scale by (try exact Hinv; apply Rmult_integral_contrapositive_currified; exact Hpi).
  unfold reciprocal_vectors. rewrite !m3mul_scale_l, !m3mul_scale_r.
  rewrite <- m3mul_assoc, m3inv_l, m3mul_id_l by exact Hinv. rewrite !m3scale_scale.
  match goal with |- m3inv (m3scale ?s _) = _ => replace s with 1 by (field; pose proof PI_RGT_0; lra) end.
  rewrite m3scale_1, m3inv_t, m3inv_inv; [reflexivity|exact HA|].
  rewrite m3det_inv by exact HA. apply Rinv_neq_0_compat, HA.
Qed.

(** ** C12: Monkhorst-Pack mesh *)
Definition mpc (n i : nat) : R := (INR i + / 2) / INR n - / 2.

Lemma mpc_neg n i : (i < n)%nat -> mpc n (n - 1 - i) = - mpc n i.
Proof.
  intros H. unfold mpc. rewrite !minus_INR by lia. pose proof (INR_pos n ltac:(lia)). simpl. field. lra.
Qed.
Lemma mpc_inj n i j : (1 <= n)%nat -> mpc n i = mpc n j -> i = j.
Proof.
  intros Hn H. unfold mpc in H. pose proof (INR_pos n Hn). apply INR_eq.
  apply Rplus_eq_reg_r in H. unfold Rdiv in H. apply Rmult_eq_reg_r in H; [lra|]. apply Rinv_neq_0_compat. lra.
Qed.
Lemma mpc_range n i : (i < n)%nat -> - / 2 < mpc n i < / 2.
Proof.
  intros H. unfold mpc. pose proof (INR_pos n ltac:(lia)) as Hp. pose proof (pos_INR i) as Hi.
  assert (Hin : INR i + 1 <= INR n) by (rewrite <- S_INR; apply le_INR; lia).
  assert (0 < (INR i + / 2) / INR n) by (apply Rdiv_lt_0_compat; lra).
  assert ((INR i + / 2) / INR n < 1).
  { apply (Rmult_lt_reg_r (INR n)); [exact Hp|]. unfold Rdiv. rewrite Rmult_assoc, Rinv_l by lra. lra. }
  lra.
Qed.
Lemma mpc_zero n i : (i < n)%nat -> (mpc n i = 0 <-> n = (2 * i + 1)%nat).
Proof.
  intros H. pose proof (INR_pos n ltac:(lia)) as Hp. unfold mpc. split.
  - intros E. apply INR_eq. rewrite plus_INR, mult_INR. simpl.
    assert (E2 : (INR i + / 2) / INR n = / 2) by lra.
    apply (f_equal (fun t => t * INR n)) in E2. unfold Rdiv in E2. rewrite Rmult_assoc, Rinv_l in E2 by lra. lra.
  - intros E. rewrite E, plus_INR, mult_INR. simpl. pose proof (pos_INR i). field. lra.
Qed.

Lemma rev_flat_map {X Y} (f : X -> list Y) l : rev (flat_map f l) = flat_map (fun x => rev (f x)) (rev l).
Proof.
  induction l as [|x l IH]; simpl; [reflexivity|]. rewrite rev_app_distr, IH, flat_map_app. simpl. rewrite app_nil_r. reflexivity.
Qed.
Lemma rev_seq n : rev (seq 0 n) = map (fun i => n - 1 - i)%nat (seq 0 n).
Proof.
  induction n as [|n IH]; [reflexivity|]. rewrite seq_S at 1. rewrite rev_app_distr. cbn [rev app Nat.add].
  cbn [seq map]. f_equal; [lia|]. rewrite IH, <- seq_shift, map_map. apply map_ext. intros; lia.
Qed.

Fixpoint mirror (sh i : list nat) : list nat :=
  match sh, i with n :: sh', k :: i' => (n - 1 - k)%nat :: mirror sh' i' | _, _ => [] end.
Lemma rev_indices sh : rev (indices sh) = map (mirror sh) (indices sh).
Proof.
  induction sh as [|n sh IH]; [reflexivity|]. cbn [indices]. rewrite rev_flat_map, rev_seq.
  rewrite flat_map_concat_map, map_map, <- flat_map_concat_map.
  rewrite flat_map_concat_map, (flat_map_concat_map _ (seq 0 n)), concat_map, map_map. f_equal. apply map_ext. intros k.
  rewrite <- map_rev, IH, !map_map. apply map_ext. reflexivity.
Qed.

Lemma k_vectors_eval A sizes ks : k_vectors A sizes = Ok ks ->
  exists n1 n2 n3, sizes = [n1; n2; n3] /\ (1 <= n1)%nat /\ (1 <= n2)%nat /\ (1 <= n3)%nat /\
  ks = map (fun i => vmul (V3 (mpc n1 (nth 0 i 0%nat)) (mpc n2 (nth 1 i 0%nat)) (mpc n3 (nth 2 i 0%nat))) (reciprocal_vectors A)) (indices sizes).
Proof.
  unfold k_vectors, monkhorst_pack. destruct sizes as [|n1 [|n2 [|n3 [|]]]]; try discriminate.
  destruct (_ || _) eqn:E; [discriminate|]. cbn [bind]. intros H. injection H as <-. exists n1, n2, n3.
  apply orb_false_iff in E. destruct E as [E E3]. apply orb_false_iff in E. destruct E as [E1 E2].
  apply Nat.eqb_neq in E1, E2, E3. repeat split; try lia. rewrite map_map. reflexivity.
Qed.

Lemma k_vectors_length A sizes ks : k_vectors A sizes = Ok ks -> length ks = nprod sizes.
Proof.
  intros H. destruct (k_vectors_eval _ _ _ H) as (n1 & n2 & n3 & -> & _ & _ & _ & ->).
  rewrite map_length. apply length_indices.
Qed.

Lemma k_vectors_mirror A sizes ks : k_vectors A sizes = Ok ks -> rev ks = map vneg ks.
Proof.
  intros H. destruct (k_vectors_eval _ _ _ H) as (n1 & n2 & n3 & -> & H1 & H2 & H3 & ->).
  rewrite <- map_rev, rev_indices, !map_map. apply map_ext_in. intros i Hi. apply in_indices in Hi.
  apply inb3 in Hi. destruct Hi as (a & b & c & -> & Ha & Hb & Hc). cbn [mirror nth].
  rewrite !mpc_neg by assumption. rewrite <- vmul_neg. reflexivity.
Qed.

Lemma NoDup_map_inj_in {X Y} (f : X -> Y) l : (forall x y, In x l -> In y l -> f x = f y -> x = y) -> NoDup l -> NoDup (map f l).
Proof.
  intros Hf H. induction H as [|x l Hx H IH]; simpl; constructor.
  - intros Hin. apply in_map_iff in Hin. destruct Hin as (y & E & Hy). apply Hx.
    rewrite (Hf x y); simpl; auto.
  - apply IH. intros; apply Hf; simpl; auto.
Qed.

Lemma k_vectors_NoDup A sizes ks : m3det A <> 0 -> k_vectors A sizes = Ok ks -> NoDup ks.
Proof.
  intros HA H. destruct (k_vectors_eval _ _ _ H) as (n1 & n2 & n3 & -> & H1 & H2 & H3 & ->).
  apply NoDup_map_inj_in; [|apply NoDup_indices]. intros i j Hi Hj E.
  apply in_indices in Hi, Hj. apply inb3 in Hi. destruct Hi as (a & b & c & -> & Ha & Hb & Hc).
  apply inb3 in Hj. destruct Hj as (a' & b' & c' & -> & Ha' & Hb' & Hc'). cbn [nth] in E.
  apply vmul_inj in E; [|apply det_recip_neq, HA]. apply V3_inj in E. destruct E as (E1 & E2 & E3).
  apply mpc_inj in E1, E2, E3; auto. congruence.
Qed.

Lemma mp_zero_iff A n1 n2 n3 a b c : m3det A <> 0 -> (a < n1)%nat -> (b < n2)%nat -> (c < n3)%nat ->
  (vmul (V3 (mpc n1 a) (mpc n2 b) (mpc n3 c)) (reciprocal_vectors A) = vzero <->
   n1 = (2 * a + 1)%nat /\ n2 = (2 * b + 1)%nat /\ n3 = (2 * c + 1)%nat).
Proof.
  intros HA Ha Hb Hc. rewrite <- (mpc_zero n1 a Ha), <- (mpc_zero n2 b Hb), <- (mpc_zero n3 c Hc). split.
  - intros E. rewrite <- (vmul_zero (reciprocal_vectors A)) in E. apply vmul_inj in E; [|apply det_recip_neq, HA].
    apply V3_inj in E. exact E.
  - intros (-> & -> & ->). apply vmul_zero.
Qed.

Lemma k_vectors_gamma A sizes ks : m3det A <> 0 -> k_vectors A sizes = Ok ks ->
  (In vzero ks <-> Forall (fun n => Nat.odd n = true) sizes).
Proof.
  intros HA H. destruct (k_vectors_eval _ _ _ H) as (n1 & n2 & n3 & -> & H1 & H2 & H3 & ->).
  rewrite in_map_iff. split.
  - intros (i & E & Hi). apply in_indices in Hi. apply inb3 in Hi. destruct Hi as (a & b & c & -> & Ha & Hb & Hc).
    cbn [nth] in E. apply mp_zero_iff in E; auto. destruct E as (-> & -> & ->).
    repeat constructor; rewrite Nat.odd_add, Nat.odd_mul; reflexivity.
  - intros F. inversion F as [|? ? O1 F1]; subst. inversion F1 as [|? ? O2 F2]; subst. inversion F2 as [|? ? O3 F3]; subst.
    apply Nat.odd_spec in O1, O2, O3. destruct O1 as [a ->], O2 as [b ->], O3 as [c ->].
    exists [a; b; c]. cbn [nth]. split; [apply mp_zero_iff; auto; lia|].
    apply in_indices. repeat constructor; lia.
Qed.

Lemma indices_hd n1 n2 n3 : (1 <= n1)%nat -> (1 <= n2)%nat -> (1 <= n3)%nat -> exists l, indices [n1; n2; n3] = [0; 0; 0]%nat :: l.
Proof. intros H1 H2 H3. destruct n1, n2, n3; try lia. cbn. eexists. reflexivity. Qed.

Lemma k_vectors_first A sizes ks : m3det A <> 0 -> k_vectors A sizes = Ok ks ->
  (hd_error ks = Some vzero <-> Forall (fun n => n = 1%nat) sizes).
Proof.
  intros HA H. destruct (k_vectors_eval _ _ _ H) as (n1 & n2 & n3 & -> & H1 & H2 & H3 & ->).
  destruct (indices_hd n1 n2 n3 H1 H2 H3) as [l ->]. cbn [map hd_error nth]. split.
  - intros E. assert (E' : forall x y : v3, Some x = Some y -> x = y) by congruence. apply E' in E.
    apply mp_zero_iff in E; auto. repeat constructor; lia.
  - intros F. inversion F as [|? ? O1 F1]; subst. inversion F1 as [|? ? O2 F2]; subst. inversion F2 as [|? ? O3 F3]; subst.
    f_equal. apply mp_zero_iff; auto.
Qed.

Lemma k_vectors_zone A sizes ks : m3det A <> 0 -> k_vectors A sizes = Ok ks ->
  forall k, In k ks -> forall a, In a [m0 A; m1 A; m2 A] -> - PI < dot k a < PI.
Proof.
  intros HA H k Hk a Hain. destruct (k_vectors_eval _ _ _ H) as (n1 & n2 & n3 & -> & H1 & H2 & H3 & ->).
  apply in_map_iff in Hk. destruct Hk as (i & <- & Hi). apply in_indices in Hi.
  apply inb3 in Hi. destruct Hi as (x & y & z & -> & Hx & Hy & Hz). cbn [nth].
  destruct (recip_dots A (V3 (mpc n1 x) (mpc n2 y) (mpc n3 z)) HA) as (D0 & D1 & D2). cbn [vx vy vz] in *.
  pose proof PI_RGT_0 as Hpi. destruct Hain as [<-|[<-|[<-|[]]]]; rewrite ?D0, ?D1, ?D2.
  - pose proof (mpc_range _ _ Hx). split; nra.
  - pose proof (mpc_range _ _ Hy). split; nra.
  - pose proof (mpc_range _ _ Hz). split; nra.
Qed.

(** ** C13, C14 *)
Lemma Rleb_true x y : Rleb x y = true <-> x <= y.
Proof. unfold Rleb. destruct (Rle_dec x y); split; intros; try tauto; discriminate. Qed.

Lemma spherical_mask_spec A sizes E m : spherical_mask A sizes E = Ok m ->
  exists G, g_vectors A sizes = Ok G /\ tshape m = sizes /\
  forall i, tget m i = true <-> norm2 (tget G i) / 2 <= E.
Proof.
  unfold spherical_mask. destruct (g_vectors A sizes) as [G|] eqn:HG; [|discriminate]. cbn [bind].
  intros H. injection H as <-. exists G. split; [reflexivity|].
  pose proof HG as HG'. unfold g_vectors in HG'. destruct (vector_grid_inv _ _ _ _ HG') as (n1 & n2 & n3 & -> & _).
  destruct (vector_grid_get _ _ _ _ _ _ HG') as [Hs _]. split; [exact Hs|].
  intros i. change (Rleb (norm (tget G i) ^ 2) (E * 2) = true <-> norm2 (tget G i) / 2 <= E).
  rewrite Rleb_true, norm_sq. split; intros; lra.
Qed.

Lemma spherical_mask_mono A sizes E E' m m' : E <= E' ->
  spherical_mask A sizes E = Ok m -> spherical_mask A sizes E' = Ok m' ->
  forall i, tget m i = true -> tget m' i = true.
Proof.
  intros HE H H' i. destruct (spherical_mask_spec _ _ _ _ H) as (G & HG & _ & S).
  destruct (spherical_mask_spec _ _ _ _ H') as (G' & HG' & _ & S'). rewrite HG in HG'. injection HG' as <-.
  rewrite S, S'. lra.
Qed.

Lemma spherical_mask_zero A n1 n2 n3 E m : spherical_mask A [n1; n2; n3] E = Ok m ->
  (tget m [0; 0; 0]%nat = true <-> 0 <= E).
Proof.
  intros H. destruct (spherical_mask_spec _ _ _ _ H) as (G & HG & _ & S). rewrite S.
  unfold g_vectors in HG. destruct (vector_grid_inv _ _ _ _ HG) as (a & b & c & Eq & H1 & H2 & H3). injection Eq as <- <- <-.
  destruct (vector_grid_get _ _ _ _ _ _ HG) as [_ V]. rewrite V, !coef_0 by assumption. fold vzero. rewrite vmul_zero.
  replace (norm2 vzero / 2) with 0 by (unfold norm2, dot, vzero; simpl; field). reflexivity.
Qed.

Lemma fold_max_ge l x : x <= fold_left Rmax l x.
Proof. revert x. induction l as [|y l IH]; intros x; simpl; [lra|]. eapply Rle_trans; [|apply IH]. apply Rmax_l. Qed.
Lemma fold_max_in l x : fold_left Rmax l x = x \/ In (fold_left Rmax l x) l.
Proof.
  revert x. induction l as [|y l IH]; intros x; simpl; [auto|].
  destruct (IH (Rmax x y)) as [E|E]; [|auto]. rewrite E. unfold Rmax. destruct (Rle_dec x y); auto.
Qed.
Lemma fold_max_ub l x y : In y l -> y <= fold_left Rmax l x.
Proof.
  revert x. induction l as [|z l IH]; intros x H; [destruct H|]. simpl. destruct H as [->|H].
  - eapply Rle_trans; [apply Rmax_r|apply fold_max_ge].
  - apply IH, H.
Qed.
Lemma Rmaxl_spec l m : Rmaxl l = Ok m -> In m l /\ forall x, In x l -> x <= m.
Proof.
  destruct l as [|x l]; simpl; [discriminate|]. intros H. injection H as <-. split.
  - destruct (fold_max_in l x) as [E|E]; [left; symmetry; exact E|right; exact E].
  - intros y [<-|Hy]; [apply fold_max_ge|apply fold_max_ub, Hy].
Qed.

Lemma estimate_spec A mask E : estimate_max_cutoff_energy A mask = Ok E ->
  exists G, g_vectors A (tshape mask) = Ok G /\
  (forall i, inb i (tshape mask) -> tget mask i = true -> norm2 (tget G i) / 2 <= E) /\
  (E = 0 \/ exists i, inb i (tshape mask) /\ tget mask i = true /\ E = norm2 (tget G i) / 2) /\
  0 <= E.
Proof.
  unfold estimate_max_cutoff_energy. destruct (g_vectors A (tshape mask)) as [G|] eqn:HG; [|discriminate]. cbn [bind].
  intros H. apply Rmaxl_spec in H. destruct H as [Hin Hub]. exists G. split; [reflexivity|]. split; [|split].
  - intros i Hi Hm. rewrite <- norm_sq. apply Hub. apply in_map_iff. exists i. rewrite Hm. split; [field|]. apply in_indices, Hi.
  - apply in_map_iff in Hin. destruct Hin as (i & Ei & Hi). apply in_indices in Hi. rewrite norm_sq in Ei.
    destruct (tget mask i) eqn:Hm; [right; exists i; repeat split; auto; rewrite <- Ei; field|left; rewrite <- Ei; field].
  - apply in_map_iff in Hin. destruct Hin as (i & Ei & _). rewrite norm_sq in Ei. rewrite <- Ei. pose proof (norm2_nonneg (tget G i)).
    destruct (tget mask i); lra.
Qed.

Lemma estimate_covers A mask E m : estimate_max_cutoff_energy A mask = Ok E ->
  spherical_mask A (tshape mask) E = Ok m -> forall i, inb i (tshape mask) -> tget mask i = true -> tget m i = true.
Proof.
  intros H Hm i Hi Ht. destruct (estimate_spec _ _ _ H) as (G & HG & Hc & _).
  destruct (spherical_mask_spec _ _ _ _ Hm) as (G' & HG' & _ & S). rewrite HG in HG'. injection HG' as <-.
  apply S, Hc; assumption.
Qed.

Lemma estimate_least A mask E E' m' : estimate_max_cutoff_energy A mask = Ok E ->
  (exists i, inb i (tshape mask) /\ tget mask i = true) ->
  spherical_mask A (tshape mask) E' = Ok m' ->
  (forall i, inb i (tshape mask) -> tget mask i = true -> tget m' i = true) -> E <= E'.
Proof.
  intros H (i0 & Hi0 & Hm0) Hm' Hcov. destruct (estimate_spec _ _ _ H) as (G & HG & _ & Hatt & _).
  destruct (spherical_mask_spec _ _ _ _ Hm') as (G' & HG' & _ & S). rewrite HG in HG'. injection HG' as <-.
  destruct Hatt as [->|(i & Hi & Hm & ->)].
  - pose proof (proj1 (S i0) (Hcov i0 Hi0 Hm0)). pose proof (norm2_nonneg (tget G i0)). lra.
  - apply S, Hcov; assumption.
Qed.

Lemma estimate_ok A n1 n2 n3 f : (1 <= n1)%nat -> (1 <= n2)%nat -> (1 <= n3)%nat ->
  exists E, estimate_max_cutoff_energy A (mkT [n1; n2; n3] f) = Ok E.
Proof.
  intros H1 H2 H3. unfold estimate_max_cutoff_energy. cbn [tshape]. unfold g_vectors.
  destruct (vector_grid_ok (reciprocal_vectors A) n1 n2 n3 false H1 H2 H3) as [G ->]. cbn [bind].
  destruct (indices_hd n1 n2 n3 H1 H2 H3) as [l ->]. cbn [map Rmaxl]. eexists. reflexivity.
Qed.

(** ** C15 *)
Lemma ceil_spec x : x <= IZR (ceil x) < x + 1.
Proof.
  unfold ceil. rewrite opp_IZR. destruct (base_Int_part (- x)) as [H1 H2]. lra.
Qed.
Lemma ceil_pos x : (1 <= ceil x)%Z <-> 0 < x.
Proof.
  pose proof (ceil_spec x) as [H1 H2]. split; intros H.
  - apply IZR_le in H. lra.
  - apply Z.lt_pred_le. apply lt_IZR. simpl. lra.
Qed.

Lemma norm_zero u : norm u = 0 <-> u = vzero.
Proof.
  rewrite <- norm2_zero. unfold norm. split.
  - intros H. apply sqrt_eq_0 in H; [exact H|apply norm2_nonneg].
  - intros ->. apply sqrt_0.
Qed.

Definition row_sum (A : m3) := vadd (vadd (m0 A) (m1 A)) (m2 A).

Lemma translation_eval A cutoff l : translation_vectors A cutoff = Ok l ->
  row_sum A <> vzero /\ 0 < cutoff /\
  let n := Z.to_nat (ceil (cutoff / norm2 (row_sum A))) in
  (1 <= n)%nat /\
  l = map (fun i => vmul (V3 (fr n (nth 0 i 0%nat)) (fr n (nth 1 i 0%nat)) (fr n (nth 2 i 0%nat))) A) (indices [n; n; n]).
Proof.
  unfold translation_vectors. fold (row_sum A). destruct (Req_EM_T (norm (row_sum A)) 0) as [|Hne]; [discriminate|].
  assert (Hs : row_sum A <> vzero) by (intros E; apply Hne, norm_zero, E).
  rewrite norm_sq. set (c := ceil _). destruct (c <? 0)%Z eqn:Hc; [discriminate|].
  destruct (vector_grid A _ false) as [g|] eqn:Hg; [|discriminate]. cbn [bind]. intros H. injection H as <-.
  destruct (vector_grid_inv _ _ _ _ Hg) as (a & b & d & Eq & H1 & H2 & H3). injection Eq as <- <- <-.
  assert (H1c : (1 <= c)%Z) by lia.
  assert (Hn2 : 0 < norm2 (row_sum A)).
  { destruct (norm2_nonneg (row_sum A)) as [L|L]; [exact L|]. exfalso. apply Hs, norm2_zero. symmetry. exact L. }
  split; [exact Hs|]. split.
  { apply ceil_pos in H1c. apply (Rmult_lt_compat_r (norm2 (row_sum A))) in H1c; [|exact Hn2].
    unfold Rdiv in H1c. rewrite Rmult_assoc, Rinv_l in H1c by lra. lra. }
  split; [exact H1|]. destruct (rows_vector_grid _ _ _ _ _ _ Hg) as (l & El & Hl). unfold rows in El. rewrite El, Hl, map_map. reflexivity.
Qed.

Lemma translation_ok A cutoff : (exists l, translation_vectors A cutoff = Ok l) <-> row_sum A <> vzero /\ 0 < cutoff.
Proof.
  split.
  - intros [l H]. apply translation_eval in H. tauto.
  - intros [Hs Hc]. unfold translation_vectors. fold (row_sum A).
    destruct (Req_EM_T (norm (row_sum A)) 0) as [E|Hne]; [apply norm_zero in E; contradiction|].
    rewrite norm_sq. set (c := ceil _).
    assert (Hn2 : 0 < norm2 (row_sum A)).
    { destruct (norm2_nonneg (row_sum A)) as [L|L]; [exact L|]. exfalso. apply Hs, norm2_zero. symmetry. exact L. }
    assert (H1 : (1 <= c)%Z) by (apply ceil_pos, Rdiv_lt_0_compat; assumption).
    destruct (c <? 0)%Z eqn:E; [apply Z.ltb_lt in E; lia|].
    destruct (vector_grid_ok A (Z.to_nat c) (Z.to_nat c) (Z.to_nat c) false) as [g ->]; try lia.
    cbn [bind]. eexists. reflexivity.
Qed.

(** v is an integer combination of the cell vectors *)
Definition lattice_vector (A : m3) (v : v3) : Prop :=
  exists a b c : Z, v = vadd (vadd (vscale (IZR a) (m0 A)) (vscale (IZR b) (m1 A))) (vscale (IZR c) (m2 A)).

Lemma vmul_lattice A a b c : vmul (V3 (IZR a) (IZR b) (IZR c)) A =
  vadd (vadd (vscale (IZR a) (m0 A)) (vscale (IZR b) (m1 A))) (vscale (IZR c) (m2 A)).
Proof. lin3; ring. Qed.

Lemma translation_lattice A cutoff l : translation_vectors A cutoff = Ok l ->
  In vzero l /\ forall v, In v l -> lattice_vector A v.
Proof.
  intros H. destruct (translation_eval _ _ _ H) as (_ & _ & Hn & ->). set (n := Z.to_nat _) in *. split.
  - apply in_map_iff. exists [0; 0; 0]%nat. cbn [nth]. rewrite !fr_0 by assumption. split; [apply vmul_zero|].
    apply in_indices. repeat constructor; assumption.
  - intros v Hv. apply in_map_iff in Hv. destruct Hv as (i & <- & _). unfold fr. do 3 eexists. apply vmul_lattice.
Qed.

Lemma translation_count A cutoff l : translation_vectors A cutoff = Ok l ->
  length l = (Z.to_nat (ceil (cutoff / norm2 (row_sum A))) ^ 3)%nat.
Proof.
  intros H. destruct (translation_eval _ _ _ H) as (_ & _ & Hn & ->). rewrite map_length, length_indices. simpl. lia.
Qed.

Lemma translation_NoDup A cutoff l : m3det A <> 0 -> translation_vectors A cutoff = Ok l -> NoDup l.
Proof.
  intros HA H. destruct (translation_eval _ _ _ H) as (_ & _ & Hn & ->). set (n := Z.to_nat _) in *.
  apply NoDup_map_inj_in; [|apply NoDup_indices]. intros i j Hi Hj E.
  apply in_indices in Hi, Hj. apply inb3 in Hi. destruct Hi as (a & b & c & -> & Ha & Hb & Hc).
  apply inb3 in Hj. destruct Hj as (a' & b' & c' & -> & Ha' & Hb' & Hc'). cbn [nth] in E.
  apply vmul_inj in E; [|exact HA]. apply V3_inj in E. destruct E as (E1 & E2 & E3).
  apply fr_inj in E1, E2, E3; auto. congruence.
Qed.

(** which lattice vectors are listed: exactly those whose coordinates are FFT frequencies of n *)
Lemma translation_members A cutoff l : m3det A <> 0 -> translation_vectors A cutoff = Ok l ->
  let n := ceil (cutoff / norm2 (row_sum A)) in
  forall a b c : Z, In (vmul (V3 (IZR a) (IZR b) (IZR c)) A) l <->
    fft_frequency n a /\ fft_frequency n b /\ fft_frequency n c.
Proof.
  intros HA H. destruct (translation_eval _ _ _ H) as (_ & _ & Hn & ->). cbv zeta. set (z := ceil _) in *.
  set (n := Z.to_nat z) in *. assert (Hz : z = Z.of_nat n) by lia. intros a b c. rewrite in_map_iff. split.
  - intros (i & E & Hi). apply in_indices in Hi. apply inb3 in Hi. destruct Hi as (x & y & t & -> & Hx & Hy & Ht).
    cbn [nth] in E. apply vmul_inj in E; [|exact HA]. apply V3_inj in E. destruct E as (E1 & E2 & E3).
    apply eq_IZR in E1, E2, E3. subst a b c. rewrite Hz. repeat split; apply fftfreq_range; lia.
  - intros (Fa & Fb & Fc). rewrite Hz in *.
    destruct (fftfreq_surj (Z.of_nat n) a ltac:(lia) Fa) as (i & Hi & Ei).
    destruct (fftfreq_surj (Z.of_nat n) b ltac:(lia) Fb) as (j & Hj & Ej).
    destruct (fftfreq_surj (Z.of_nat n) c ltac:(lia) Fc) as (k & Hk & Ek).
    exists [Z.to_nat i; Z.to_nat j; Z.to_nat k]. cbn [nth]. unfold fr. rewrite !Z2Nat.id by lia. rewrite Ei, Ej, Ek.
    split; [reflexivity|]. apply in_indices. repeat constructor; lia.
Qed.

Lemma translation_symmetric A cutoff l : m3det A <> 0 -> translation_vectors A cutoff = Ok l ->
  ((forall v, In v l -> In (vneg v) l) <-> Z.odd (ceil (cutoff / norm2 (row_sum A))) = true).
Proof.
  intros HA H. pose proof (translation_members A cutoff l HA H) as M. cbv zeta in M.
  destruct (translation_eval _ _ _ H) as (_ & _ & Hn & _). cbv zeta in Hn.
  pose proof (proj2 (translation_lattice _ _ _ H)) as L.
  set (z := ceil _) in *. rewrite <- (fftfreq_neg_closed z) by lia.
  assert (Hneg : forall a b c, vneg (vmul (V3 (IZR a) (IZR b) (IZR c)) A) = vmul (V3 (IZR (- a)) (IZR (- b)) (IZR (- c))) A).
  { intros. rewrite !opp_IZR, <- vmul_neg. reflexivity. }
  assert (H0 : fft_frequency z 0) by (unfold fft_frequency; lia).
  split.
  - intros Hc f Hf. assert (Hin : In (vmul (V3 (IZR f) (IZR 0) (IZR 0)) A) l) by (apply M; auto).
    apply Hc in Hin. rewrite Hneg in Hin. apply M in Hin. tauto.
  - intros Hc v Hv. destruct (L v Hv) as (a & b & c & E). rewrite <- vmul_lattice in E. subst v.
    apply M in Hv. rewrite Hneg. apply M. destruct Hv as (? & ? & ?). auto.
Qed.

(** The documented "cutoff distance": a lattice vector shorter than the cutoff can be missing. *)
Lemma translation_cutoff_refuted : exists A cutoff l v,
  m3det A <> 0 /\ translation_vectors A cutoff = Ok l /\ lattice_vector A v /\ norm v < cutoff /\ ~ In v l.
Proof.
  set (A := M3 (V3 200 0 0) (V3 0 200 0) (V3 0 0 200)).
  assert (Hdet : m3det A <> 0) by (unfold A; lin3; lra).
  assert (Hsum : row_sum A = V3 200 200 200) by (unfold A, row_sum; lin3; ring).
  destruct (proj2 (translation_ok A 10000)) as [l Hl].
  { rewrite Hsum. split; [intros E; injection E; lra|lra]. }
  exists A, 10000, l, (vmul (V3 (IZR 1) (IZR 0) (IZR 0)) A). split; [exact Hdet|]. split; [exact Hl|]. split.
  { exists 1%Z, 0%Z, 0%Z. apply vmul_lattice. } split.
  { unfold norm. apply Rsqr_incrst_0; [|apply sqrt_pos|lra]. rewrite Rsqr_sqrt by apply norm2_nonneg.
    unfold A, Rsqr. lin3. lra. }
  intros Hin. apply (translation_members A 10000 l Hdet Hl) in Hin. destruct Hin as [Hf _].
  assert (Hc : ceil (10000 / norm2 (row_sum A)) = 1%Z).
  { rewrite Hsum. pose proof (ceil_spec (10000 / norm2 (V3 200 200 200))) as [C1 C2].
    replace (10000 / norm2 (V3 200 200 200)) with (1 / 12) in * by (unfold norm2, dot; cbn [vx vy vz]; field).
    apply Z.le_antisymm.
    - apply Z.lt_succ_r. apply lt_IZR. simpl. lra.
    - apply ceil_pos. lra. }
  rewrite Hc in Hf. unfold fft_frequency in Hf. simpl in Hf. lia.
Qed.

(** ** C28 *)
Lemma volume_pos_iff A : 0 <= volume A /\ (0 < volume A <-> exists B, m3mul A B = m3id).
Proof.
  unfold volume. split; [apply Rabs_pos|]. split.
  - intros H. exists (m3inv A). apply m3inv_r. intros E. rewrite E, Rabs_R0 in H. lra.
  - intros [B HB]. apply Rabs_pos_lt. intros E. apply (f_equal m3det) in HB. rewrite m3det_mul, m3det_id, E in HB. lra.
Qed.
Lemma volume_scale s A : volume (m3scale s A) = Rabs s ^ 3 * volume A.
Proof. unfold volume. rewrite m3det_scale, Rabs_mult, RPow_abs. reflexivity. Qed.
Lemma volume_rotation A Q : m3mul Q (m3t Q) = m3id -> volume (m3mul A Q) = volume A.
Proof.
  intros H. unfold volume. rewrite m3det_mul, Rabs_mult.
  assert (E : m3det Q * m3det Q = 1) by (rewrite <- (m3det_t Q) at 2; rewrite <- m3det_mul, H; apply m3det_id).
  assert (Rabs (m3det Q) = 1).
  { assert (H2 : (m3det Q - 1) * (m3det Q + 1) = 0) by lra. apply Rmult_integral in H2. destruct H2 as [H2|H2].
    - replace (m3det Q) with 1 by lra. apply Rabs_R1.
    - replace (m3det Q) with (-1) by lra. rewrite Rabs_left; lra. }
  rewrite H0. ring.
Qed.
Lemma volume_swap A : volume (M3 (m1 A) (m0 A) (m2 A)) = volume A /\ volume (M3 (m1 A) (m2 A) (m0 A)) = volume A /\
  volume (M3 (m0 A) (m2 A) (m1 A)) = volume A.
Proof.
  unfold volume. repeat split.
  - rewrite <- Rabs_Ropp. f_equal. lin3; ring.
  - f_equal. lin3; ring.
  - rewrite <- Rabs_Ropp. f_equal. lin3; ring.
Qed.
Lemma volume_recip A : m3det A <> 0 -> volume A * volume (reciprocal_vectors A) = (2 * PI) ^ 3.
Proof.
  intros H. unfold volume. rewrite <- Rabs_mult, det_recip by exact H.
  replace (m3det A * ((2 * PI) ^ 3 / m3det A)) with ((2 * PI) ^ 3) by (field; exact H).
  apply Rabs_pos_eq. apply pow_le. pose proof PI_RGT_0. lra.
Qed.
Lemma volume_shear A k : volume (M3 (vadd (m0 A) (vscale k (m1 A))) (m1 A) (m2 A)) = volume A.
Proof. unfold volume. f_equal. lin3; ring. Qed.

(** ** C29 *)
Lemma scaled_symmetric A p : m3det A <> 0 -> m3t A = A -> vmul (scaled_position A p) A = p.
Proof.
  intros H Hs. unfold scaled_position. rewrite <- (m3inv_t A H), Hs, vmul_assoc, m3inv_l, vmul_id by exact H. reflexivity.
Qed.
Lemma vmul_e0 M : vmul (V3 1 0 0) M = m0 M. Proof. lin3; ring. Qed.
Lemma vmul_e1 M : vmul (V3 0 1 0) M = m1 M. Proof. lin3; ring. Qed.
Lemma vmul_e2 M : vmul (V3 0 0 1) M = m2 M. Proof. lin3; ring. Qed.
Lemma vmul_id_unique M : (forall p, vmul p M = p) -> M = m3id.
Proof. intros HM. apply m3_eq; [rewrite <- vmul_e0|rewrite <- vmul_e1|rewrite <- vmul_e2]; apply HM. Qed.
Lemma scaled_only_symmetric A : m3det A <> 0 ->
  (forall p, vmul (scaled_position A p) A = p) -> m3t A = A.
Proof.
  intros H Hall. unfold scaled_position in Hall.
  assert (E : m3mul (m3t (m3inv A)) A = m3id).
  { apply vmul_id_unique. intros p. rewrite <- vmul_assoc. apply Hall. }
  apply m3inv_unique in E. rewrite <- (m3inv_t A H), m3inv_inv in E by (rewrite m3det_t; exact H). exact E.
Qed.
Lemma scaled_transposed A p : m3det A <> 0 -> vmul (scaled_position A p) (m3t A) = p.
Proof.
  intros H. unfold scaled_position. rewrite vmul_assoc, <- m3t_mul, m3inv_r, m3t_id, vmul_id by exact H. reflexivity.
Qed.
Lemma scaled_refuted : exists A p, m3det A <> 0 /\ vmul (scaled_position A p) A <> p.
Proof.
  exists (M3 (V3 1 1 0) (V3 0 1 0) (V3 0 0 1)), (V3 1 0 0). split; [lin3; lra|].
  unfold scaled_position. rewrite (m3inv_unique _ (M3 (V3 1 (-1) 0) (V3 0 1 0) (V3 0 0 1))) by (lin3; ring).
  unfold vmul, m3t, vadd, vscale. cbn [vx vy vz m0 m1 m2]. intros E. apply V3_inj in E. lra.
Qed.

(** ** C10 *)
Lemma grid_shape A sizes nz g : vector_grid A sizes nz = Ok g -> tshape g = sizes.
Proof.
  intros H. destruct (vector_grid_inv _ _ _ _ H) as (n1 & n2 & n3 & -> & _).
  exact (proj1 (vector_grid_get _ _ _ _ _ _ H)).
Qed.
Lemma g2r_given A A' sizes G : g_vectors A' sizes = Ok G -> g2r_vector_grid G (Some A) = r_vectors A sizes.
Proof. intros H. unfold g2r_vector_grid. cbn [bind]. rewrite (grid_shape _ _ _ _ H). reflexivity. Qed.
Lemma r2g_given A A' sizes X : r_vectors A' sizes = Ok X -> r2g_vector_grid X (Some A) = g_vectors A sizes.
Proof. intros H. unfold r2g_vector_grid. cbn [bind]. rewrite (grid_shape _ _ _ _ H). reflexivity. Qed.
Lemma r2g_inferred A n1 n2 n3 X : (2 <= n1)%nat -> (2 <= n2)%nat -> (2 <= n3)%nat ->
  r_vectors A [n1; n2; n3] = Ok X -> r2g_vector_grid X None = g_vectors A [n1; n2; n3].
Proof.
  intros H1 H2 H3 H. unfold r2g_vector_grid. rewrite (r2cell_spec A n1 n2 n3 X) by assumption. cbn [bind].
  rewrite (grid_shape _ _ _ _ H). reflexivity.
Qed.
Lemma g2r_inferred A n1 n2 n3 G : m3det A <> 0 -> (2 <= n1)%nat -> (2 <= n2)%nat -> (2 <= n3)%nat ->
  g_vectors A [n1; n2; n3] = Ok G -> g2r_vector_grid G None = r_vectors (m3t A) [n1; n2; n3].
Proof.
  intros HA H1 H2 H3 H. unfold g2r_vector_grid. rewrite (g2cell_spec A n1 n2 n3 G) by assumption. cbn [bind].
  rewrite (grid_shape _ _ _ _ H). reflexivity.
Qed.

Definition shear_cell := M3 (V3 1 1 0) (V3 0 1 0) (V3 0 0 1).
Lemma shear_det : m3det shear_cell <> 0. Proof. unfold shear_cell. lin3; lra. Qed.
Lemma g2r_inferred_refuted : exists A G X X', m3det A <> 0 /\ g_vectors A [4; 4; 4]%nat = Ok G /\
  r_vectors A [4; 4; 4]%nat = Ok X /\ g2r_vector_grid G None = Ok X' /\ ~ teq X' X.
Proof.
  destruct (vector_grid_ok (reciprocal_vectors shear_cell) 4 4 4 false) as [G HG]; try lia.
  destruct (vector_grid_ok shear_cell 4 4 4 true) as [X HX]; try lia.
  destruct (vector_grid_ok (m3t shear_cell) 4 4 4 true) as [X' HX']; try lia.
  exists shear_cell, G, X, X'. split; [exact shear_det|]. split; [exact HG|]. split; [exact HX|].
  split; [rewrite (g2r_inferred shear_cell 4 4 4 G); try lia; [exact HX'|exact shear_det|exact HG]|].
  intros [_ E]. destruct (vector_grid_get _ _ _ _ _ _ HX) as [_ V]. destruct (vector_grid_get _ _ _ _ _ _ HX') as [S V'].
  specialize (E [1; 0; 0]%nat). rewrite S in E. specialize (E ltac:(repeat constructor; lia)).
  rewrite V, V' in E. unfold shear_cell, m3t, vmul, vadd, vscale in E. cbn [vx vy vz m0 m1 m2] in E.
  apply V3_inj in E. destruct E as (_ & E & _).
  assert (Hc : coef true 4 1 = / 4) by (unfold coef, fr; cbn; field).
  rewrite Hc in E. lra.
Qed.
