(** The gradient-dependent potential on grids with one non-trivial axis. *)
From Coq Require Import Reals Lra Lia.
From Coquelicot Require Import Coquelicot.
From Coq Require Import Ascii String List Arith ZArith Bool.
From Verif Require Import Base Sums Tensor DFT GridModel PadModel Lin3 VecModel VecProofs PwModel XcModel EnergyModel GgaModel GgaSpec XcProofs XcProofs2 XcProofs3 GgaProofs GgaProofs2.
Import ListNotations.
Local Open Scope R_scope.

Lemma dft_unit_l ns f g : dft (1%nat :: ns) f (0%nat :: g) = dft ns (fun x => f (0%nat :: x)) g.
Proof.
  unfold dft. rewrite sumC_indices_cons. cbn [seq sumC]. rewrite Cplus_0_r. apply sumC_ext. intros x _. cbn [zs map phase]. do 4 f_equal. change (Z.of_nat 0) with 0%Z. rewrite Z.mul_0_l. unfold Rdiv. rewrite Rmult_0_l. apply Rplus_0_l.
Qed.
Lemma nprod_unit ns : nprod (1%nat :: ns) = nprod ns. Proof. cbn. lia. Qed.
Lemma idft_unit_l ns f g : idft (1%nat :: ns) f (0%nat :: g) = idft ns (fun x => f (0%nat :: x)) g.
Proof.
  unfold idft. rewrite nprod_unit. f_equal. rewrite sumC_indices_cons. cbn [seq sumC]. rewrite Cplus_0_r. apply sumC_ext. intros x _. cbn [zs map phase]. do 3 f_equal. change (Z.of_nat 0) with 0%Z. rewrite Z.mul_0_l. unfold Rdiv. rewrite Rmult_0_l. apply Rplus_0_l.
Qed.
Lemma phase1 n k y : phase [n] (zs [k]) (zs [y]) = INR k * INR y / INR n.
Proof. cbn [zs map phase]. rewrite mult_IZR, <- !INR_IZR_INZ. ring. Qed.
Lemma dft_coefficient n f k : dft [n] f [k] = sumC (seq 0 n) (fun y => f [y] * cis (- (2 * PI * (INR k * INR y / INR n))))%C.
Proof. unfold dft. rewrite sumC_indices_cons. apply sumC_ext. intros y _. cbn [indices sumC]. rewrite phase1. ring. Qed.
Lemma idft_synthesis n f k : idft [n] f [k] = synthesis n (fun y => f [y]) k.
Proof.
  unfold idft, synthesis. replace (nprod [n]) with n by (cbn; lia). f_equal. rewrite sumC_indices_cons. apply sumC_ext. intros y _. cbn [indices sumC]. rewrite phase1. ring.
Qed.
Lemma synthesis_ext n c c' x : (forall k, (k < n)%nat -> c k = c' k) -> synthesis n c x = synthesis n c' x.
Proof. intros H. unfold synthesis. f_equal. apply sumC_ext. intros k Hk. apply in_seq in Hk. rewrite H by lia. reflexivity. Qed.
Lemma synthesis_scal n a c x : synthesis n (fun k => a * c k)%C x = (a * synthesis n c x)%C.
Proof.
  unfold synthesis. rewrite (sumC_ext _ _ (fun k => a * (c k * cis (2 * PI * (INR k * INR x / INR n))))%C) by (intros; ring). rewrite sumC_scal. ring.
Qed.
(** trailing axes of length one *)
Lemma dft_unit_r n f g : dft [n; 1; 1]%nat f [g; 0; 0]%nat = dft [n] (fun y => f (y ++ [0; 0]%nat)) [g].
Proof.
  rewrite dft_coefficient. unfold dft. rewrite sumC_indices_cons. apply sumC_ext. intros y _. cbn [indices flat_map map seq app sumC]. rewrite Cplus_0_r. do 4 f_equal.
  cbn [zs map phase]. change (Z.of_nat 0) with 0%Z. rewrite !Z.mul_0_r, mult_IZR, <- !INR_IZR_INZ. unfold Rdiv. ring.
Qed.
Lemma idft_unit_r n f g : idft [n; 1; 1]%nat f [g; 0; 0]%nat = synthesis n (fun y => f [y; 0; 0]%nat) g.
Proof.
  unfold idft, synthesis. replace (nprod [n; 1; 1]%nat) with n by (cbn; lia). f_equal. rewrite sumC_indices_cons. apply sumC_ext. intros y _. cbn [indices flat_map map seq app sumC]. rewrite Cplus_0_r. do 4 f_equal.
  cbn [zs map phase]. change (Z.of_nat 0) with 0%Z. rewrite !Z.mul_0_l, mult_IZR, <- !INR_IZR_INZ. unfold Rdiv. ring.
Qed.
(** a product over two axes *)
Lemma idft_product n m (F H : nat -> C) x d : idft [n; m] (fun y => F (hd 0%nat y) * H (last y 0%nat))%C [x; d] = (synthesis n F x * synthesis m H d)%C.
Proof.
  unfold idft, synthesis. replace (nprod [n; m]) with (n * m)%nat by (cbn; lia). rewrite mult_INR.
  assert (E : RtoC (/ (INR n * INR m)) = (RtoC (/ INR n) * RtoC (/ INR m))%C) by (rewrite <- RtoC_mult, Rinv_mult; reflexivity). rewrite E.
  assert (S : sumC (indices [n; m]) (fun g => F (hd 0%nat g) * H (last g 0%nat) * cis (2 * PI * phase [n; m] (zs g) (zs [x; d])))%C =
    (sumC (seq 0 n) (fun k => F k * cis (2 * PI * (INR k * INR x / INR n))) * sumC (seq 0 m) (fun k => H k * cis (2 * PI * (INR k * INR d / INR m))))%C).
  { rewrite sumC_indices_cons, <- sumC_scal_r. apply sumC_ext. intros k _. rewrite sumC_indices_cons, <- sumC_scal. apply sumC_ext. intros c _. cbn [indices sumC hd last]. rewrite Cplus_0_r.
    assert (P : (2 * PI * phase [n; m] (zs [k; c]) (zs [x; d]))%R = 2 * PI * (INR k * INR x / INR n) + 2 * PI * (INR c * INR d / INR m)).
    { cbn [zs map phase]. rewrite !mult_IZR, <- !INR_IZR_INZ. unfold Rdiv. ring. }
    rewrite P, cis_plus. ring. }
  rewrite S. ring.
Qed.

(** *** three points *)
Definition w3 : C := (- / 2, sqrt 3 / 2).
Lemma sqrt3_sq : sqrt 3 * sqrt 3 = 3. Proof. apply sqrt_sqrt. lra. Qed.
Lemma cis3 (m q : nat) r : (m = 3 * q + r)%nat -> cis (2 * PI * (INR m / 3)) = cis (2 * PI * (INR r / 3)).
Proof.
  intros ->. rewrite plus_INR, mult_INR. replace (2 * PI * ((INR 3 * INR q + INR r) / 3)) with (2 * PI * (INR r / 3) + 2 * PI * IZR (Z.of_nat q)) by (rewrite <- INR_IZR_INZ; cbn [INR]; field). apply cis_period.
Qed.
Lemma cis3_1 : cis (2 * PI * (INR 1 / 3)) = w3.
Proof. unfold cis, w3. replace (2 * PI * (INR 1 / 3)) with (2 * (PI / 3)) by (cbn [INR]; field). rewrite cos_2PI3, sin_2PI3. f_equal; lra. Qed.
Lemma cis3_0 : cis (2 * PI * (INR 0 / 3)) = RtoC 1.
Proof. replace (2 * PI * (INR 0 / 3)) with 0 by (cbn [INR]; field). apply cis_0. Qed.
Lemma cis3_2 : cis (2 * PI * (INR 2 / 3)) = Cconj w3.
Proof.
  rewrite <- cis3_1, cis_conj. replace (2 * PI * (INR 2 / 3)) with (- (2 * PI * (INR 1 / 3)) + 2 * PI * IZR 1) by (cbn [INR]; field). apply cis_period.
Qed.
Lemma synthesis3 (c : nat -> C) : 
  synthesis 3 c 0 = (RtoC (/ 3) * (c 0%nat + c 1%nat + c 2%nat))%C /\
  synthesis 3 c 1 = (RtoC (/ 3) * (c 0%nat + c 1%nat * w3 + c 2%nat * Cconj w3))%C /\
  synthesis 3 c 2 = (RtoC (/ 3) * (c 0%nat + c 1%nat * Cconj w3 + c 2%nat * w3))%C.
Proof.
  unfold synthesis. replace (INR 3) with 3 by (cbn; ring).
  assert (E : forall a b, INR a * INR b / 3 = INR (a * b) / 3) by (intros; rewrite mult_INR; reflexivity).
  cbn [seq sumC]. rewrite !E. cbn [Nat.mul Nat.add]. rewrite (cis3 4 1 1 eq_refl), cis3_0, cis3_1, cis3_2. repeat split; ring.
Qed.
Lemma coefficient3 (f : nat -> R) : 
  coefficient 3 f 0 = RtoC (f 0%nat + f 1%nat + f 2%nat) /\
  coefficient 3 f 1 = (RtoC (f 0%nat) + RtoC (f 1%nat) * Cconj w3 + RtoC (f 2%nat) * w3)%C /\
  coefficient 3 f 2 = (RtoC (f 0%nat) + RtoC (f 1%nat) * w3 + RtoC (f 2%nat) * Cconj w3)%C.
Proof.
  unfold coefficient. replace (INR 3) with 3 by (cbn; ring).
  assert (E : forall a b, cis (- (2 * PI * (INR a * INR b / 3))) = Cconj (cis (2 * PI * (INR (a * b) / 3)))) by (intros; rewrite cis_conj, mult_INR; reflexivity).
  cbn [seq sumC]. rewrite !E. cbn [Nat.mul Nat.add]. rewrite (cis3 4 1 1 eq_refl), cis3_0, cis3_1, cis3_2.
  assert (K : Cconj (RtoC 1) = RtoC 1) by (unfold Cconj, RtoC; cbn; f_equal; ring). assert (K2 : Cconj (Cconj w3) = w3) by (unfold Cconj, w3; cbn; f_equal; ring). rewrite K, K2, !RtoC_plus. repeat split; ring.
Qed.
(** the squares of the transformed components of a vector *)
Lemma mixed_sum (c : nat -> R) : sumC (seq 0 3) (fun d => synthesis 3 (fun a => RtoC (c a)) d * synthesis 3 (fun a => RtoC (c a)) d)%C = RtoC ((c 0%nat * c 0%nat + 2 * (c 1%nat * c 2%nat)) / 3).
Proof.
  destruct (synthesis3 (fun a => RtoC (c a))) as (E0 & E1 & E2). cbn [seq sumC]. rewrite E0, E1, E2.
  pose proof sqrt3_sq as Q. unfold w3, Cconj, RtoC, Cmult, Cplus. cbn [fst snd]. set (q := sqrt 3) in *. f_equal; [|field]. 
  field_simplify. replace (q ^ 2) with 3 by (rewrite <- Q; ring). field.
Qed.

(** *** one non-trivial axis *)
Definition line3 (f : list nat -> R) (z : nat) : R := f [0%nat; 0%nat; z].
Definition line1 (f : list nat -> R) (x : nat) : R := f [x; 0%nat; 0%nat].

Lemma G_last A n G z : g_vectors A [1; 1; n]%nat = Ok G -> tget G [0; 0; z]%nat = vscale (freq n z) (m2 (reciprocal_vectors A)).
Proof.
  intros HG. unfold g_vectors in HG. destruct (vector_grid_get _ _ _ _ _ _ HG) as [_ Hv]. rewrite Hv. unfold coef. rewrite fr_0 by lia. unfold fr, freq. set (B := reciprocal_vectors A). clear. lin3; ring.
Qed.
Lemma G_first A n G x : g_vectors A [n; 1; 1]%nat = Ok G -> tget G [x; 0; 0]%nat = vscale (freq n x) (m0 (reciprocal_vectors A)).
Proof.
  intros HG. unfold g_vectors in HG. destruct (vector_grid_get _ _ _ _ _ _ HG) as [_ Hv]. rewrite Hv. unfold coef. rewrite fr_0 by lia. unfold fr, freq. set (B := reciprocal_vectors A). clear. lin3; ring.
Qed.
Lemma vcomp_scale a r v : vcomp a (vscale r v) = r * vcomp a v.
Proof. destruct a as [|[|a]]; reflexivity. Qed.
Lemma norm2_scale r v : norm2 (vscale r v) = r * r * norm2 v.
Proof. lin3; ring. Qed.
Lemma mixed_vec b : sumC (seq 0 3) (fun d => synthesis 3 (fun a => RtoC (vcomp a b)) d * synthesis 3 (fun a => RtoC (vcomp a b)) d)%C = RtoC (mixed b).
Proof. exact (mixed_sum (fun a => vcomp a b)). Qed.

Lemma dft_line3 n (f : list nat -> R) z : dft [1; 1; n]%nat (fun y => RtoC (f y)) [0; 0; z]%nat = coefficient n (line3 f) z.
Proof. rewrite !dft_unit_l, dft_coefficient. reflexivity. Qed.
Lemma dft_line1 n (f : list nat -> R) z : dft [n; 1; 1]%nat (fun y => RtoC (f y)) [z; 0; 0]%nat = coefficient n (line1 f) z.
Proof. rewrite dft_unit_r, dft_coefficient. reflexivity. Qed.

Lemma code_grad_last A n G F x d : g_vectors A [1; 1; n]%nat = Ok G ->
  code_grad 1 n G F 0 0 x d = (synthesis n (fun k => Ci * RtoC (freq n k) * F [0; 0; k]%nat) x * synthesis 3 (fun a => RtoC (vcomp a (m2 (reciprocal_vectors A)))) d)%C.
Proof.
  intros HG. unfold code_grad. rewrite idft_unit_l, <- (idft_product n 3). apply idft_ext. intros y Hy.
  inversion Hy as [|a ? y1 ? Ha H1]; subst. inversion H1 as [|b ? y2 ? Hb H2]; subst. inversion H2; subst. cbn [removelast last hd]. rewrite (G_last A n G a HG), vcomp_scale, RtoC_mult. ring.
Qed.
Lemma code_grad_first A n G F x d : g_vectors A [n; 1; 1]%nat = Ok G ->
  code_grad 1 1 G F x 0 0 d = (Ci * RtoC (freq n x) * F [x; 0; 0]%nat * synthesis 3 (fun a => RtoC (vcomp a (m0 (reciprocal_vectors A)))) d)%C.
Proof.
  intros HG. unfold code_grad. rewrite !idft_unit_l, idft_synthesis. cbn [removelast last]. rewrite (G_first A n G x HG).
  rewrite <- synthesis_scal. apply synthesis_ext. intros k _. rewrite vcomp_scale, RtoC_mult. ring.
Qed.

Lemma code_term_last A n G t f x : g_vectors A [1; 1; n]%nat = Ok G -> let b := m2 (reciprocal_vectors A) in
  code_term 1 1 n G t f 0 0 x = (RtoC (mixed b) * deriv1 n (line3 t) x * deriv1 n (line3 f) x + RtoC (norm2 b) * RtoC (line3 t x) * deriv2 n (line3 f) x)%C.
Proof.
  intros HG b. unfold code_term.
  assert (D : forall F g, (forall k, (k < n)%nat -> F [0; 0; k]%nat = coefficient n (line3 g) k) -> synthesis n (fun k => Ci * RtoC (freq n k) * F [0; 0; k]%nat)%C x = deriv1 n (line3 g) x).
  { intros F g E. apply synthesis_ext. intros k Hk. rewrite (E k Hk). reflexivity. }
  assert (L : idft [1; 1; n]%nat (fun y => RtoC (-1 * norm2 (tget G y)) * dft [1; 1; n]%nat (fun y => RtoC (f y)) y)%C [0; 0; x]%nat = (RtoC (norm2 b) * deriv2 n (line3 f) x)%C).
  { rewrite !idft_unit_l, idft_synthesis. unfold deriv2. rewrite <- synthesis_scal. apply synthesis_ext. intros k _. rewrite dft_line3, (G_last A n G k HG), norm2_scale. fold b.
    rewrite Cmult_assoc, <- RtoC_mult. f_equal. f_equal. ring. }
  rewrite L. rewrite (sumC_ext _ _ (fun d => (deriv1 n (line3 t) x * deriv1 n (line3 f) x) * (synthesis 3 (fun a => RtoC (vcomp a b)) d * synthesis 3 (fun a => RtoC (vcomp a b)) d))%C).
  2:{ intros d _. rewrite !(code_grad_last A n G _ x d HG). rewrite (D _ t), (D _ f); [fold b; ring| |].
      - intros k _. apply dft_line3.
      - intros k _. unfold part_dft. cbn [removelast last app]. rewrite dft_coefficient. reflexivity. }
  rewrite sumC_scal, mixed_vec. unfold line3. ring.
Qed.
Lemma code_term_first A n G t f x : g_vectors A [n; 1; 1]%nat = Ok G -> let b := m0 (reciprocal_vectors A) in
  code_term n 1 1 G t f x 0 0 = (RtoC (- (mixed b * (freq n x * freq n x) * line1 t x)) * coefficient n (line1 f) x + RtoC (norm2 b) * RtoC (line1 t x) * deriv2 n (line1 f) x)%C.
Proof.
  intros HG b. unfold code_term.
  assert (L : idft [n; 1; 1]%nat (fun y => RtoC (-1 * norm2 (tget G y)) * dft [n; 1; 1]%nat (fun y => RtoC (f y)) y)%C [x; 0; 0]%nat = (RtoC (norm2 b) * deriv2 n (line1 f) x)%C).
  { rewrite idft_unit_r. unfold deriv2. rewrite <- synthesis_scal. apply synthesis_ext. intros k _. rewrite dft_line1, (G_first A n G k HG), norm2_scale. fold b.
    rewrite Cmult_assoc, <- RtoC_mult. f_equal. f_equal. ring. }
  rewrite L. rewrite (sumC_ext _ _ (fun d => (RtoC (- (freq n x * freq n x) * line1 t x) * coefficient n (line1 f) x) * (synthesis 3 (fun a => RtoC (vcomp a b)) d * synthesis 3 (fun a => RtoC (vcomp a b)) d))%C).
  2:{ intros d _. rewrite !(code_grad_first A n G _ x d HG), dft_line1. fold b.
      assert (P : part_dft 1 t [x; 0; 0]%nat = RtoC (line1 t x)).
      { unfold part_dft. cbn [removelast last app]. rewrite dft_unit_l. unfold dft. cbn [indices sumC zs map phase]. rewrite Rmult_0_r, Ropp_0, cis_0. unfold line1. ring. }
      rewrite P. rewrite RtoC_mult, RtoC_opp, RtoC_mult.
      assert (I : (Ci * Ci = - RtoC 1)%C) by (unfold Ci, Cmult, Copp, RtoC; cbn; f_equal; ring).
      set (s := synthesis 3 _ d). set (c := coefficient n _ x). set (q := RtoC (freq n x)). set (r := RtoC (line1 t x)).
      replace (Ci * q * r * s * (Ci * q * c * s))%C with ((Ci * Ci) * (q * q * r * c) * (s * s))%C by ring. rewrite I. ring. }
  rewrite sumC_scal, mixed_vec. unfold line1. rewrite !RtoC_opp, !RtoC_mult, RtoC_opp, !RtoC_mult. ring.
Qed.
