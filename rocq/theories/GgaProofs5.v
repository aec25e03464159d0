(** The gradient-dependent potential along the middle axis, and with two spin channels. *)
From Coq Require Import Reals Lra Lia.
From Coquelicot Require Import Coquelicot.
From Coq Require Import Ascii String List Arith ZArith Bool.
From Verif Require Import Base Sums Tensor DFT GridModel PadModel Lin3 VecModel VecProofs PwModel XcModel EnergyModel GgaModel GgaSpec XcProofs XcProofs2 XcProofs3 GgaProofs GgaProofs2 GgaProofs3 GgaProofs4.
Import ListNotations.
Local Open Scope R_scope.

Definition line2 (f : list nat -> R) (x : nat) : R := f [0%nat; x; 0%nat].
Lemma G_middle A n G x : g_vectors A [1; n; 1]%nat = Ok G -> tget G [0; x; 0]%nat = vscale (freq n x) (m1 (reciprocal_vectors A)).
Proof.
  intros HG. unfold g_vectors in HG. destruct (vector_grid_get _ _ _ _ _ _ HG) as [_ Hv]. rewrite Hv. unfold coef. rewrite fr_0 by lia. unfold fr, freq. set (B := reciprocal_vectors A). clear. lin3; ring.
Qed.
Lemma dft_unit_r1 n f g : dft [n; 1]%nat f [g; 0]%nat = dft [n] (fun y => f (y ++ [0]%nat)) [g].
Proof.
  rewrite dft_coefficient. unfold dft. rewrite sumC_indices_cons. apply sumC_ext. intros y _. cbn [indices flat_map map seq app sumC]. rewrite Cplus_0_r. do 4 f_equal.
  cbn [zs map phase]. change (Z.of_nat 0) with 0%Z. rewrite !Z.mul_0_r, mult_IZR, <- !INR_IZR_INZ. unfold Rdiv. ring.
Qed.
Lemma idft_unit_r1 n f g : idft [n; 1]%nat f [g; 0]%nat = synthesis n (fun y => f [y; 0]%nat) g.
Proof.
  unfold idft, synthesis. replace (nprod [n; 1]%nat) with n by (cbn; lia). f_equal. rewrite sumC_indices_cons. apply sumC_ext. intros y _. cbn [indices flat_map map seq app sumC]. rewrite Cplus_0_r. do 4 f_equal.
  cbn [zs map phase]. change (Z.of_nat 0) with 0%Z. rewrite !Z.mul_0_l, mult_IZR, <- !INR_IZR_INZ. unfold Rdiv. ring.
Qed.
Lemma dft_line2 n (f : list nat -> R) z : dft [1; n; 1]%nat (fun y => RtoC (f y)) [0; z; 0]%nat = coefficient n (line2 f) z.
Proof. rewrite dft_unit_l, dft_unit_r1, dft_coefficient. reflexivity. Qed.

(** a product over three axes of which the middle one has length one *)
Lemma idft_product_gap n m (F H : nat -> C) x d : idft [n; 1; m]%nat (fun y => F (hd 0%nat y) * H (last y 0%nat))%C [x; 0%nat; d] = (synthesis n F x * synthesis m H d)%C.
Proof.
  rewrite <- idft_product. unfold idft. replace (nprod [n; 1; m]%nat) with (nprod [n; m]) by (cbn; lia). f_equal. rewrite !sumC_indices_cons. apply sumC_ext. intros k _.
  rewrite !sumC_indices_cons. cbn [seq sumC]. rewrite Cplus_0_r, sumC_indices_cons. apply sumC_ext. intros c _. cbn [indices sumC hd last]. do 4 f_equal.
  cbn [zs map phase]. change (Z.of_nat 0) with 0%Z. rewrite Z.mul_0_l. unfold Rdiv. ring.
Qed.
Lemma code_grad_middle A n G F x d : g_vectors A [1; n; 1]%nat = Ok G ->
  code_grad n 1 G F 0 x 0 d = (synthesis n (fun k => Ci * RtoC (freq n k) * F [0; k; 0]%nat) x * synthesis 3 (fun a => RtoC (vcomp a (m1 (reciprocal_vectors A)))) d)%C.
Proof.
  intros HG. unfold code_grad. rewrite <- (idft_product_gap n 3). apply idft_ext. intros y Hy. destruct (inb3 _ _ _ _ Hy) as (a & b & c & -> & Ha & Hb & Hc). destruct b; [|lia].
  cbn [removelast last hd]. rewrite (G_middle A n G a HG), vcomp_scale, RtoC_mult. ring.
Qed.
Lemma code_term_middle A n G t f x : g_vectors A [1; n; 1]%nat = Ok G -> let b := m1 (reciprocal_vectors A) in
  code_term 1 n 1 G t f 0 x 0 = (RtoC (mixed b) * synthesis n (fun k => Ci * RtoC (freq n k) * RtoC (line2 t k)) x * deriv1 n (line2 f) x + RtoC (norm2 b) * RtoC (line2 t x) * deriv2 n (line2 f) x)%C.
Proof.
  intros HG b. unfold code_term.
  assert (L : idft [1; n; 1]%nat (fun y => RtoC (-1 * norm2 (tget G y)) * dft [1; n; 1]%nat (fun y => RtoC (f y)) y)%C [0; x; 0]%nat = (RtoC (norm2 b) * deriv2 n (line2 f) x)%C).
  { rewrite idft_unit_l, idft_unit_r1. unfold deriv2. rewrite <- synthesis_scal. apply synthesis_ext. intros k _. rewrite dft_line2, (G_middle A n G k HG), norm2_scale. fold b.
    rewrite Cmult_assoc, <- RtoC_mult. f_equal. f_equal. ring. }
  rewrite L. rewrite (sumC_ext _ _ (fun d => (synthesis n (fun k => Ci * RtoC (freq n k) * RtoC (line2 t k)) x * deriv1 n (line2 f) x) * (synthesis 3 (fun a => RtoC (vcomp a b)) d * synthesis 3 (fun a => RtoC (vcomp a b)) d))%C).
  2:{ intros d _. rewrite !(code_grad_middle A n G _ x d HG). fold b.
      rewrite (synthesis_ext n (fun k => Ci * RtoC (freq n k) * part_dft 1 t [0; k; 0]%nat)%C (fun k => Ci * RtoC (freq n k) * RtoC (line2 t k))%C).
      2:{ intros k _. f_equal. unfold part_dft. cbn [removelast last app]. rewrite dft_unit_l. unfold dft. cbn [indices sumC zs map phase]. rewrite Rmult_0_r, Ropp_0, cis_0. unfold line2. ring. }
      rewrite (synthesis_ext n (fun k => Ci * RtoC (freq n k) * dft [1; n; 1]%nat (fun y => RtoC (f y)) [0; k; 0]%nat)%C (fun k => Ci * RtoC (freq n k) * coefficient n (line2 f) k)%C) by (intros k _; rewrite dft_line2; reflexivity).
      unfold deriv1. ring. }
  rewrite sumC_scal, mixed_vec. unfold line2. ring.
Qed.
Lemma gprod_middle A n G f z : g_vectors A [1; n; 1]%nat = Ok G -> gprod [1; n; 1]%nat G f f [0; z; 0]%nat = norm2 (m1 (reciprocal_vectors A)) * Cnorm2 (deriv1 n (line2 f) z).
Proof.
  intros HG. rewrite gprod_self, <- vec_sum. apply sumR_ext. intros a _. rewrite <- Cnorm2_scal_R. f_equal. unfold gradc, grad_component. rewrite idft_unit_l, idft_unit_r1.
  unfold deriv1. rewrite <- synthesis_scal. apply synthesis_ext. intros k _. rewrite dft_line2, (G_middle A n G k HG), vcomp_scale, RtoC_mult. ring.
Qed.

Lemma gga_middle_axis lib xt A G (d : tensor R) n : let ts := split_on "+" xt in
  g_vectors A [1; n; 1]%nat = Ok G -> contains "gga" xt = true -> (forall t b, In t ts -> lib t b <> None) -> tshape d = [1; 1; n; 1]%nat ->
  let exc := gga_sum_at lib ts in let b := m1 (reciprocal_vectors A) in let rho z := tget d [0; 0; z; 0]%nat in
  let sigma z := norm2 b * Cnorm2 (deriv1 n rho z) in let t := line_weight exc rho sigma in
  exists v, xc_density_full lib d G true xt = Ok v /\ tshape v = [1; 1; n; 1]%nat /\
    forall z, (z < n)%nat -> tget v [0; 0; z; 0]%nat =
      (RtoC (line_local exc rho sigma z) - RtoC 2 * (RtoC (mixed b) * (synthesis n (fun k => Ci * RtoC (freq n k) * RtoC (t k)) z * deriv1 n rho z) + RtoC (norm2 b) * (RtoC (t z) * deriv2 n rho z)))%C.
Proof.
  intros ts HG Hg Hl Sd exc b rho sigma t.
  assert (SG : tshape G = [1; n; 1]%nat) by (unfold g_vectors in HG; exact (proj1 (vector_grid_get _ _ _ _ _ _ HG))).
  destruct (gga_full lib xt G d 1 1 n 1 (or_introl eq_refl) Hg Hl Sd SG) as (sg & v & Es & Ss & Ev & Sv & Hv).
  destruct (sigma_eq d G 1 1 n 1 SG Sd) as (sg' & Es' & H'). rewrite Es in Es'. injection Es' as <-. cbn [Nat.eqb] in H', Ss. destruct H' as [_ H'].
  assert (Hs : forall z, tget sg [0; 0; z; 0]%nat = sigma z) by (intros z; etransitivity; [apply (H' 0%nat [0; z; 0]%nat)|exact (gprod_middle A n G _ z HG)]).
  exists v. split; [exact Ev|]. split; [exact Sv|]. intros z Hz.
  rewrite (Hv 0%nat 0%nat z 0%nat Nat.lt_0_1 (inb3_intro _ _ _ _ _ _ Nat.lt_0_1 Hz Nat.lt_0_1)). unfold gga_value. cbn [Nat.eqb].
  rewrite (code_term_middle A n G _ _ z HG). fold b.
  assert (Ht : forall y, line2 (gga_masked (gga_sum_at lib (split_on "+" xt)) d sg 0 0) y = t y).
  { intros y. unfold line2, gga_masked, gga_weight, where_pos, t, line_weight. rewrite Hs. destruct (Rlt_dec 0 (sigma y)); [|reflexivity]. unfold dexc_dsigma.
    rewrite (column_unpol d [1; n; 1]%nat _ Sd), (column_unpol sg [1; n; 1]%nat _ Ss), Hs. cbn [upd nth]. apply Rmult_comm. }
  rewrite (synthesis_ext n _ (fun k => Ci * RtoC (freq n k) * RtoC (t k))%C) by (intros k _; rewrite Ht; reflexivity). rewrite Ht.
  assert (Hr : line2 (fun y => tget d (0%nat :: y)) = rho) by reflexivity. rewrite Hr.
  unfold gga_local. rewrite (column_unpol d [1; n; 1]%nat _ Sd), (column_unpol sg [1; n; 1]%nat _ Ss), Hs. unfold dexc_drho. cbn [upd nth]. fold ts. fold exc. change (tget d [0%nat; 0%nat; z; 0%nat]) with (rho z).
  fold (line_local exc rho sigma z). set (L := RtoC (line_local exc rho sigma z)). ring.
Qed.

(** *** two channels along the last axis *)
Lemma gprod_last2 A n G f g z : g_vectors A [1; 1; n]%nat = Ok G -> gprod [1; 1; n]%nat G f g [0; 0; z]%nat = norm2 (m2 (reciprocal_vectors A)) * Re (Cconj (deriv1 n (line3 f) z) * deriv1 n (line3 g) z)%C.
Proof.
  intros HG. unfold gprod. rewrite Re_sumC, <- vec_sum. apply sumR_ext. intros a _.
  assert (K : forall h, gradc [1; 1; n]%nat G h a [0; 0; z]%nat = (RtoC (vcomp a (m2 (reciprocal_vectors A))) * deriv1 n (line3 h) z)%C).
  { intros h. unfold gradc, grad_component. rewrite !idft_unit_l, idft_synthesis. unfold deriv1. rewrite <- synthesis_scal. apply synthesis_ext. intros k _. rewrite dft_line3, (G_last A n G k HG), vcomp_scale, RtoC_mult. ring. }
  rewrite !K. destruct (deriv1 n (line3 f) z) as [p q], (deriv1 n (line3 g) z) as [p' q']. unfold Cconj, Cmult, RtoC, Re. cbn [fst snd]. ring.
Qed.

Lemma gga_last_axis_polarised lib xt A G (d : tensor R) n : let ts := split_on "+" xt in
  g_vectors A [1; 1; n]%nat = Ok G -> contains "gga" xt = true -> (forall t b, In t ts -> lib t b <> None) -> tshape d = [2; 1; 1; n]%nat ->
  let exc := gga_sum_at lib ts in let b := m2 (reciprocal_vectors A) in let u z := tget d [0; 0; 0; z]%nat in let w z := tget d [1; 0; 0; z]%nat in
  let uu z := norm2 b * Cnorm2 (deriv1 n u z) in let uw z := norm2 b * Re (Cconj (deriv1 n u z) * deriv1 n w z)%C in let ww z := norm2 b * Cnorm2 (deriv1 n w z) in
  let t_up z := if Rlt_dec 0 (uu z) then Derive (fun s => exc [u z; w z] [s; uw z; ww z]) (uu z) * u z else 0 in
  let t_dn z := if Rlt_dec 0 (ww z) then Derive (fun s => exc [u z; w z] [uu z; uw z; s]) (ww z) * w z else 0 in
  let mix z := Derive (fun s => exc [u z; w z] [uu z; s; ww z]) (uw z) in
  exists v, xc_density_full lib d G true xt = Ok v /\ tshape v = [2; 1; 1; n]%nat /\ forall z, (z < n)%nat ->
    tget v [0; 0; 0; z]%nat = (RtoC (Derive (fun r => exc [r; w z] [uu z; uw z; ww z]) (u z) * u z + exc [u z; w z] [uu z; uw z; ww z]) - pol_correction n b t_up u (fun y => mix y * w y)%R w z)%C /\
    tget v [1; 0; 0; z]%nat = (RtoC (Derive (fun r => exc [u z; r] [uu z; uw z; ww z]) (w z) * w z + exc [u z; w z] [uu z; uw z; ww z]) - pol_correction n b t_dn w (fun y => mix y * u y)%R u z)%C.
Proof.
  intros ts HG Hg Hl Sd exc b u w uu uw ww t_up t_dn mix.
  assert (SG : tshape G = [1; 1; n]%nat) by (unfold g_vectors in HG; exact (proj1 (vector_grid_get _ _ _ _ _ _ HG))).
  destruct (gga_full lib xt G d 2 1 1 n (or_intror eq_refl) Hg Hl Sd SG) as (sg & v & Es & Ss & Ev & Sv & Hv).
  destruct (sigma_eq d G 2 1 1 n SG Sd) as (sg' & Es' & H'). rewrite Es in Es'. injection Es' as <-. cbn [Nat.eqb] in H', Ss. destruct H' as [_ H'].
  assert (H0 : forall z, tget sg [0; 0; 0; z]%nat = uu z) by (intros z; etransitivity; [apply (H' [0; 0; z]%nat)|exact (gprod_last A n G _ z HG)]).
  assert (H1 : forall z, tget sg [1; 0; 0; z]%nat = uw z) by (intros z; etransitivity; [apply (H' [0; 0; z]%nat)|exact (gprod_last2 A n G _ _ z HG)]).
  assert (H2 : forall z, tget sg [2; 0; 0; z]%nat = ww z) by (intros z; etransitivity; [apply (H' [0; 0; z]%nat)|exact (gprod_last A n G _ z HG)]).
  assert (Cd : forall z, column d [0; 0; z]%nat = [u z; w z]) by (intros z; exact (column_pol d [1; 1; n]%nat _ Sd)).
  assert (Cs : forall z, column sg [0; 0; z]%nat = [uu z; uw z; ww z]) by (intros z; rewrite (column_three sg [1; 1; n]%nat _ Ss), H0, H1, H2; reflexivity).
  assert (M0 : forall y, line3 (gga_masked exc d sg 0 0) y = t_up y).
  { intros y. unfold line3, gga_masked, gga_weight, where_pos, t_up. rewrite H0. destruct (Rlt_dec 0 (uu y)); [|reflexivity]. unfold dexc_dsigma. rewrite Cd, Cs. reflexivity. }
  assert (M2 : forall y, line3 (gga_masked exc d sg 2 1) y = t_dn y).
  { intros y. unfold line3, gga_masked, gga_weight, where_pos, t_dn. rewrite H2. destruct (Rlt_dec 0 (ww y)); [|reflexivity]. unfold dexc_dsigma. rewrite Cd, Cs. reflexivity. }
  assert (W1 : forall y, line3 (gga_weight exc d sg 1 1) y = (mix y * w y)%R) by (intros y; unfold line3, gga_weight, dexc_dsigma; rewrite Cd, Cs; reflexivity).
  assert (W0 : forall y, line3 (gga_weight exc d sg 1 0) y = (mix y * u y)%R) by (intros y; unfold line3, gga_weight, dexc_dsigma; rewrite Cd, Cs; reflexivity).
  exists v. split; [exact Ev|]. split; [exact Sv|]. intros z Hz. pose proof (inb3_intro _ _ _ _ _ _ Nat.lt_0_1 Nat.lt_0_1 Hz) as Hx.
  rewrite (Hv 0%nat 0%nat 0%nat z ltac:(lia) Hx), (Hv 1%nat 0%nat 0%nat z ltac:(lia) Hx). unfold gga_value. cbn [Nat.eqb]. fold ts. fold exc. rewrite !(code_term_last A n G _ _ z HG). fold b.
  rewrite (deriv1_ext n (line3 (gga_masked exc d sg 0 0)) t_up z) by (intros; apply M0). rewrite (deriv1_ext n (line3 (gga_masked exc d sg 2 1)) t_dn z) by (intros; apply M2).
  rewrite (deriv1_ext n (line3 (gga_weight exc d sg 1 1)) (fun y => mix y * w y)%R z) by (intros; apply W1). rewrite (deriv1_ext n (line3 (gga_weight exc d sg 1 0)) (fun y => mix y * u y)%R z) by (intros; apply W0).
  rewrite M0, M2, W0, W1.
  change (line3 (fun y => tget d (0%nat :: y))) with u. change (line3 (fun y => tget d (1%nat :: y))) with w.
  unfold gga_local, dexc_drho. rewrite Cd, Cs. cbn [upd nth]. change (tget d [0%nat; 0%nat; 0%nat; z]) with (u z). change (tget d [1%nat; 0%nat; 0%nat; z]) with (w z).
  unfold pol_correction. split; ring.
Qed.
