(** The gradient-dependent potential along one axis, and where it is wrong. *)
From Coq Require Import Reals Lra Lia.
From Coquelicot Require Import Coquelicot.
From Coq Require Import Ascii String List Arith ZArith Bool.
From Verif Require Import Base Sums Tensor DFT GridModel PadModel Lin3 VecModel VecProofs PwModel XcModel EnergyModel GgaModel GgaSpec XcProofs XcProofs2 XcProofs3 GgaProofs GgaProofs2 GgaProofs3.
Import ListNotations.
Local Open Scope R_scope.

Lemma Cnorm2_scal_R r z : Cnorm2 (RtoC r * z)%C = r * r * Cnorm2 z.
Proof. destruct z as [p q]. unfold Cnorm2, Cmult, RtoC. cbn [fst snd]. ring. Qed.
Lemma vec_sum b c : sumR (seq 0 3) (fun a => vcomp a b * vcomp a b * c) = norm2 b * c.
Proof. cbn [seq sumR vcomp]. unfold norm2, dot. ring. Qed.
Lemma gprod_last A n G f z : g_vectors A [1; 1; n]%nat = Ok G -> gprod [1; 1; n]%nat G f f [0; 0; z]%nat = norm2 (m2 (reciprocal_vectors A)) * Cnorm2 (deriv1 n (line3 f) z).
Proof.
  intros HG. rewrite gprod_self, <- vec_sum. apply sumR_ext. intros a _. rewrite <- Cnorm2_scal_R. f_equal. unfold gradc, grad_component. rewrite !idft_unit_l, idft_synthesis.
  unfold deriv1. rewrite <- synthesis_scal. apply synthesis_ext. intros k _. rewrite dft_line3, (G_last A n G k HG), vcomp_scale, RtoC_mult. ring.
Qed.
Lemma gprod_first A n G f z : g_vectors A [n; 1; 1]%nat = Ok G -> gprod [n; 1; 1]%nat G f f [z; 0; 0]%nat = norm2 (m0 (reciprocal_vectors A)) * Cnorm2 (deriv1 n (line1 f) z).
Proof.
  intros HG. rewrite gprod_self, <- vec_sum. apply sumR_ext. intros a _. rewrite <- Cnorm2_scal_R. f_equal. unfold gradc, grad_component. rewrite idft_unit_r.
  unfold deriv1. rewrite <- synthesis_scal. apply synthesis_ext. intros k _. rewrite dft_line1, (G_first A n G k HG), vcomp_scale, RtoC_mult. ring.
Qed.

Lemma deriv1_ext n f g x : (forall y, (y < n)%nat -> f y = g y) -> deriv1 n f x = deriv1 n g x.
Proof.
  intros H. apply synthesis_ext. intros k _. f_equal. apply sumC_ext. intros y Hy. apply in_seq in Hy. rewrite H by lia. reflexivity.
Qed.

Lemma gga_last_axis lib xt A G (d : tensor R) n : let ts := split_on "+" xt in
  g_vectors A [1; 1; n]%nat = Ok G -> contains "gga" xt = true -> (forall t b, In t ts -> lib t b <> None) -> tshape d = [1; 1; 1; n]%nat ->
  let exc := gga_sum_at lib ts in let b := m2 (reciprocal_vectors A) in let rho z := tget d [0; 0; 0; z]%nat in
  let sigma z := norm2 b * Cnorm2 (deriv1 n rho z) in let t := line_weight exc rho sigma in
  exists v, xc_density_full lib d G true xt = Ok v /\ tshape v = [1; 1; 1; n]%nat /\
    forall z, (z < n)%nat -> tget v [0; 0; 0; z]%nat =
      (RtoC (line_local exc rho sigma z) - RtoC 2 * (RtoC (mixed b) * (deriv1 n t z * deriv1 n rho z) + RtoC (norm2 b) * (RtoC (t z) * deriv2 n rho z)))%C.
Proof.
  intros ts HG Hg Hl Sd exc b rho sigma t.
  assert (SG : tshape G = [1; 1; n]%nat) by (unfold g_vectors in HG; exact (proj1 (vector_grid_get _ _ _ _ _ _ HG))).
  destruct (gga_full lib xt G d 1 1 1 n (or_introl eq_refl) Hg Hl Sd SG) as (sg & v & Es & Ss & Ev & Sv & Hv).
  destruct (sigma_eq d G 1 1 1 n SG Sd) as (sg' & Es' & H'). rewrite Es in Es'. injection Es' as <-. cbn [Nat.eqb] in H', Ss. destruct H' as [_ H'].
  assert (Hs : forall z, tget sg [0; 0; 0; z]%nat = sigma z) by (intros z; etransitivity; [apply (H' 0%nat [0; 0; z]%nat)|exact (gprod_last A n G _ z HG)]).
  exists v. split; [exact Ev|]. split; [exact Sv|]. intros z Hz.
  rewrite (Hv 0%nat 0%nat 0%nat z Nat.lt_0_1 (inb3_intro _ _ _ _ _ _ Nat.lt_0_1 Nat.lt_0_1 Hz)). unfold gga_value. cbn [Nat.eqb].
  rewrite (code_term_last A n G _ _ z HG). fold b.
  assert (Ht : forall y, line3 (gga_masked (gga_sum_at lib (split_on "+" xt)) d sg 0 0) y = t y).
  { intros y. unfold line3, gga_masked, gga_weight, where_pos, t, line_weight. rewrite Hs. destruct (Rlt_dec 0 (sigma y)); [|reflexivity]. unfold dexc_dsigma.
    rewrite (column_unpol d [1; 1; n]%nat _ Sd), (column_unpol sg [1; 1; n]%nat _ Ss), Hs. cbn [upd nth]. apply Rmult_comm. }
  rewrite (deriv1_ext n _ t z) by (intros; apply Ht). rewrite Ht.
  assert (Hr : line3 (fun y => tget d (0%nat :: y)) = rho) by reflexivity. rewrite Hr.
  unfold gga_local. rewrite (column_unpol d [1; 1; n]%nat _ Sd), (column_unpol sg [1; 1; n]%nat _ Ss), Hs. unfold dexc_drho. cbn [upd nth]. fold ts. fold exc. change (tget d [0%nat; 0%nat; 0%nat; z]) with (rho z).
  fold (line_local exc rho sigma z). set (L := RtoC (line_local exc rho sigma z)). ring.
Qed.

Lemma gga_first_axis lib xt A G (d : tensor R) n : let ts := split_on "+" xt in
  g_vectors A [n; 1; 1]%nat = Ok G -> contains "gga" xt = true -> (forall t b, In t ts -> lib t b <> None) -> tshape d = [1; n; 1; 1]%nat ->
  let exc := gga_sum_at lib ts in let b := m0 (reciprocal_vectors A) in let rho z := tget d [0; z; 0; 0]%nat in
  let sigma z := norm2 b * Cnorm2 (deriv1 n rho z) in let t := line_weight exc rho sigma in
  exists v, xc_density_full lib d G true xt = Ok v /\ tshape v = [1; n; 1; 1]%nat /\
    forall z, (z < n)%nat -> tget v [0; z; 0; 0]%nat =
      (RtoC (line_local exc rho sigma z) - RtoC 2 * (RtoC (- (mixed b * (freq n z * freq n z) * t z)) * coefficient n rho z + RtoC (norm2 b) * (RtoC (t z) * deriv2 n rho z)))%C.
Proof.
  intros ts HG Hg Hl Sd exc b rho sigma t.
  assert (SG : tshape G = [n; 1; 1]%nat) by (unfold g_vectors in HG; exact (proj1 (vector_grid_get _ _ _ _ _ _ HG))).
  destruct (gga_full lib xt G d 1 n 1 1 (or_introl eq_refl) Hg Hl Sd SG) as (sg & v & Es & Ss & Ev & Sv & Hv).
  destruct (sigma_eq d G 1 n 1 1 SG Sd) as (sg' & Es' & H'). rewrite Es in Es'. injection Es' as <-. cbn [Nat.eqb] in H', Ss. destruct H' as [_ H'].
  assert (Hs : forall z, tget sg [0; z; 0; 0]%nat = sigma z) by (intros z; etransitivity; [apply (H' 0%nat [z; 0; 0]%nat)|exact (gprod_first A n G _ z HG)]).
  exists v. split; [exact Ev|]. split; [exact Sv|]. intros z Hz.
  rewrite (Hv 0%nat z 0%nat 0%nat Nat.lt_0_1 (inb3_intro _ _ _ _ _ _ Hz Nat.lt_0_1 Nat.lt_0_1)). unfold gga_value. cbn [Nat.eqb].
  rewrite (code_term_first A n G _ _ z HG). fold b.
  assert (Ht : forall y, line1 (gga_masked (gga_sum_at lib (split_on "+" xt)) d sg 0 0) y = t y).
  { intros y. unfold line1, gga_masked, gga_weight, where_pos, t, line_weight. rewrite Hs. destruct (Rlt_dec 0 (sigma y)); [|reflexivity]. unfold dexc_dsigma.
    rewrite (column_unpol d [n; 1; 1]%nat _ Sd), (column_unpol sg [n; 1; 1]%nat _ Ss), Hs. cbn [upd nth]. apply Rmult_comm. }
  rewrite Ht.
  assert (Hr : line1 (fun y => tget d (0%nat :: y)) = rho) by reflexivity. rewrite Hr.
  unfold gga_local. rewrite (column_unpol d [n; 1; 1]%nat _ Sd), (column_unpol sg [n; 1; 1]%nat _ Ss), Hs. unfold dexc_drho. cbn [upd nth]. fold ts. fold exc. change (tget d [0%nat; z; 0%nat; 0%nat]) with (rho z).
  fold (line_local exc rho sigma z). set (L := RtoC (line_local exc rho sigma z)). ring.
Qed.

(** *** three points *)
Lemma freq3 : freq 3 0 = 0 /\ freq 3 1 = 1 /\ freq 3 2 = -1.
Proof. repeat split. Qed.
Lemma deriv1_3 f : deriv1 3 f 0 = RtoC ((f 1%nat - f 2%nat) * (sqrt 3 / 3)) /\ deriv1 3 f 1 = RtoC ((f 2%nat - f 0%nat) * (sqrt 3 / 3)) /\ deriv1 3 f 2 = RtoC ((f 0%nat - f 1%nat) * (sqrt 3 / 3)).
Proof.
  unfold deriv1. destruct (synthesis3 (fun k => Ci * RtoC (freq 3 k) * coefficient 3 f k)%C) as (-> & -> & ->). destruct freq3 as (-> & -> & ->). destruct (coefficient3 f) as (-> & -> & ->).
  pose proof sqrt3_sq as Q. unfold w3, Cconj, RtoC, Cmult, Cplus, Ci. cbn [fst snd]. set (q := sqrt 3) in *. repeat split; f_equal; try field; field_simplify; replace (q ^ 2) with 3 by (rewrite <- Q; ring); field.
Qed.
Lemma deriv2_3 f : deriv2 3 f 0 = RtoC (- (2 * f 0%nat - f 1%nat - f 2%nat) / 3).
Proof.
  unfold deriv2. destruct (synthesis3 (fun k => RtoC (- (freq 3 k * freq 3 k)) * coefficient 3 f k)%C) as (-> & _). destruct freq3 as (-> & -> & ->). destruct (coefficient3 f) as (-> & -> & ->).
  unfold w3, Cconj, RtoC, Cmult, Cplus. cbn [fst snd]. set (q := sqrt 3). f_equal; field.
Qed.

(** *** where it is wrong *)
(** A functional whose energy per particle is the squared gradient. *)
Definition sig_lib : xclib := fun _ _ => Some (fun _ sg => nth 0 sg 0).
Definition pbe : string := "gga_x_pbe".
Lemma sig_at r s : gga_sum_at sig_lib (split_on "+" pbe) [r] [s] = s.
Proof. unfold gga_sum_at, pbe. cbn. apply Rplus_0_r. Qed.
Lemma sig_known : forall t b, In t (split_on "+" pbe) -> sig_lib t b <> None. Proof. discriminate. Qed.

Lemma sig_energy A G (d : tensor R) vol n1 n2 n3 : let ns := [n1; n2; n3] in g_vectors A ns = Ok G -> tshape d = 1%nat :: ns ->
  e_xc (xc_density_full sig_lib) d G vol pbe false = Ok (vol / INR (nprod ns) * sumR (indices ns) (fun x => gprod ns G (fun y => tget d (0%nat :: y)) (fun y => tget d (0%nat :: y)) x * tget d (0%nat :: x))).
Proof.
  intros ns HG Sd. assert (SG : tshape G = ns) by (unfold g_vectors in HG; exact (proj1 (vector_grid_get _ _ _ _ _ _ HG))).
  destruct (sigma_eq d G 1 n1 n2 n3 SG Sd) as (sg & Es & Ss & Hs).
  assert (E : xc_density_full sig_lib d G false pbe = Ok (tmap RtoC (mkT ns (fun x => tget sg (0%nat :: x) + 0)))).
  { unfold xc_density_full, xc_density. change (contains "gga" pbe) with true. cbn iota. rewrite Es. cbn [bind]. change (split_on "+" pbe) with [pbe].
    unfold gga_sum. cbn [mapM]. unfold gga. rewrite Sd, Ss. change (pick sig_lib pbe (1 =? 2)%nat) with (Some (fun (_ : list R) sg => nth 0 sg 0)). cbn [Nat.eqb orb].
    destruct (list_eq_dec Nat.eq_dec _ _) as [_|N]; [|exfalso; apply N; reflexivity]. cbn [bind rmap tl]. unfold tmap, sum_grids. cbn [tshape tget sumR]. unfold gga_at, column. rewrite ?Ss, ?Sd. cbn [hd seq map andb nth]. reflexivity. }
  rewrite (e_xc_real _ d G vol pbe false 1 n1 n2 n3 _ ns Sd eq_refl E). f_equal. f_equal. apply sumR_ext. intros x _. cbn [seq sumR]. rewrite (Hs 0%nat x). fold ns. ring.
Qed.

Definition turned : m3 := M3 (V3 0 1 0) (V3 0 0 1) (V3 1 0 0).
Lemma recip_id : reciprocal_vectors m3id = m3scale (2 * PI) m3id.
Proof. unfold reciprocal_vectors. lin3; field. Qed.
Lemma recip_turned : reciprocal_vectors turned = m3scale (2 * PI) turned.
Proof. unfold reciprocal_vectors, turned. lin3; field. Qed.

Definition line_dens (a b c : R) : tensor R := mkT [1; 1; 1; 3]%nat (fun i => nth (nth 3 i 0%nat) [a; b; c] 0).
Definition column_dens (a b c : R) : tensor R := mkT [1; 3; 1; 1]%nat (fun i => nth (nth 1 i 0%nat) [a; b; c] 0).

Lemma norm2_recip_id : norm2 (m2 (reciprocal_vectors m3id)) = 4 * (PI * PI) /\ norm2 (m0 (reciprocal_vectors m3id)) = 4 * (PI * PI) /\ mixed (m2 (reciprocal_vectors m3id)) = 0 /\ mixed (m0 (reciprocal_vectors m3id)) = 4 * (PI * PI) / 3.
Proof. rewrite recip_id. unfold mixed. lin3_unf. cbn [m0 m2 vx vy vz]. repeat split; field. Qed.
Lemma norm2_recip_turned : norm2 (m2 (reciprocal_vectors turned)) = 4 * (PI * PI) /\ mixed (m2 (reciprocal_vectors turned)) = 4 * (PI * PI) / 3.
Proof. rewrite recip_turned. unfold mixed, turned. lin3_unf. cbn [m0 m2 vx vy vz]. repeat split; field. Qed.

Lemma Cnorm2_RtoC r : Cnorm2 (RtoC r) = r * r. Proof. unfold Cnorm2, RtoC. cbn. ring. Qed.
Lemma sq3 : sqrt 3 / 3 * (sqrt 3 / 3) = / 3. Proof. pose proof sqrt3_sq. set (q := sqrt 3) in *. replace (q / 3 * (q / 3)) with (q * q / 9) by field. rewrite H. field. Qed.
Lemma sq3' a : a * (sqrt 3 / 3) * (a * (sqrt 3 / 3)) = a * a / 3.
Proof. transitivity (a * a * (sqrt 3 / 3 * (sqrt 3 / 3))); [ring|]. rewrite sq3. field. Qed.

(** The energy of three values along the last axis, for either cell. *)
Lemma line_energy A G a b c : norm2 (m2 (reciprocal_vectors A)) = 4 * (PI * PI) -> g_vectors A [1; 1; 3]%nat = Ok G ->
  e_xc (xc_density_full sig_lib) (line_dens a b c) G 1 pbe false = Ok (4 * (PI * PI) / 9 * (a * (b - c) ^ 2 + b * (c - a) ^ 2 + c * (a - b) ^ 2)).
Proof.
  intros HN HG. rewrite (sig_energy A G (line_dens a b c) 1 1 1 3 HG eq_refl). f_equal. cbn [indices flat_map map seq app sumR].
  rewrite !(gprod_last A 3 G _ _ HG), HN. destruct (deriv1_3 (line3 (fun y => tget (line_dens a b c) (0%nat :: y)))) as (-> & -> & ->). rewrite !Cnorm2_RtoC, !sq3'.
  unfold line3. cbn [line_dens tget nth]. replace (INR (nprod [1; 1; 3]%nat)) with 3 by (cbn; ring). field.
Qed.

Lemma tget_line a b c : tget (line_dens a b c) [0; 0; 0; 0]%nat = a /\ tget (line_dens a b c) [0; 0; 0; 1]%nat = b /\ tget (line_dens a b c) [0; 0; 0; 2]%nat = c.
Proof. repeat split. Qed.

Lemma line_local_sig (rho sigma : nat -> R) z : line_local (gga_sum_at sig_lib (split_on "+" pbe)) rho sigma z = sigma z.
Proof. unfold line_local. rewrite sig_at. rewrite (Derive_ext _ (fun _ => sigma z)) by (intros; apply sig_at). rewrite Derive_const. ring. Qed.
Lemma line_weight_sig (rho sigma : nat -> R) z : 0 < sigma z -> line_weight (gga_sum_at sig_lib (split_on "+" pbe)) rho sigma z = rho z.
Proof. intros H. unfold line_weight. destruct (Rlt_dec 0 (sigma z)) as [_|N]; [|contradiction]. rewrite (Derive_ext _ (fun s => s)) by (intros; apply sig_at). rewrite Derive_id. ring. Qed.

Lemma PI2_pos : 0 < 4 * (PI * PI). Proof. pose proof PI_RGT_0. nra. Qed.

(** The potential at the first of the three values 3, 2, 1. *)
Lemma line_potential A G : norm2 (m2 (reciprocal_vectors A)) = 4 * (PI * PI) -> g_vectors A [1; 1; 3]%nat = Ok G ->
  exists v, xc_density_full sig_lib (line_dens 3 2 1) G true pbe = Ok v /\ tshape v = [1; 1; 1; 3]%nat /\
    tget v [0; 0; 0; 0]%nat = RtoC (4 * (PI * PI) * 19 / 3 - 2 * mixed (m2 (reciprocal_vectors A)) / 3).
Proof.
  intros HN HG. destruct (gga_last_axis sig_lib pbe A G (line_dens 3 2 1) 3 HG eq_refl sig_known eq_refl) as (v & Ev & Sv & Hv). cbv zeta in Hv.
  exists v. split; [exact Ev|]. split; [exact Sv|]. rewrite (Hv 0%nat ltac:(lia)). rewrite line_local_sig. rewrite HN in *. clear Hv.
  set (rho := fun z => tget (line_dens 3 2 1) [0%nat; 0%nat; 0%nat; z]). destruct (deriv1_3 rho) as (D0 & D1 & D2).
  set (sigma := fun z => 4 * (PI * PI) * Cnorm2 (deriv1 3 rho z)). pose proof PI2_pos as P.
  assert (S0 : sigma 0%nat = 4 * (PI * PI) / 3) by (unfold sigma; rewrite D0, Cnorm2_RtoC, sq3'; unfold rho; cbn [line_dens tget nth]; field).
  assert (S1 : sigma 1%nat = 4 * (PI * PI) * 4 / 3) by (unfold sigma; rewrite D1, Cnorm2_RtoC, sq3'; unfold rho; cbn [line_dens tget nth]; field).
  assert (S2 : sigma 2%nat = 4 * (PI * PI) / 3) by (unfold sigma; rewrite D2, Cnorm2_RtoC, sq3'; unfold rho; cbn [line_dens tget nth]; field).
  assert (W : forall y, (y < 3)%nat -> line_weight (gga_sum_at sig_lib (split_on "+" pbe)) rho sigma y = rho y).
  { intros y Hy. apply line_weight_sig. destruct y as [|[|[|y]]]; [rewrite S0|rewrite S1|rewrite S2|lia]; lra. }
  rewrite (deriv1_ext 3 _ rho 0 W), (W 0%nat ltac:(lia)). change (4 * (PI * PI) * Cnorm2 (deriv1 3 rho 0)) with (sigma 0%nat). rewrite S0, D0, deriv2_3.
  rewrite <- !RtoC_mult, <- RtoC_plus, <- RtoC_mult, <- RtoC_minus. f_equal. rewrite sq3'. unfold rho. cbn [line_dens tget nth]. field.
Qed.

Lemma gga_derivative_wrong : exists (lib : xclib) (xt : string) (A : m3) (G : tensor v3) (d e : tensor R) (v : tensor C) (E : R -> R) (l : R),
  m3det A <> 0 /\ g_vectors A [1; 1; 3]%nat = Ok G /\ tshape d = [1; 1; 1; 3]%nat /\ tshape e = [1; 1; 1; 3]%nat /\
  xc_density_full lib d G true xt = Ok v /\ tshape v = [1; 1; 1; 3]%nat /\
  (forall t, e_xc (xc_density_full lib) (mkT [1; 1; 1; 3]%nat (fun i => tget d i + t * tget e i)) G 1 xt false = Ok (E t)) /\
  is_derive E 0 l /\ l <> 1 / 3 * sumR (indices [1; 1; 3]%nat) (fun x => Re (tget v (0%nat :: x)) * tget e (0%nat :: x)).
Proof.
  destruct (proj2 (g_vectors_ok m3id 1 1 3)) as (G & HG); [lia|]. destruct norm2_recip_id as (HN & _ & HM & _).
  destruct (line_potential m3id G HN HG) as (v & Ev & Sv & Hv). rewrite HM in Hv.
  exists sig_lib, pbe, m3id, G, (line_dens 3 2 1), (line_dens 1 0 0), v, (fun t => 4 * (PI * PI) / 9 * ((3 + t) * (2 - 1) ^ 2 + 2 * (1 - (3 + t)) ^ 2 + 1 * ((3 + t) - 2) ^ 2)), (4 * (PI * PI) / 9 * 11).
  split; [rewrite m3det_id; lra|]. split; [exact HG|]. split; [reflexivity|]. split; [reflexivity|]. split; [exact Ev|]. split; [exact Sv|]. split; [|split].
  - intros t. rewrite <- (line_energy m3id G (3 + t) 2 1 HN HG). 
    rewrite (sig_energy m3id G (line_dens (3 + t) 2 1) 1 1 1 3 HG eq_refl).
    rewrite (sig_energy m3id G (mkT [1; 1; 1; 3]%nat (fun i => tget (line_dens 3 2 1) i + t * tget (line_dens 1 0 0) i)) 1 1 1 3 HG eq_refl).
    assert (K : forall y, inb y [1; 1; 3]%nat -> tget (mkT [1; 1; 1; 3]%nat (fun i => tget (line_dens 3 2 1) i + t * tget (line_dens 1 0 0) i)) (0%nat :: y) = tget (line_dens (3 + t) 2 1) (0%nat :: y)).
    { intros y Hy. destruct (inb3 _ _ _ _ Hy) as (a & b & c & -> & Ha & Hb & Hc). destruct a; [|lia]. destruct b; [|lia]. cbn [line_dens tget nth]. destruct c as [|[|[|c]]]; [| | |lia]; cbn [nth]; ring. }
    f_equal. f_equal. apply sumR_ext. intros x Hx. apply in_indices in Hx. rewrite (K x Hx). f_equal. apply gprod_ext; exact K.
  - auto_derive; [exact I|]. field.
  - cbn [indices flat_map map seq app sumR]. rewrite Hv. destruct (tget_line 1 0 0) as (-> & -> & ->). change (Re (RtoC ?r)) with r. pose proof PI2_pos. unfold Re. cbn [fst RtoC]. lra.
Qed.

Lemma gga_rotation_wrong : exists (lib : xclib) (xt : string) (A A' : m3) (G G' : tensor v3) (d : tensor R) (v v' : tensor C) (E : R),
  m3det A <> 0 /\ m3mul A' (m3t A') = m3mul A (m3t A) /\ m3det A' = m3det A /\
  g_vectors A [1; 1; 3]%nat = Ok G /\ g_vectors A' [1; 1; 3]%nat = Ok G' /\ tshape d = [1; 1; 1; 3]%nat /\
  e_xc (xc_density_full lib) d G 1 xt false = Ok E /\ e_xc (xc_density_full lib) d G' 1 xt false = Ok E /\
  xc_density_full lib d G true xt = Ok v /\ xc_density_full lib d G' true xt = Ok v' /\ tget v [0; 0; 0; 0]%nat <> tget v' [0; 0; 0; 0]%nat.
Proof.
  destruct (proj2 (g_vectors_ok m3id 1 1 3)) as (G & HG); [lia|]. destruct (proj2 (g_vectors_ok turned 1 1 3)) as (G' & HG'); [lia|].
  destruct norm2_recip_id as (HN & _ & HM & _). destruct norm2_recip_turned as (HN' & HM').
  destruct (line_potential m3id G HN HG) as (v & Ev & _ & Hv). destruct (line_potential turned G' HN' HG') as (v' & Ev' & _ & Hv'). rewrite HM in Hv. rewrite HM' in Hv'.
  exists sig_lib, pbe, m3id, turned, G, G', (line_dens 3 2 1), v, v', (4 * (PI * PI) / 9 * (3 * (2 - 1) ^ 2 + 2 * (1 - 3) ^ 2 + 1 * (3 - 2) ^ 2)).
  split; [rewrite m3det_id; lra|]. split; [unfold turned; lin3; ring|]. split; [unfold turned; lin3; ring|]. split; [exact HG|]. split; [exact HG'|]. split; [reflexivity|].
  split; [apply line_energy with (A := m3id); assumption|]. split; [apply line_energy with (A := turned); assumption|]. split; [exact Ev|]. split; [exact Ev'|].
  rewrite Hv, Hv'. intros Q. apply RtoC_inj in Q. pose proof PI2_pos. lra.
Qed.

Lemma gga_real_wrong : exists (lib : xclib) (xt : string) (A : m3) (G : tensor v3) (d : tensor R) (v : tensor C),
  m3det A <> 0 /\ g_vectors A [3; 1; 1]%nat = Ok G /\ tshape d = [1; 3; 1; 1]%nat /\ xc_density_full lib d G true xt = Ok v /\ tshape v = [1; 3; 1; 1]%nat /\ Im (tget v [0; 1; 0; 0]%nat) <> 0.
Proof.
  destruct (proj2 (g_vectors_ok m3id 3 1 1)) as (G & HG); [lia|]. destruct norm2_recip_id as (_ & HN & _ & HM).
  destruct (gga_first_axis sig_lib pbe m3id G (column_dens 3 2 1) 3 HG eq_refl sig_known eq_refl) as (v & Ev & Sv & Hv). cbv zeta in Hv.
  exists sig_lib, pbe, m3id, G, (column_dens 3 2 1), v. split; [rewrite m3det_id; lra|]. split; [exact HG|]. split; [reflexivity|]. split; [exact Ev|]. split; [exact Sv|].
  rewrite (Hv 1%nat ltac:(lia)). rewrite line_local_sig. rewrite HN, HM in *. clear Hv.
  set (rho := fun z => tget (column_dens 3 2 1) [0%nat; z; 0%nat; 0%nat]). destruct (deriv1_3 rho) as (D0 & D1 & D2).
  set (sigma := fun z => 4 * (PI * PI) * Cnorm2 (deriv1 3 rho z)). pose proof PI2_pos as P.
  assert (S1 : sigma 1%nat = 4 * (PI * PI) * 4 / 3) by (unfold sigma; rewrite D1, Cnorm2_RtoC, sq3'; unfold rho; cbn [column_dens tget nth]; field).
  rewrite line_weight_sig by (rewrite S1; lra). destruct freq3 as (_ & -> & _). destruct (coefficient3 rho) as (_ & -> & _).
  assert (D : Im (deriv2 3 rho 1) = 0).
  { unfold deriv2. destruct (synthesis3 (fun k => RtoC (- (freq 3 k * freq 3 k)) * coefficient 3 rho k)%C) as (_ & -> & _). destruct freq3 as (-> & -> & ->). destruct (coefficient3 rho) as (-> & -> & ->).
    unfold w3, Cconj, RtoC, Cmult, Cplus, Im. cbn [fst snd]. set (q := sqrt 3). field. }
  destruct (deriv2 3 rho 1) as [p q]. cbn [Im snd] in D. rewrite D. change (4 * (PI * PI) * Cnorm2 (deriv1 3 rho 1)) with (sigma 1%nat). rewrite S1. unfold rho. cbn [column_dens tget nth]. unfold Im, w3, Cminus, Cconj, Cmult, Cplus, Copp, RtoC. cbn [fst snd].
  pose proof (sqrt_lt_R0 3 ltac:(lra)) as Q3. set (s := sqrt 3) in *. intros Z.
  assert (Z' : - (2 / 3) * (4 * (PI * PI)) * s = 0) by (rewrite <- Z; field). apply Rmult_integral in Z'. destruct Z'; lra.
Qed.
