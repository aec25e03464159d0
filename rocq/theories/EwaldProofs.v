(** Proofs about the Ewald energy. *)
From Coq Require Import Reals Lra Lia Permutation.
From Coq Require Import List Arith ZArith Bool.
From Coquelicot Require Import Complex.
From Verif Require Import Base Sums Tensor DFT GridModel Lin3 VecModel VecProofs EnergyProofs EwaldModel EwaldSpec.
Import ListNotations.
Local Open Scope R_scope.

Lemma sumR_nth {X} (l : list X) d (f : X -> R) : sumR (seq 0 (length l)) (fun i => f (nth i l d)) = sumR l f.
Proof.
  induction l as [|a l IH]; [reflexivity|]. cbn [length seq sumR nth]. f_equal. rewrite <- IH, <- seq_shift, sumR_map. reflexivity.
Qed.

Lemma Ok_inj {X} (x y : X) : Ok x = Ok y -> x = y.
Proof. congruence. Qed.
(** The kernel and the energy as a quadratic form over pairs. *)
Definition kern erfc G vol eta T (tau : v3) : R := ew_ovlp erfc eta T tau + ew_rprcl G vol eta tau.
Definition self_part (vol eta : R) (q : list R) : R :=
  - sumR q (fun x => x ^ 2) * 2 * eta / sqrt PI / 2 - sumR q (fun x => x) ^ 2 * PI / eta ^ 2 / vol / 2.

Lemma ewald_pairs erfc l G vol eta T :
  ewald_coulomb_repulsion erfc (positions l) (charges l) G vol eta T
  = Ok (pair_sum l (kern erfc G vol eta T) / 2 + self_part vol eta (charges l)).
Proof.
  unfold ewald_coulomb_repulsion, positions, charges. rewrite !map_length, Nat.eqb_refl. cbn [negb]. f_equal. f_equal. f_equal.
  unfold pair_sum. rewrite sumR_swap. rewrite <- (sumR_nth l (vzero, 0)). apply sumR_ext. intros j _.
  rewrite <- (sumR_nth l (vzero, 0)), <- sumR_scal_r. apply sumR_ext. intros i _.
  rewrite !(map_nth fst l (vzero, 0)), !(map_nth snd l (vzero, 0)). unfold kern. ring.
Qed.
Lemma ewald_mismatch erfc pos q G vol eta T : length q <> length pos -> ewald_coulomb_repulsion erfc pos q G vol eta T = Err ValueErr.
Proof. intros H. unfold ewald_coulomb_repulsion. apply Nat.eqb_neq in H. rewrite H. reflexivity. Qed.

Lemma charges_move f l : charges (move_all f l) = charges l.
Proof. unfold charges, move_all. rewrite map_map. reflexivity. Qed.
Lemma pair_sum_move l (m : v3 -> v3) f f' : (forall u w, f' (vsub (m u) (m w)) = f (vsub u w)) -> pair_sum (move_all m l) f' = pair_sum l f.
Proof.
  intros H. unfold pair_sum, move_all. rewrite sumR_map. apply sumR_ext. intros a _. rewrite sumR_map. apply sumR_ext. intros b _.
  cbn [fst snd]. rewrite H. reflexivity.
Qed.

Lemma ewald_translation erfc l G vol eta T u :
  ewald_coulomb_repulsion erfc (positions (move_all (vadd u) l)) (charges l) G vol eta T = ewald_coulomb_repulsion erfc (positions l) (charges l) G vol eta T.
Proof.
  rewrite <- (charges_move (vadd u) l) at 1. rewrite !ewald_pairs, charges_move. f_equal. f_equal. f_equal.
  apply pair_sum_move. intros a b. f_equal. lin3; ring.
Qed.

Lemma pair_sum_perm l l' f : Permutation l l' -> pair_sum l f = pair_sum l' f.
Proof.
  intros H. unfold pair_sum. rewrite (sumR_perm _ _ _ H). apply sumR_ext. intros a _. apply sumR_perm, H.
Qed.
Lemma ewald_permutation erfc l l' G vol eta T : Permutation l l' ->
  ewald_coulomb_repulsion erfc (positions l) (charges l) G vol eta T = ewald_coulomb_repulsion erfc (positions l') (charges l') G vol eta T.
Proof.
  intros H. rewrite !ewald_pairs, (pair_sum_perm l l' _ H). unfold self_part. 
  rewrite !(sumR_perm _ _ _ (Permutation_map snd H)). reflexivity.
Qed.

Lemma ewald_charge_scaling erfc pos q G vol eta T a e : ewald_coulomb_repulsion erfc pos q G vol eta T = Ok e ->
  ewald_coulomb_repulsion erfc pos (map (Rmult a) q) G vol eta T = Ok (a ^ 2 * e).
Proof.
  unfold ewald_coulomb_repulsion. rewrite map_length. destruct (negb _); [discriminate|]. intros E. apply Ok_inj in E. subst e. f_equal.
  assert (N : forall i, nth i (map (Rmult a) q) 0 = a * nth i q 0).
  { intros i. rewrite <- (map_nth (Rmult a) q 0 i). rewrite Rmult_0_r. reflexivity. }
  rewrite !sumR_map.
  rewrite (sumR_ext (seq 0 (length pos)) _ (fun j => a ^ 2 * (sumR (seq 0 (length pos)) (fun i => nth i q 0 * (ew_ovlp erfc eta T (vsub (nth j pos vzero) (nth i pos vzero)) + ew_rprcl G vol eta (vsub (nth j pos vzero) (nth i pos vzero)))) * nth j q 0))).
  - rewrite sumR_scal. rewrite (sumR_ext q (fun x => (a * x) ^ 2) (fun x => a ^ 2 * x ^ 2)) by (intros; ring). rewrite !sumR_scal. 
    unfold Rdiv. ring.
  - intros j _. rewrite N. rewrite (sumR_ext (seq 0 (length pos)) _ (fun i => a * (nth i q 0 * (ew_ovlp erfc eta T (vsub (nth j pos vzero) (nth i pos vzero)) + ew_rprcl G vol eta (vsub (nth j pos vzero) (nth i pos vzero)))))) by (intros i _; rewrite N; ring).
    rewrite sumR_scal. ring.
Qed.

(** Inversion of all atoms. *)
Lemma pair_sum_flip l f : pair_sum l f = pair_sum l (fun t => f (vneg t)).
Proof.
  unfold pair_sum. rewrite sumR_swap. apply sumR_ext. intros a _. apply sumR_ext. intros b _.
  replace (vneg (vsub (fst b) (fst a))) with (vsub (fst a) (fst b)) by (lin3; ring). ring.
Qed.
Lemma ewald_inversion erfc l G vol eta T :
  ewald_coulomb_repulsion erfc (positions (move_all vneg l)) (charges l) G vol eta T = ewald_coulomb_repulsion erfc (positions l) (charges l) G vol eta T.
Proof.
  rewrite <- (charges_move vneg l) at 1. rewrite !ewald_pairs, charges_move. f_equal. f_equal. f_equal.
  rewrite (pair_sum_flip l). apply pair_sum_move. intros a b. f_equal. lin3; ring.
Qed.

(** Rotating everything. *)
Lemma dot_orth Q u v : orthogonal Q -> dot (vmul u Q) (vmul v Q) = dot u v.
Proof. intros H. rewrite dot_vmul_t, vmul_assoc, H, vmul_id. reflexivity. Qed.
Lemma ewald_rotation erfc l G vol eta T Q : orthogonal Q ->
  ewald_coulomb_repulsion erfc (positions (move_all (fun p => vmul p Q) l)) (charges l) (tmap (fun g => vmul g Q) G) vol eta (map (fun t => vmul t Q) T)
  = ewald_coulomb_repulsion erfc (positions l) (charges l) G vol eta T.
Proof.
  intros HQ. rewrite <- (charges_move (fun p => vmul p Q) l) at 1. rewrite !ewald_pairs, charges_move. f_equal. f_equal. f_equal.
  assert (L : forall u w, vsub (vmul u Q) (vmul w Q) = vmul (vsub u w) Q) by (intros; lin3; ring).
  apply pair_sum_move. intros u w. rewrite L. unfold kern. f_equal.
  - unfold ew_ovlp. rewrite sumR_map. apply sumR_ext. intros t _. rewrite L. unfold guarded_norm, norm2. rewrite dot_orth by exact HQ. reflexivity.
  - unfold ew_rprcl. cbn [tmap tshape tget]. f_equal. f_equal. f_equal. apply sumR_ext. intros i _. unfold norm2. rewrite !dot_orth by exact HQ. reflexivity.
Qed.

(** ** Moving one atom by a lattice vector *)
Lemma recip_lattice A n1 n2 n3 G vol eta tau z1 z2 z3 : m3det A <> 0 -> g_vectors A [n1; n2; n3] = Ok G ->
  ew_rprcl G vol eta (vadd tau (vmul (V3 (IZR z1) (IZR z2) (IZR z3)) A)) = ew_rprcl G vol eta tau.
Proof.
  intros HA HG. destruct (g_vectors_dual A n1 n2 n3 G HA HG) as (SG & _ & _ & D).
  unfold ew_rprcl. f_equal. f_equal. f_equal. apply sumR_ext. intros i Hi. apply in_indices in Hi. rewrite SG in Hi. f_equal.
  destruct (is_origin i); [reflexivity|].
  destruct (inb3 _ _ _ _ Hi) as (i1 & i2 & i3 & -> & H1 & H2 & H3). destruct (D i1 i2 i3 H1 H2 H3) as (D1 & D2 & D3).
  rewrite dot_add_r. set (g := tget G [i1; i2; i3]) in *.
  assert (E : dot g (vmul (V3 (IZR z1) (IZR z2) (IZR z3)) A) = 2 * PI * IZR (z1 * fftfreq (Z.of_nat n1) (Z.of_nat i1) + z2 * fftfreq (Z.of_nat n2) (Z.of_nat i2) + z3 * fftfreq (Z.of_nat n3) (Z.of_nat i3))).
  { unfold vmul. rewrite !dot_add_r, !dot_scale_r, D1, D2, D3. cbn [vx vy vz]. rewrite !plus_IZR, !mult_IZR. ring. }
  rewrite E. set (Z := (_ + _)%Z). pose proof (cis_period (dot g tau) Z) as P. apply (f_equal Re) in P. exact P.
Qed.

Lemma pair_sum_app1 a l f : pair_sum (a :: l) f = snd a * snd a * f (vsub (fst a) (fst a)) + sumR l (fun b => snd a * snd b * (f (vsub (fst b) (fst a)) + f (vsub (fst a) (fst b)))) + pair_sum l f.
Proof.
  unfold pair_sum. cbn [sumR]. rewrite sumR_plus.
  rewrite (sumR_ext l (fun b => snd a * snd b * (_ + _)) (fun b => snd a * snd b * f (vsub (fst b) (fst a)) + snd b * snd a * f (vsub (fst a) (fst b)))) by (intros; ring).
  rewrite sumR_plus. ring.
Qed.
(** The energy changes only by the truncated real-space sums of the moved atom. *)
Lemma ewald_move_one erfc r r' q l G vol eta T A n1 n2 n3 z1 z2 z3 e : m3det A <> 0 -> g_vectors A [n1; n2; n3] = Ok G ->
  r' = vadd r (vmul (V3 (IZR z1) (IZR z2) (IZR z3)) A) ->
  ewald_coulomb_repulsion erfc (positions ((r, q) :: l)) (charges ((r, q) :: l)) G vol eta T = Ok e ->
  ewald_coulomb_repulsion erfc (positions ((r', q) :: l)) (charges ((r', q) :: l)) G vol eta T =
   Ok (e + sumR l (fun b => q * snd b * ((ew_ovlp erfc eta T (vsub (fst b) r') - ew_ovlp erfc eta T (vsub (fst b) r)) + (ew_ovlp erfc eta T (vsub r' (fst b)) - ew_ovlp erfc eta T (vsub r (fst b))))) / 2).
Proof.
  intros HA HG Hr. rewrite !ewald_pairs. intros E. apply Ok_inj in E. subst e. f_equal. cbn [charges map snd]. rewrite !pair_sum_app1. cbn [fst snd].
  assert (Z : vsub r' r' = vsub r r) by (subst; lin3; ring). rewrite Z.
  rewrite (sumR_ext l (fun b => q * snd b * (kern erfc G vol eta T (vsub (fst b) r') + kern erfc G vol eta T (vsub r' (fst b))))
     (fun b => q * snd b * (kern erfc G vol eta T (vsub (fst b) r) + kern erfc G vol eta T (vsub r (fst b))) +
               q * snd b * ((ew_ovlp erfc eta T (vsub (fst b) r') - ew_ovlp erfc eta T (vsub (fst b) r)) + (ew_ovlp erfc eta T (vsub r' (fst b)) - ew_ovlp erfc eta T (vsub r (fst b)))))).
  - rewrite sumR_plus. field.
  - intros b _. unfold kern.
    replace (vsub (fst b) r') with (vadd (vsub (fst b) r) (vmul (V3 (IZR (- z1)) (IZR (- z2)) (IZR (- z3))) A)) by (subst; rewrite !opp_IZR; lin3; ring).
    replace (vsub r' (fst b)) with (vadd (vsub r (fst b)) (vmul (V3 (IZR z1) (IZR z2) (IZR z3)) A)) by (subst; lin3; ring).
    rewrite !(recip_lattice A n1 n2 n3 G vol eta _ _ _ _ HA HG). ring.
Qed.

(** ** The truncated real-space sum *)
Lemma ovlp_shift erfc eta T tau u : ew_ovlp erfc eta T (vadd tau u) = ew_ovlp erfc eta (map (fun t => vsub t u) T) tau.
Proof.
  unfold ew_ovlp. rewrite sumR_map. apply sumR_ext. intros t _. replace (vsub (vadd tau u) t) with (vsub tau (vsub t u)) by (lin3; ring). reflexivity.
Qed.
Lemma ovlp_app erfc eta T T' tau : ew_ovlp erfc eta (T ++ T') tau = ew_ovlp erfc eta T tau + ew_ovlp erfc eta T' tau.
Proof. apply sumR_app. Qed.
Lemma ovlp_perm erfc eta T T' tau : Permutation T T' -> ew_ovlp erfc eta T tau = ew_ovlp erfc eta T' tau.
Proof. apply sumR_perm. Qed.
Lemma ovlp_bound erfc eta T tau eps : (forall t, In t T -> Rabs (erfc (eta * guarded_norm (vsub tau t)) / guarded_norm (vsub tau t)) <= eps) ->
  Rabs (ew_ovlp erfc eta T tau) <= INR (length T) * eps.
Proof.
  intros H. unfold ew_ovlp. induction T as [|t T IH].
  - cbn. rewrite Rabs_R0. lra.
  - cbn [sumR length]. rewrite S_INR. eapply Rle_trans; [apply Rabs_triang|]. pose proof (H t (or_introl eq_refl)) as H1. cbv zeta in H1 |- *.
    assert (H2 := IH (fun t' h => H t' (or_intror h))). cbv zeta in H2. lra.
Qed.
Lemma ovlp_move_bound erfc eta T u C D D' tau eps : Permutation T (C ++ D) -> Permutation (map (fun t => vsub t u) T) (C ++ D') ->
  (forall t, In t (D ++ D') -> Rabs (erfc (eta * guarded_norm (vsub tau t)) / guarded_norm (vsub tau t)) <= eps) ->
  Rabs (ew_ovlp erfc eta T (vadd tau u) - ew_ovlp erfc eta T tau) <= INR (length D + length D') * eps.
Proof.
  intros H1 H2 Hb. rewrite ovlp_shift, (ovlp_perm _ _ _ _ _ H1), (ovlp_perm _ _ _ _ _ H2), !ovlp_app.
  pose proof (ovlp_bound erfc eta D tau eps (fun t h => Hb t (in_or_app _ _ _ (or_introl h)))) as B1.
  pose proof (ovlp_bound erfc eta D' tau eps (fun t h => Hb t (in_or_app _ _ _ (or_intror h)))) as B2.
  rewrite plus_INR. replace (_ + _ - _) with (ew_ovlp erfc eta D' tau + - ew_ovlp erfc eta D tau) by ring.
  eapply Rle_trans; [apply Rabs_triang|]. rewrite Rabs_Ropp. lra.
Qed.

Lemma pow10_inv_pos n : 0 < / 10 ^ n.
Proof. apply Rinv_0_lt_compat, pow_lt. lra. Qed.
Lemma guarded_pos v : 0 < guarded_norm v.
Proof.
  unfold guarded_norm. destruct (Rle_dec _ _) as [_|N]; [apply pow_lt; lra|].
  apply Rnot_le_lt in N. pose proof (pow10_inv_pos 9). lra.
Qed.
Lemma guarded_far v : / 100 <= norm2 v -> guarded_norm v = sqrt (norm2 v + / 10 ^ 20).
Proof.
  intros H. unfold guarded_norm. destruct (Rle_dec _ _) as [L|_]; [|reflexivity]. exfalso.
  assert (Q : sqrt (/ 100) < sqrt (norm2 v + / 10 ^ 20)) by (apply sqrt_lt_1; pose proof (pow10_inv_pos 20); lra).
  replace (/ 100) with ((/ 10) * (/ 10)) in Q by field. rewrite sqrt_square in Q by lra.
  assert (/ 10 ^ 9 <= / 10). { apply Rinv_le_contravar; [lra|]. replace 10 with (10 ^ 1) at 1 by ring. apply Rle_pow; [lra|lia]. }
  lra.
Qed.
Lemma guarded_mono v w : / 100 <= norm2 v -> norm2 v < norm2 w -> guarded_norm v < guarded_norm w.
Proof. intros Hv Hw. rewrite !guarded_far by lra. apply sqrt_lt_1; pose proof (pow10_inv_pos 20); lra. Qed.
Lemma guarded_neg v : guarded_norm (vneg v) = guarded_norm v.
Proof. unfold guarded_norm. rewrite norm2_neg. reflexivity. Qed.

Lemma move_one_changes (erfc : R -> R) eta vol G q : (forall x, 0 < erfc x) -> (forall x y, 0 < x < y -> erfc y < erfc x) -> 0 < eta -> 0 < q -> g_vectors m3id [2; 2; 2]%nat = Ok G ->
  exists r r' b e e', r' = vadd r (m0 m3id) /\ 
    ewald_coulomb_repulsion erfc [r; b] [q; q] G vol eta [vzero] = Ok e /\ ewald_coulomb_repulsion erfc [r'; b] [q; q] G vol eta [vzero] = Ok e' /\ e' < e.
Proof.
  intros Hp Hm He Hq HG. set (r := vzero). set (r' := V3 1 0 0). set (b := V3 (/ 4) 0 0).
  assert (HA : m3det m3id <> 0) by (rewrite m3det_id; lra).
  assert (Hr : r' = vadd r (vmul (V3 (IZR 1) (IZR 0) (IZR 0)) m3id)) by (unfold r, r'; lin3; ring).
  assert (E0 := ewald_pairs erfc [(r, q); (b, q)] G vol eta [vzero]).
  exists r, r', b. eexists. eexists. split; [unfold r, r'; lin3; ring|]. split; [exact E0|]. 
  split; [exact (ewald_move_one erfc r r' q [(b, q)] G vol eta [vzero] m3id 2 2 2 1 0 0 _ HA HG Hr E0)|].
  cbn [sumR snd fst]. unfold ew_ovlp. cbn [sumR].
  replace (vsub (vsub b r') vzero) with (vneg (vsub (vsub r' b) vzero)) by (lin3; ring).
  replace (vsub (vsub r b) vzero) with (vneg (vsub (vsub b r) vzero)) by (lin3; ring). rewrite !guarded_neg.
  set (d' := guarded_norm (vsub (vsub r' b) vzero)). set (d := guarded_norm (vsub (vsub b r) vzero)).
  assert (Hd : 0 < d) by apply guarded_pos.
  assert (Hdd : d < d').
  { apply guarded_mono; unfold r, r', b, norm2, dot, vsub, vzero; cbn [vx vy vz]; lra. }
  assert (F : erfc (eta * d') / d' < erfc (eta * d) / d).
  { apply Rlt_trans with (erfc (eta * d') / d).
    - unfold Rdiv. apply Rmult_lt_compat_l; [apply Hp|]. apply Rinv_lt_contravar; [nra|exact Hdd].
    - unfold Rdiv. apply Rmult_lt_compat_r; [apply Rinv_0_lt_compat, Hd|]. apply Hm. nra. }
  cbv zeta. set (f := erfc (eta * d) / d) in *. set (f' := erfc (eta * d') / d') in *.
  assert (0 < q * q * (f - f')) by (apply Rmult_lt_0_compat; nra). lra.
Qed.

Lemma nuclear_raises erfc pos q A G vol eta cutoff : raises (nuclear_repulsion erfc pos q A G vol eta cutoff) <->
  raises (translation_vectors A cutoff) \/ length q <> length pos.
Proof.
  unfold nuclear_repulsion. destruct (translation_vectors A cutoff) as [T|x]; cbn [bind].
  - unfold ewald_coulomb_repulsion. destruct (Nat.eqb_spec (length q) (length pos)) as [E|E]; cbn [negb]; unfold raises; split; intros H; try (destruct H; discriminate).
    + destruct H as [[? H]|H]; [discriminate|contradiction].
    + right. exact E.
    + eexists. reflexivity.
  - unfold raises. split; intros H; [left; eexists; reflexivity|eexists; reflexivity].
Qed.
