(** Supercells. *)
From Coq Require Import Reals Lra Lia.
From Coquelicot Require Import Coquelicot.
From Coq Require Import Ascii String List Arith ZArith Bool FunctionalExtensionality.
From Verif Require Import Base Sums Tensor DFT GridModel GridProofs PadModel PadProofs Lin3 VecModel VecProofs OccModel PwModel PwSpec PwProofs BraketModel XcModel XcSpec EnergyModel EnergySpec EnergyProofs ExtProofs TotalProofs RespProofs XcProofs XcProofs2 XcProofs3 SpinSpec SpinProofs SupSpec.
Import ListNotations.
Local Open Scope R_scope.

(** ** Sums over the large grid *)
Lemma sumC_blocks m n (f : nat -> C) : sumC (seq 0 (m * n)) f = sumC (seq 0 n) (fun g => sumC (seq 0 m) (fun t => f (m * g + t)%nat)).
Proof.
  induction n as [|n IH]; [rewrite Nat.mul_0_r; reflexivity|]. rewrite sumC_seq_S, <- IH. replace (m * S n)%nat with (m * n + m)%nat by lia.
  rewrite seq_app, sumC_app. f_equal. rewrite Nat.add_0_l. clear IH. generalize (m * n)%nat as a. intros a.
  transitivity (sumC (map (fun t => (a + t)%nat) (seq 0 m)) f); [|apply sumC_map]. f_equal. clear f.
  assert (E : forall b, seq (a + b) m = map (fun t => (a + t)%nat) (seq b m)); [|rewrite <- (E 0%nat), Nat.add_0_r; reflexivity].
  induction m as [|m IH]; intros b; [reflexivity|]. cbn [seq map]. f_equal. rewrite <- IH. f_equal. lia.
Qed.
Lemma sumR_blocks m n (f : nat -> R) : sumR (seq 0 (m * n)) f = sumR (seq 0 n) (fun g => sumR (seq 0 m) (fun t => f (m * g + t)%nat)).
Proof.
  apply RtoC_inj. rewrite <- !sumC_RtoC, sumC_blocks. apply sumC_ext. intros g _. apply sumC_RtoC.
Qed.
Lemma sumC_place ms ns (F : list nat -> C) : length ms = length ns ->
  sumC (indices (times ms ns)) F = sumC (indices ns) (fun g => sumC (indices ms) (fun t => F (place ms g t))).
Proof.
  revert ns F. induction ms as [|m ms IH]; intros [|n ns] F Hl; try discriminate.
  - cbn. ring.
  - injection Hl as Hl. cbn [times]. rewrite !sumC_indices_cons, sumC_blocks. apply sumC_ext. intros g _.
    rewrite (sumC_ext (seq 0 m) _ (fun t => sumC (indices ns) (fun g' => sumC (indices ms) (fun t' => F ((m * g + t)%nat :: place ms g' t'))))) by (intros t _; apply IH; exact Hl).
    rewrite sumC_swap. apply sumC_ext. intros g' _. rewrite sumC_indices_cons. reflexivity.
Qed.
Lemma sumR_place ms ns (F : list nat -> R) : length ms = length ns ->
  sumR (indices (times ms ns)) F = sumR (indices ns) (fun g => sumR (indices ms) (fun t => F (place ms g t))).
Proof.
  intros H. apply RtoC_inj. rewrite <- !sumC_RtoC, sumC_place by exact H. apply sumC_ext. intros g _. apply sumC_RtoC.
Qed.
Lemma times_comm ms ns : times ms ns = times ns ms.
Proof. revert ns. induction ms as [|m ms IH]; intros [|n ns]; try reflexivity. cbn [times]. rewrite IH, Nat.mul_comm. reflexivity. Qed.
Lemma nprod_times ms ns : length ms = length ns -> nprod (times ms ns) = (nprod ms * nprod ns)%nat.
Proof. revert ns. induction ms as [|m ms IH]; intros [|n ns] H; try discriminate; [reflexivity|]. injection H as H. cbn [times nprod]. rewrite IH by exact H. lia. Qed.
Lemma times_length ms ns : length ms = length ns -> length (times ms ns) = length ns.
Proof. revert ns. induction ms as [|m ms IH]; intros [|n ns] H; try discriminate; [reflexivity|]. injection H as H. cbn [times length]. rewrite IH by exact H. reflexivity. Qed.
Lemma inb_place ms ns g t : inb g ns -> inb t ms -> inb (place ms g t) (times ms ns).
Proof.
  intros Hg. revert ms t. induction Hg as [|a n g ns Ha Hg IH]; intros ms t Ht; inversion Ht as [|b m t' ms' Hb Ht']; subst; cbn [place times]; constructor; [nia|apply IH; exact Ht'].
Qed.
Lemma place_inv ms ns y : length ms = length ns -> inb y (times ms ns) -> exists g t, inb g ns /\ inb t ms /\ y = place ms g t.
Proof.
  revert ns y. induction ms as [|m ms IH]; intros [|n ns] y Hl Hy; try discriminate.
  - inversion Hy; subst. exists [], []. repeat constructor.
  - injection Hl as Hl. cbn [times] in Hy. inversion Hy as [|a mn y' r Ha Hy']; subst. destruct (IH ns y' Hl Hy') as (g & t & Hg & Ht & ->).
    assert (Hm : m <> 0%nat) by (intros ->; lia).
    exists (a / m :: g)%nat, (a mod m :: t)%nat. split; [constructor; [apply Nat.div_lt_upper_bound; assumption|exact Hg]|]. split; [constructor; [apply Nat.mod_upper_bound; exact Hm|exact Ht]|].
    cbn [place]. f_equal. apply Nat.div_mod. exact Hm.
Qed.
Lemma phase_place ms ns g t j x : length ms = length ns -> inb g ns -> inb t ms -> inb j ms -> inb x ns ->
  exists k, phase (times ms ns) (zs (place ms g t)) (zs (place ns j x)) = IZR k + phase ns (zs g) (zs x) + phase ms (zs t) (zs j) + phase (times ms ns) (zs t) (zs x).
Proof.
  intros Hl Hg. revert ms t j x Hl. induction Hg as [|a n g ns Ha Hg IH]; intros ms t j x Hl Ht Hj Hx; inversion Ht as [|b m t' ms' Hb Ht']; subst; inversion Hj as [|d m' j' ms'' Hd Hj']; subst; inversion Hx as [|e n' x' ns' He Hx']; subst; try discriminate Hl.
  - exists 0%Z. cbn. ring.
  - injection Hl as Hl. destruct (IH ms' t' j' x' Hl Ht' Hj' Hx') as (k & E). exists (Z.of_nat a * Z.of_nat d + k)%Z. unfold zs in *. cbn [map place times phase]. rewrite E. clear E IH.
    rewrite plus_IZR, !mult_IZR, !mult_INR, <- !INR_IZR_INZ, !plus_INR, !mult_INR.
    assert (INR n <> 0) by (apply not_0_INR; lia). assert (INR m <> 0) by (apply not_0_INR; lia). field. split; assumption.
Qed.

Lemma zeros_mod ms t : inb t ms -> zero_mod ms (zs t) = is_origin t.
Proof.
  induction 1 as [|b m t ms Hb Ht IH]; [reflexivity|]. unfold zs in *. cbn [map zero_mod]. rewrite IH. change (is_origin (b :: t)) with ((0 =? b)%nat && is_origin t). f_equal.
  rewrite Z.mod_small by lia. destruct b; reflexivity.
Qed.
Lemma zero_mod_opp ms t : zero_mod ms (zopp t) = zero_mod ms t.
Proof.
  revert t. induction ms as [|m ms IH]; intros [|b t]; try reflexivity. unfold zopp in *. cbn [map zero_mod]. rewrite IH. f_equal.
  destruct (Nat.eq_dec m 0) as [->|Hm].
  - rewrite !Zmod_0_r. destruct (Z.eqb_spec (- b) 0), (Z.eqb_spec b 0); try reflexivity; lia.
  - destruct (Z.eqb_spec (b mod Z.of_nat m) 0) as [E|E]; destruct (Z.eqb_spec (- b mod Z.of_nat m) 0) as [F|F]; try reflexivity; exfalso.
    + apply F. apply Z.mod_opp_l_z; lia.
    + apply E. rewrite <- (Z.opp_involutive b). apply Z.mod_opp_l_z; lia.
Qed.

(** ** Transforms on the large grid *)
Section grid.
Variables ms ns : list nat.
Hypothesis Hl : length ms = length ns.
Hypothesis Hm : Forall (fun n => (0 < n)%nat) ms.
Notation ns' := (times ms ns).
Notation M := (INR (nprod ms)).

Lemma M_pos : 0 < M. Proof. apply lt_0_INR, nprod_pos, Hm. Qed.

(** A periodic function on the large grid. *)
Lemma dft_periodic (f f' : list nat -> C) g t : inb g ns -> inb t ms -> (forall j x, inb j ms -> inb x ns -> f' (place ns j x) = f x) ->
  dft ns' f' (place ms g t) = if is_origin t then (RtoC M * dft ns f g)%C else RtoC 0.
Proof.
  intros Hg Ht Hf. unfold dft. rewrite (times_comm ms ns) at 1. rewrite sumC_place by (symmetry; exact Hl).
  set (S := sumC (indices ns) (fun x => f x * cis (- (2 * PI * (phase ns (zs g) (zs x) + phase ns' (zs t) (zs x)))))%C).
  transitivity (sumC (indices ms) (fun j => cis (2 * PI * phase ms (zopp (zs t)) (zs j)) * S)%C).
  - apply sumC_ext. intros j Hj. apply in_indices in Hj. unfold S. rewrite <- sumC_scal. apply sumC_ext. intros x Hx. apply in_indices in Hx. rewrite Hf by assumption.
    destruct (phase_place ms ns g t j x Hl Hg Ht Hj Hx) as (k & ->). rewrite phase_opp_l.
    replace (- (2 * PI * (IZR k + phase ns (zs g) (zs x) + phase ms (zs t) (zs j) + phase ns' (zs t) (zs x))))
      with (2 * PI * - phase ms (zs t) (zs j) + - (2 * PI * (phase ns (zs g) (zs x) + phase ns' (zs t) (zs x))) + 2 * PI * IZR (- k)) by (rewrite opp_IZR; ring).
    rewrite cis_period, cis_plus. ring.
  - rewrite sumC_scal_r, char_sum_nd; [|exact Hm|unfold zopp; rewrite map_length, zs_length; apply inb_length; exact Ht]. rewrite zero_mod_opp, zeros_mod by exact Ht.
    destruct (is_origin t) eqn:O; [|ring]. f_equal. unfold S. apply sumC_ext. intros x _. f_equal. f_equal. f_equal. f_equal.
    assert (Z : phase ns' (zs t) (zs x) = 0); [|rewrite Z; ring].
    clear - O. revert t x O. generalize ns'. intros l. induction l as [|n l IH]; intros [|b t] [|d x] O; try reflexivity. change (is_origin (b :: t)) with ((0 =? b)%nat && is_origin t) in O.
    apply andb_true_iff in O. destruct O as (O1 & O2). apply Nat.eqb_eq in O1. subst b. unfold zs in *. cbn [map phase]. rewrite IH by exact O2. unfold Rdiv. cbn. ring.
Qed.

(** A function of the frequencies that lives on one residue class [t0]. *)
Lemma idft_class (F F' : list nat -> C) t0 j x : inb t0 ms -> inb j ms -> inb x ns ->
  (forall g t, inb g ns -> inb t ms -> F' (place ms g t) = if list_eq_dec Nat.eq_dec t t0 then F g else RtoC 0) ->
  idft ns' F' (place ns j x) = (RtoC (/ M) * cis (2 * PI * (phase ms (zs t0) (zs j) + phase ns' (zs t0) (zs x))) * idft ns F x)%C.
Proof.
  intros H0 Hj Hx HF. unfold idft. rewrite nprod_times, mult_INR by exact Hl. rewrite sumC_place by exact Hl.
  assert (HM := M_pos).
  assert (HN : INR (nprod ns) <> 0) by (apply not_0_INR; pose proof (nprod_pos ns (inb_pos _ _ Hx)); lia).
  rewrite Rinv_mult_distr by lra. rewrite RtoC_mult.
  set (w := cis (2 * PI * (phase ms (zs t0) (zs j) + phase ns' (zs t0) (zs x)))).
  transitivity (RtoC (/ M) * RtoC (/ INR (nprod ns)) * sumC (indices ns) (fun g => w * (F g * cis (2 * PI * phase ns (zs g) (zs x)))))%C; [|rewrite sumC_scal; ring]. f_equal.
  apply sumC_ext. intros g Hg. apply in_indices in Hg.
  rewrite (sumC_single _ t0); [|apply NoDup_indices|apply in_indices; exact H0|].
  - rewrite HF by assumption. destruct (list_eq_dec _ t0 t0) as [_|N]; [|contradiction]. destruct (phase_place ms ns g t0 j x Hl Hg H0 Hj Hx) as (k & ->). unfold w.
    replace (2 * PI * (IZR k + phase ns (zs g) (zs x) + phase ms (zs t0) (zs j) + phase ns' (zs t0) (zs x)))
      with (2 * PI * (phase ms (zs t0) (zs j) + phase ns' (zs t0) (zs x)) + 2 * PI * phase ns (zs g) (zs x) + 2 * PI * IZR k) by ring.
    rewrite cis_period, cis_plus. ring.
  - intros t Ht Nt. apply in_indices in Ht. rewrite HF by assumption. destruct (list_eq_dec _ t t0); [contradiction|ring].
Qed.
End grid.

Lemma is_origin_place ms ns g t : length ms = length ns -> inb g ns -> inb t ms -> is_origin (place ms g t) = is_origin g && is_origin t.
Proof.
  intros Hl Hg. revert ms t Hl. induction Hg as [|a n g ns Ha Hg IH]; intros ms t Hl Ht; inversion Ht as [|b m t' ms' Hb Ht']; subst; try discriminate Hl; [reflexivity|]. injection Hl as Hl. cbn [place].
  change (is_origin ((m * a + b)%nat :: place ms' g t')) with ((0 =? m * a + b)%nat && is_origin (place ms' g t')). change (is_origin (a :: g)) with ((0 =? a)%nat && is_origin g). change (is_origin (b :: t')) with ((0 =? b)%nat && is_origin t').
  rewrite (IH ms' t' Hl Ht'). replace (0 =? m * a + b)%nat with ((0 =? a)%nat && (0 =? b)%nat); [destruct (0 =? a)%nat, (0 =? b)%nat, (is_origin g); reflexivity|].
  destruct (m * a + b)%nat eqn:E; destruct a, b; try reflexivity; exfalso; nia.
Qed.

Definition origin_class (ms : list nat) : list nat := map (fun _ => 0%nat) ms.
Lemma origin_class_in ms : Forall (fun n => (0 < n)%nat) ms -> inb (origin_class ms) ms.
Proof. induction 1; cbn; constructor; assumption. Qed.
Lemma origin_class_iff ms t : inb t ms -> is_origin t = true <-> t = origin_class ms.
Proof.
  induction 1 as [|b m t ms Hb Ht IH]; [split; reflexivity|]. change (is_origin (b :: t)) with ((0 =? b)%nat && is_origin t). rewrite andb_true_iff, Nat.eqb_eq, IH. cbn. split.
  - intros (<- & ->). reflexivity.
  - intros E. injection E as -> ->. split; reflexivity.
Qed.

(** ** Lattice *)
Section lattice.
Variables (p1 p2 p3 n1 n2 n3 : nat).
Notation ms := [p1; p2; p3].
Notation ns := [n1; n2; n3].
Variable A : m3.
Hypothesis HA : m3det A <> 0.
Hypothesis Hp : (0 < p1 /\ 0 < p2 /\ 0 < p3)%nat.
Notation A' := (supercell ms A).

Lemma det_super : m3det A' = INR (nprod ms) * m3det A.
Proof. unfold supercell. cbn [nth nprod]. rewrite !mult_INR. change (INR 1) with 1. unfold m3det, cross, dot, vscale. cbn. ring. Qed.
Lemma det_super_nz : m3det A' <> 0.
Proof. rewrite det_super. apply Rmult_integral_contrapositive_currified; [|exact HA]. apply not_0_INR. cbn [nprod]. destruct Hp as (? & ? & ?). nia. Qed.
Lemma volume_super : volume A' = INR (nprod ms) * volume A.
Proof. unfold volume. rewrite det_super, Rabs_mult, (Rabs_pos_eq (INR _)) by apply pos_INR. reflexivity. Qed.
Lemma reciprocal_super : reciprocal_vectors A' = let B := reciprocal_vectors A in M3 (vscale (/ INR p1) (m0 B)) (vscale (/ INR p2) (m1 B)) (vscale (/ INR p3) (m2 B)).
Proof.
  assert (N : INR p1 <> 0 /\ INR p2 <> 0 /\ INR p3 <> 0) by (destruct Hp as (? & ? & ?); repeat split; apply not_0_INR; lia). destruct N as (N1 & N2 & N3).
  cbv zeta. unfold reciprocal_vectors.
  set (D := M3 (V3 (/ INR p1) 0 0) (V3 0 (/ INR p2) 0) (V3 0 0 (/ INR p3))).
  rewrite (m3inv_unique A' (m3mul (m3inv A) D)).
  - rewrite m3t_mul. replace (m3t D) with D by reflexivity. destruct (m3t (m3inv A)) as [[? ? ?] [? ? ?] [? ? ?]]. unfold D, m3mul, vmul, vadd, vscale, m3scale. cbn. apply m3_eq; apply v3_eq; cbn; ring.
  - set (E := M3 (V3 (INR p1) 0 0) (V3 0 (INR p2) 0) (V3 0 0 (INR p3))). replace A' with (m3mul E A).
    + rewrite m3mul_assoc, <- (m3mul_assoc A), m3inv_r, m3mul_id_l by exact HA. unfold E, D, m3mul, vmul, vadd, vscale, m3id. cbn. apply m3_eq; apply v3_eq; cbn; field; assumption.
    + unfold supercell, E, m3mul, vmul, vadd, vscale. cbn. apply m3_eq; apply v3_eq; cbn; ring.
Qed.
Lemma combination_dual j g : exists k, dot (vmul (V3 (IZR (nth 0 g 0%Z)) (IZR (nth 1 g 0%Z)) (IZR (nth 2 g 0%Z))) (reciprocal_vectors A)) (combination A j) = 2 * PI * IZR k.
Proof.
  exists (nth 0 g 0 * Z.of_nat (nth 0 j 0%nat) + nth 1 g 0 * Z.of_nat (nth 1 j 0%nat) + nth 2 g 0 * Z.of_nat (nth 2 j 0%nat))%Z.
  unfold combination. rewrite recip_dot by exact HA. rewrite !plus_IZR, !mult_IZR, <- !INR_IZR_INZ. unfold dot. cbn [vx vy vz]. ring.
Qed.

Section vectors.
Variables G G' : tensor v3.
Hypothesis HG : g_vectors A ns = Ok G.
Hypothesis HG' : g_vectors A' (times ms ns) = Ok G'.

Lemma g_value g : inb g ns -> tget G g = vmul (V3 (fr n1 (nth 0 g 0%nat)) (fr n2 (nth 1 g 0%nat)) (fr n3 (nth 2 g 0%nat))) (reciprocal_vectors A).
Proof.
  intros Hg. inversion Hg as [|a ? g1 ? _ H1]; subst. inversion H1 as [|b ? g2 ? _ H2]; subst. inversion H2 as [|d ? g3 ? _ H3]; subst. inversion H3; subst.
  destruct (vector_grid_get _ _ _ _ _ _ HG) as (_ & V). apply V.
Qed.
Lemma super_vector g t : inb g ns -> inb t ms -> carried ms ns g t -> tget G' (place ms g t) = vadd (tget G g) (combination (reciprocal_vectors A') t).
Proof.
  intros Hg Ht Hc. rewrite (g_value g Hg). pose proof (Hc 0%nat ltac:(lia)) as C0. pose proof (Hc 1%nat ltac:(lia)) as C1. pose proof (Hc 2%nat ltac:(lia)) as C2. cbv zeta in C0, C1, C2. clear Hc.
  inversion Hg as [|a ? g1 ? _ H1]; subst. inversion H1 as [|b ? g2 ? _ H2]; subst. inversion H2 as [|d ? g3 ? _ H3]; subst. inversion H3; subst. clear H1 H2 H3 Hg.
  inversion Ht as [|u ? t1 ? _ H1]; subst. inversion H1 as [|v ? t2 ? _ H2]; subst. inversion H2 as [|w ? t3 ? _ H3]; subst. inversion H3; subst. clear H1 H2 H3 Ht.
  cbn [nth] in *. destruct (vector_grid_get _ _ _ _ _ _ HG') as (_ & V). cbn [place]. rewrite V. unfold coef, combination. cbn [nth]. fold (fr (p1 * n1) (p1 * a + u)) (fr (p2 * n2) (p2 * b + v)) (fr (p3 * n3) (p3 * d + w)).
  unfold fr. rewrite C0, C1, C2, !plus_IZR, !mult_IZR, <- !INR_IZR_INZ. rewrite reciprocal_super. cbv zeta.
  assert (N : INR p1 <> 0 /\ INR p2 <> 0 /\ INR p3 <> 0) by (destruct Hp as (? & ? & ?); repeat split; apply not_0_INR; lia). destruct N as (N1 & N2 & N3).
  destruct (reciprocal_vectors A) as [[? ? ?] [? ? ?] [? ? ?]]. unfold vmul, vadd, vscale. cbn. apply v3_eq; cbn; field; repeat split; assumption.
Qed.
End vectors.
End lattice.

Lemma carried_origin p1 p2 p3 n1 n2 n3 g : (0 < p1)%nat -> (0 < p2)%nat -> (0 < p3)%nat -> inb g [n1; n2; n3] -> carried [p1; p2; p3] [n1; n2; n3] g (origin_class [p1; p2; p3]).
Proof.
  intros P1 P2 P3 Hg. inversion Hg as [|a ? g1 ? Ha H1]; subst. inversion H1 as [|b ? g2 ? Hb H2]; subst. inversion H2 as [|d ? g3 ? Hd H3]; subst. inversion H3; subst.
  assert (E : forall m n i, (0 < m)%nat -> (i < n)%nat -> fftfreq (Z.of_nat (m * n)) (Z.of_nat (m * i + 0)) = (Z.of_nat m * fftfreq (Z.of_nat n) (Z.of_nat i) + Z.of_nat 0)%Z).
  { intros m n i H0 H4. unfold fftfreq. destruct (Z.leb_spec (Z.of_nat i) ((Z.of_nat n - 1) / 2)) as [L|L]; destruct (Z.leb_spec (Z.of_nat (m * i + 0)) ((Z.of_nat (m * n) - 1) / 2)) as [L'|L'].
    - nia.
    - exfalso. pose proof (Z.div_mod (Z.of_nat n - 1) 2 ltac:(lia)). pose proof (Z.mod_pos_bound (Z.of_nat n - 1) 2 ltac:(lia)).
      pose proof (Z.div_mod (Z.of_nat (m * n) - 1) 2 ltac:(lia)). pose proof (Z.mod_pos_bound (Z.of_nat (m * n) - 1) 2 ltac:(lia)). nia.
    - exfalso. pose proof (Z.div_mod (Z.of_nat n - 1) 2 ltac:(lia)). pose proof (Z.mod_pos_bound (Z.of_nat n - 1) 2 ltac:(lia)).
      pose proof (Z.div_mod (Z.of_nat (m * n) - 1) 2 ltac:(lia)). pose proof (Z.mod_pos_bound (Z.of_nat (m * n) - 1) 2 ltac:(lia)). nia.
    - nia. }
  intros x Hx. destruct x as [|[|[|]]]; [apply (E p1 n1 a P1 Ha)|apply (E p2 n2 b P2 Hb)|apply (E p3 n3 d P3 Hd)|lia].
Qed.
Lemma carried_even ms ns g t : length ms = 3%nat -> length ns = 3%nat -> Forall (fun n => Nat.even n = true) ns -> inb g ns -> inb t ms -> carried ms ns g t.
Proof.
  intros Lm Ln He Hg Ht x Hx. cbv zeta.
  assert (Hgx : (nth x g 0 < nth x ns 0)%nat). { clear - Hg Ln Hx. revert x Hx. rewrite <- Ln. clear Ln. induction Hg as [|a n g ns Ha Hg IH]; intros [|x] Hx; cbn in *; try lia. apply IH. lia. }
  assert (Htx : (nth x t 0 < nth x ms 0)%nat). { clear - Ht Lm Hx. revert x Hx. rewrite <- Lm. clear Lm. induction Ht as [|a n g ns' Ha Hg IH]; intros [|x] Hx; cbn in *; try lia. apply IH. lia. }
  assert (Ev : Nat.even (nth x ns 0%nat) = true). { rewrite Forall_forall in He. apply He. apply nth_In. lia. }
  apply Nat.even_spec in Ev. destruct Ev as (h & Eh). rewrite Eh in *. clear Eh He Hg Ht. set (m := nth x ms 0%nat) in *. set (i := nth x g 0%nat) in *. set (u := nth x t 0%nat) in *. clearbody m i u.
  unfold fftfreq. 
  assert (D1 : ((Z.of_nat (2 * h) - 1) / 2 = Z.of_nat h - 1)%Z) by (symmetry; apply (Z.div_unique _ _ _ 1); lia).
  assert (D2 : ((Z.of_nat (m * (2 * h)) - 1) / 2 = Z.of_nat (m * h) - 1)%Z) by (symmetry; apply (Z.div_unique _ _ _ 1); lia).
  rewrite D1, D2. destruct (Z.leb_spec (Z.of_nat i) (Z.of_nat h - 1)); destruct (Z.leb_spec (Z.of_nat (m * i + u)) (Z.of_nat (m * h) - 1)); try nia.
Qed.

(** ** Fields on the large grid *)
Lemma phase_origin l t x : is_origin t = true -> phase l (zs t) x = 0.
Proof.
  revert t x. induction l as [|n l IH]; intros [|b t] [|d x] O; try reflexivity. change (is_origin (b :: t)) with ((0 =? b)%nat && is_origin t) in O.
  apply andb_true_iff in O. destruct O as (O1 & O2). apply Nat.eqb_eq in O1. subst b. unfold zs in *. cbn [map phase]. rewrite IH by exact O2. unfold Rdiv. cbn. ring.
Qed.
Lemma class_if ms t (u v : C) : inb t ms -> (if is_origin t then u else v) = if list_eq_dec Nat.eq_dec t (origin_class ms) then u else v.
Proof.
  intros Ht. pose proof (origin_class_iff ms t Ht) as E. destruct (list_eq_dec _ t _) as [H|H]; [rewrite (proj2 E H); reflexivity|].
  destruct (is_origin t); [exfalso; apply H, E; reflexivity|reflexivity].
Qed.
Lemma idft_periodic ms ns (F F' : list nat -> C) j x : length ms = length ns -> Forall (fun n => (0 < n)%nat) ms -> inb j ms -> inb x ns ->
  (forall g t, inb g ns -> inb t ms -> F' (place ms g t) = if is_origin t then (RtoC (INR (nprod ms)) * F g)%C else RtoC 0) ->
  idft (times ms ns) F' (place ns j x) = idft ns F x.
Proof.
  intros Hl Hm Hj Hx HF. assert (HM := M_pos ms Hm).
  rewrite (idft_class ms ns Hl Hm (fun g => RtoC (INR (nprod ms)) * F g)%C F' (origin_class ms) j x (origin_class_in ms Hm) Hj Hx) by (intros g t Hg Ht; rewrite HF by assumption; apply class_if; exact Ht).
  assert (O : is_origin (origin_class ms) = true) by (apply (origin_class_iff ms); [apply origin_class_in; exact Hm|reflexivity]).
  rewrite !phase_origin by exact O. rewrite Rplus_0_l, Rmult_0_r, cis_0, idft_scal.
  transitivity (RtoC (/ INR (nprod ms) * INR (nprod ms)) * idft ns F x)%C; [rewrite RtoC_mult; ring|]. rewrite Rinv_l by lra. ring.
Qed.
Lemma psi_super ms ns vol c c' b b' t0 j x : length ms = length ns -> Forall (fun n => (0 < n)%nat) ms -> 0 < vol -> inb t0 ms -> inb j ms -> inb x ns ->
  (forall g t, inb g ns -> inb t ms -> tget c' (b' ++ place ms g t) = if list_eq_dec Nat.eq_dec t t0 then tget c (b ++ g) else RtoC 0) ->
  Cnorm2 (psi (times ms ns) (INR (nprod ms) * vol) c' b' (place ns j x)) = Cnorm2 (psi ns vol c b x) / INR (nprod ms).
Proof.
  intros Hl Hm Hv H0 Hj Hx Hc. assert (HM := M_pos ms Hm). unfold psi.
  rewrite (idft_class ms ns Hl Hm (fun g => tget c (b ++ g)) _ t0 j x H0 Hj Hx Hc). rewrite !Cnorm2_mult, cis_norm, nprod_times, mult_INR by exact Hl.
  set (M := INR (nprod ms)) in *. set (N := INR (nprod ns)). set (q := Cnorm2 (idft _ _ _)).
  assert (R : forall r, Cnorm2 (RtoC r) = r * r) by (intros r; unfold Cnorm2, RtoC; cbn; ring). rewrite !R.
  assert (S1 : sqrt (M * vol) * sqrt (M * vol) = M * vol) by (apply sqrt_sqrt; nra). assert (S2 : sqrt vol * sqrt vol = vol) by (apply sqrt_sqrt; lra).
  assert (N1 : sqrt (M * vol) <> 0) by (intros E; rewrite E in S1; nra). assert (N2 : sqrt vol <> 0) by (intros E; rewrite E in S2; nra).
  transitivity (N * N / (sqrt (M * vol) * sqrt (M * vol)) * q); [field; split; (exact N1 || lra)|].
  transitivity (N * N / (sqrt vol * sqrt vol) * q / M); [|field; split; (exact N2 || lra)]. rewrite S1, S2. field. split; lra.
Qed.
Lemma combine_flat_map {X Y Z} (l : list X) (f : X -> list Y) (g : X -> list Z) : (forall x, length (f x) = length (g x)) ->
  combine (flat_map f l) (flat_map g l) = flat_map (fun x => combine (f x) (g x)) l.
Proof.
  intros H. induction l as [|x l IH]; [reflexivity|]. cbn [flat_map]. rewrite <- IH. clear IH. specialize (H x). revert H. generalize (g x). induction (f x) as [|a u IH]; intros [|b v] H; try discriminate; [reflexivity|].
  cbn [app combine]. f_equal. apply IH. injection H as H. exact H.
Qed.
Lemma sf_super ms A ch pos q : length ch = length pos -> (forall j, exists k, dot q (combination A j) = 2 * PI * IZR k) ->
  structure_factor (charges ms ch) (copies ms A pos) q = (RtoC (INR (nprod ms)) * structure_factor ch pos q)%C.
Proof.
  intros Hl Hq. unfold structure_factor, charges, copies. rewrite combine_flat_map by (intros j; rewrite map_length; exact Hl). rewrite sumC_flat_map.
  rewrite (sumC_ext _ _ (fun _ => sumC (combine ch pos) (fun p => RtoC (fst p) * cis (- dot q (snd p)))%C)).
  - rewrite sumC_const, length_indices. reflexivity.
  - intros j _. destruct (Hq j) as (k & E). clear Hl. revert pos. induction ch as [|z ch' IH]; intros [|r pos]; try reflexivity. cbn [map combine sumC fst snd]. rewrite IH. f_equal. f_equal.
    rewrite dot_add_r, E. replace (- (2 * PI * IZR k + dot q r)) with (- dot q r + 2 * PI * IZR (- k)) by (rewrite opp_IZR; ring). apply cis_period.
Qed.

Lemma copies_length ms A ch pos : length ch = length pos -> length (charges ms ch) = length (copies ms A pos).
Proof. intros Hp. unfold charges, copies. induction (indices ms) as [|j l IH]; [reflexivity|]. cbn [flat_map]. rewrite !app_length, map_length, IH, Hp. reflexivity. Qed.

(** ** Energies *)
Lemma energies_super lib vg xt A c c' pos ch G G' Q kpts occ occ' sp B p1 p2 p3 n1 n2 n3 : let ms := [p1; p2; p3] in let ns := [n1; n2; n3] in let M := INR (nprod ms) in let A' := supercell ms A in
  m3det A <> 0 -> Forall (fun m => (0 < m)%nat) ms -> g_vectors A ns = Ok G -> g_vectors A' (times ms ns) = Ok G' ->
  (sp = 1 \/ sp = 2)%nat -> (forall t pol, In t (split_on "+" xt) -> lib t pol <> None) -> length ch = length pos ->
  unfolded ms A Q kpts -> same_orbitals ms ns sp (length Q) B c c' occ occ' ->
  (forall s l i b g, (s < sp)%nat -> (l < length Q)%nat -> (i < nprod ms)%nat -> (b < B)%nat -> inb g ns -> tget c ([s; (l * nprod ms + i)%nat; b] ++ g) <> RtoC 0 -> carried ms ns g (nth i (indices ms) [])) ->
  exists t e h x,
    total_energy_split (xc_density lib vg) c pos ch G kpts (volume A) (Some occ) false xt = Ok (t, e, h, x) /\
    total_energy_split (xc_density lib vg) c' (copies ms A pos) (charges ms ch) G' Q (volume A') (Some occ') false xt = Ok (M * t, M * e, M * h, M * x).
Proof.
  intros ms ns M A' HA Hm HG HG' Hs HL Hp (Lk & Hk) (Sc & So & Sc' & So' & Ho & Hc) Hcar.
  set (L := length Q) in *. set (m := nprod ms) in *. set (K := (L * m)%nat) in *. set (ns' := times ms ns) in *.
  destruct (g_vectors_dual A n1 n2 n3 G HA HG) as (SG & _). fold ns in SG.
  assert (Hp3 : (0 < p1 /\ 0 < p2 /\ 0 < p3)%nat) by (inversion Hm as [|? ? ? Hm2]; subst; inversion Hm2 as [|? ? ? Hm3]; subst; inversion Hm3; subst; repeat split; assumption).
  assert (HA' : m3det A' <> 0) by (apply det_super_nz; assumption).
  destruct (g_vectors_dual A' (p1 * n1) (p2 * n2) (p3 * n3) G' HA' HG') as (SG' & _). change [(p1 * n1)%nat; (p2 * n2)%nat; (p3 * n3)%nat] with ns' in SG'.
  assert (Hn : Forall (fun n => (0 < n)%nat) ns) by (destruct (proj1 (g_vectors_ok A n1 n2 n3) (ex_intro _ G HG)) as (? & ? & ?); repeat constructor; lia).
  assert (Hl : length ms = length ns) by reflexivity.
  assert (HM : 0 < M) by (apply M_pos; exact Hm).
  assert (HN : 0 < INR (nprod ns)) by (apply lt_0_INR, nprod_pos, Hn).
  assert (EN : INR (nprod ns') = M * INR (nprod ns)) by (unfold ns'; rewrite nprod_times, mult_INR by exact Hl; reflexivity).
  assert (HN' : 0 < INR (nprod ns')) by (rewrite EN; nra).
  assert (Hv : 0 < volume A) by (apply Rabs_pos_lt; exact HA). assert (Ev : volume A' = M * volume A) by (apply volume_super).
  set (vol := volume A) in *. rewrite Ev. set (vol' := M * vol). assert (Hv' : 0 < vol') by (unfold vol'; nra).
  assert (Lp : length (charges ms ch) = length (copies ms A pos)).
  { apply copies_length. exact Hp. }
  assert (Hi : forall i, (i < m)%nat -> inb (nth i (indices ms) []) ms) by (intros i Hi; apply in_indices, nth_In; rewrite length_indices; exact Hi).
  rewrite <- Lk in Sc, So.
  unfold total_energy_split.
  destruct (wave_grid_eq c vol [sp; length kpts; B] ns eq_refl Sc) as (w & Ew & _). destruct (wave_grid_eq c' vol' [sp; L; (m * B)%nat] ns' eq_refl Sc') as (w' & Ew' & _). rewrite Ew, Ew'. cbn [bind].
  destruct (density_eq c vol occ sp (length kpts) B n1 n2 n3 Sc So) as (d0 & E0 & S0 & G0). destruct (density_eq c' vol' occ' sp L (m * B) _ _ _ Sc' So') as (d0' & E0' & S0' & G0').
  destruct (wave_to_density_eq c vol occ sp (length kpts) B n1 n2 n3 w d0 Sc So Ew E0) as (d & Ed & Eq). destruct (wave_to_density_eq c' vol' occ' sp L (m * B) _ _ _ w' d0' Sc' So' Ew' E0') as (d' & Ed' & Eq').
  unfold wave_to_density_reciprocal. rewrite Ed, Ed'. cbn [bind]. fold ns in S0, G0. change [(p1 * n1)%nat; (p2 * n2)%nat; (p3 * n3)%nat] with ns' in S0', G0'.
  assert (Sd : tshape d = sp :: ns) by (rewrite (proj1 Eq); exact S0). assert (Sd' : tshape d' = sp :: ns') by (rewrite (proj1 Eq'); exact S0').
  assert (Gd' : forall s j x, (s < sp)%nat -> inb j ms -> inb x ns -> tget d' (s :: place ns j x) = tget d (s :: x)).
  { intros s j x Hx Hj Hi'. assert (Hb : inb (place ns j x) ns') by (unfold ns'; rewrite times_comm; apply inb_place; assumption).
    rewrite (proj2 Eq) by (rewrite Sd; constructor; assumption). rewrite (proj2 Eq') by (rewrite Sd'; constructor; assumption). rewrite G0, G0' by assumption.
    rewrite Lk. unfold K. rewrite (Nat.mul_comm L m), sumR_blocks. apply sumR_ext. intros l Hl'. apply in_seq in Hl'.
    rewrite (Nat.mul_comm m B), sumR_blocks. apply sumR_ext. intros i Hi2. apply in_seq in Hi2. apply sumR_ext. intros b Hb'. apply in_seq in Hb'.
    rewrite (Nat.mul_comm m l), (Nat.mul_comm B i), Ho by lia. fold M.
    assert (P : Cnorm2 (psi ns' vol' c' [s; l; (i * B + b)%nat] (place ns j x)) = Cnorm2 (psi ns vol c [s; (l * m + i)%nat; b] x) / M).
    { apply (psi_super ms ns vol c c' [s; (l * m + i)%nat; b] [s; l; (i * B + b)%nat] (nth i (indices ms) []) j x Hl Hm Hv (Hi i ltac:(lia)) Hj Hi'). intros g t Hg Ht. apply Hc; try assumption; lia. }
    rewrite P. field. lra. }
  destruct (fftn3_eq (tmap RtoC d) [sp] ns eq_refl Sd) as (D & -> & SD & GD). cbn [bind].
  destruct (fftn3_eq (tmap RtoC d') [sp] ns' eq_refl Sd') as (D' & -> & SD' & GD'). cbn [bind].
  assert (XD : forall g t, inb g ns -> inb t ms -> spin_sum D' (place ms g t) = if is_origin t then (RtoC M * spin_sum D g)%C else RtoC 0).
  { intros g t Hg Ht. unfold spin_sum. rewrite SD, SD'. cbn [hd app].
    assert (E : forall s, In s (seq 0 sp) -> tget D' (s :: place ms g t) = if is_origin t then (RtoC M * tget D (s :: g))%C else RtoC 0).
    { intros s Hs'. apply in_seq in Hs'. change (s :: place ms g t) with ([s] ++ place ms g t). change (s :: g) with ([s] ++ g). rewrite GD, GD' by reflexivity.
      apply (dft_periodic ms ns Hl Hm); [assumption|assumption|]. intros j x Hj Hx. cbn [tmap tget app]. rewrite Gd' by (lia || assumption). reflexivity. }
    rewrite (sumC_ext _ _ _ E). destruct (is_origin t); [apply sumC_scal|apply sumC_zero; reflexivity]. }
  destruct (kinetic_some G kpts c occ sp B n1 n2 n3 SG Sc So) as (t & -> & _ & Gt).
  destruct (kinetic_some G' Q c' occ' sp (m * B) _ _ _ SG' Sc' So') as (t' & -> & _ & Gt'). cbn [bind].
  rewrite (e_external_eq D pos ch G vol sp n1 n2 n3 SD SG Hp ltac:(lra) HN), (e_external_eq D' (copies ms A pos) (charges ms ch) G' vol' sp _ _ _ SD' SG' Lp ltac:(lra) HN'). cbn [bind].
  rewrite (e_hartree_eq D G vol false sp n1 n2 n3 SD SG (fun x => g_nonzero A n1 n2 n3 G x HA HG)), (e_hartree_eq D' G' vol' false sp _ _ _ SD' SG' (fun x => g_nonzero _ _ _ _ G' x HA' HG')). cbn [bind].
  assert (HP : forall t, In t (split_on "+" xt) -> pick lib t (sp =? 2)%nat <> None) by (intros t0 Ht; unfold pick; apply HL; exact Ht).
  rewrite (e_xc_point lib vg xt d G vol sp n1 n2 n3 Hs Sd SG HP), (e_xc_point lib vg xt d' G' vol' sp _ _ _ Hs Sd' SG' HP). cbn [bind].
  change [(p1 * n1)%nat; (p2 * n2)%nat; (p3 * n3)%nat] with ns'. change [(p1 * n1)%nat; (p2 * n2)%nat; (p3 * n3)%nat] with ns' in Gt'. change [n1; n2; n3] with ns. change [n1; n2; n3] with ns in Gt.
  assert (V0 : forall g, inb g ns -> tget G' (place ms g (origin_class ms)) = tget G g).
  { intros g Hg. transitivity (vadd (tget G g) (combination (reciprocal_vectors A') (origin_class ms))).
    { exact (super_vector p1 p2 p3 n1 n2 n3 A HA Hp3 G G' HG HG' g _ Hg (origin_class_in ms Hm) (carried_origin p1 p2 p3 n1 n2 n3 g (proj1 Hp3) (proj1 (proj2 Hp3)) (proj2 (proj2 Hp3)) Hg)). }
    unfold combination, origin_class. cbn [map nth ms]. change (INR 0) with 0. change (V3 0 0 0) with vzero. rewrite vmul_zero. destruct (tget G g). unfold vadd, vzero. cbn. f_equal; ring. }
  assert (C0 : forall t, inb t ms -> is_origin t = true -> t = origin_class ms) by (intros t0 Ht0; apply origin_class_iff; exact Ht0).
  assert (Ot : is_origin (origin_class ms) = true) by reflexivity.
  do 4 eexists. split; [reflexivity|]. rewrite Gt, Gt'. f_equal. f_equal; [f_equal; [f_equal|]|].
  - fold L. rewrite Lk. match goal with |- ?l / 2 = M * (?r / 2) => assert (Z : l = M * r) end; [|rewrite Z; field].
    rewrite <- sumR_scal. apply sumR_ext. intros s Hs'. apply in_seq in Hs'. unfold K. rewrite (Nat.mul_comm L m), sumR_blocks, <- sumR_scal. apply sumR_ext. intros l Hl'. apply in_seq in Hl'.
    rewrite (Nat.mul_comm m B), sumR_blocks, <- sumR_scal. apply sumR_ext. intros i Hi2. apply in_seq in Hi2. rewrite <- sumR_scal. apply sumR_ext. intros b Hb'. apply in_seq in Hb'.
    rewrite (Nat.mul_comm m l), (Nat.mul_comm B i), Ho by lia. fold M.
    assert (Z : ekin G' Q c' ns' s l (i * B + b) = ekin G kpts c ns s (l * m + i) b); [|rewrite Z; ring].
    unfold ekin, ns'. rewrite sumR_place by exact Hl. apply sumR_ext. intros g Hg. apply in_indices in Hg.
    assert (Ht0 := Hi i ltac:(lia)). set (t0 := nth i (indices ms) []) in *.
    rewrite (sumR_single _ t0); [|apply NoDup_indices|apply in_indices; exact Ht0|].
    + rewrite Hc by (lia || assumption). fold t0. destruct (list_eq_dec _ t0 t0) as [_|N]; [|contradiction].
      destruct (Ceq_dec (tget c ([s; (l * m + i)%nat; b] ++ g)) (RtoC 0)) as [Z|Z]; [rewrite Z; unfold Cnorm2, RtoC; cbn; ring|].
      assert (P : tget G' (place ms g t0) = vadd (tget G g) (combination (reciprocal_vectors A') t0)) by (apply (super_vector p1 p2 p3 n1 n2 n3 A HA Hp3 G G' HG HG' g t0 Hg Ht0); unfold t0; apply (Hcar s l i b g); try assumption; lia).
      rewrite P.
      rewrite Hk by lia. fold t0. f_equal. f_equal. fold A'. destruct (tget G g), (nth l Q vzero), (combination _ t0). unfold vadd. cbn. f_equal; ring.
    + intros t1 Ht1 Nt. apply in_indices in Ht1. rewrite Hc by (lia || assumption). fold t0. destruct (list_eq_dec _ t1 t0); [contradiction|]. unfold Cnorm2, RtoC. cbn. ring.
  - rewrite EN. match goal with |- _ * Re ?l = M * (_ * Re ?r) => assert (Z : l = (RtoC (M * M) * r)%C) end.
    { rewrite <- sumC_scal. unfold ns'. rewrite sumC_place by exact Hl. apply sumC_ext. intros g Hg. apply in_indices in Hg.
      rewrite (sumC_single _ (origin_class ms)); [|apply NoDup_indices|apply in_indices, origin_class_in, Hm|].
      - rewrite (is_origin_place ms ns) by (assumption || apply origin_class_in, Hm). rewrite Ot, andb_true_r. destruct (is_origin g); [ring|].
        rewrite XD, V0 by (assumption || apply origin_class_in, Hm). rewrite Ot. rewrite sf_super; [|exact Hp|].
        + fold m. fold M. rewrite Cconj_mult, RtoC_mult. replace (Cconj (RtoC M)) with (RtoC M) by (unfold Cconj, RtoC; cbn; f_equal; ring). ring.
        + intros j. rewrite (g_value n1 n2 n3 A G HG g Hg). unfold fr. apply (combination_dual A HA j [fftfreq (Z.of_nat n1) (Z.of_nat (nth 0 g 0%nat)); fftfreq (Z.of_nat n2) (Z.of_nat (nth 1 g 0%nat)); fftfreq (Z.of_nat n3) (Z.of_nat (nth 2 g 0%nat))]).
      - intros t1 Ht1 Nt. apply in_indices in Ht1. cbv beta. destruct (is_origin (place ms g t1)); [reflexivity|]. rewrite XD by assumption. destruct (is_origin t1) eqn:O1; [exfalso; apply Nt, C0; assumption|]. ring. }
    rewrite Z. match goal with |- _ = M * (_ * Re ?r) => generalize r end. intros q. destruct q as [u1 u2]. unfold Re, Cmult, RtoC. cbn [fst snd]. field. split; lra.
  - rewrite !coulomb_sum_alt. rewrite EN.
    assert (Z : sumR (indices ns') (fun x => if is_origin x then 0 else Cnorm2 (spin_sum D' x) / norm2 (tget G' x)) = M * M * sumR (indices ns) (fun x => if is_origin x then 0 else Cnorm2 (spin_sum D x) / norm2 (tget G x))).
    { rewrite <- sumR_scal. unfold ns'. rewrite sumR_place by exact Hl. apply sumR_ext. intros g Hg. apply in_indices in Hg.
      rewrite (sumR_single _ (origin_class ms)); [|apply NoDup_indices|apply in_indices, origin_class_in, Hm|].
      - rewrite (is_origin_place ms ns) by (assumption || apply origin_class_in, Hm). rewrite Ot, andb_true_r. destruct (is_origin g); [ring|].
        rewrite XD, V0 by (assumption || apply origin_class_in, Hm). rewrite Ot, Cnorm2_mult. replace (Cnorm2 (RtoC M)) with (M * M) by (unfold Cnorm2, RtoC; cbn; ring). unfold Rdiv. ring.
      - intros t1 Ht1 Nt. apply in_indices in Ht1. cbv beta. destruct (is_origin (place ms g t1)); [reflexivity|]. rewrite XD by assumption. destruct (is_origin t1) eqn:O1; [exfalso; apply Nt, C0; assumption|]. unfold Cnorm2, RtoC, Rdiv. cbn. ring. }
    rewrite Z. unfold vol'. field. split; lra.
  - rewrite EN.
    assert (GC : forall s a j x, (s < sp)%nat -> inb j ms -> inb x ns -> gradc ns' G' (fun y => tget d' (s :: y)) a (place ns j x) = gradc ns G (fun y => tget d (s :: y)) a x).
    { intros s a j x Hs' Hj Hx. unfold gradc, grad_component. apply (idft_periodic ms ns); [exact Hl|exact Hm|exact Hj|exact Hx|]. intros g t0 Hg Ht0.
      rewrite (dft_periodic ms ns Hl Hm (fun y => RtoC (tget d (s :: y))) _ g t0 Hg Ht0) by (intros j' x' Hj' Hx'; rewrite Gd' by assumption; reflexivity).
      destruct (is_origin t0) eqn:O; [|ring]. rewrite (C0 t0 Ht0 O), V0 by exact Hg. ring. }
    assert (Z : sumR (indices ns') (fun x => point_xc lib (split_on "+" xt) (contains "gga" xt) (sp =? 2)%nat (dens_at sp d' x) (if contains "gga" xt then sig_at ns' G' sp d' x else []) * sumR (seq 0 sp) (fun s => tget d' (s :: x)))
      = M * sumR (indices ns) (fun x => point_xc lib (split_on "+" xt) (contains "gga" xt) (sp =? 2)%nat (dens_at sp d x) (if contains "gga" xt then sig_at ns G sp d x else []) * sumR (seq 0 sp) (fun s => tget d (s :: x)))).
    { unfold ns' at 1. rewrite times_comm, sumR_place by reflexivity.
      set (F := fun x => point_xc lib (split_on "+" xt) (contains "gga" xt) (sp =? 2)%nat (dens_at sp d x) (if contains "gga" xt then sig_at ns G sp d x else []) * sumR (seq 0 sp) (fun s => tget d (s :: x))).
      transitivity (sumR (indices ms) (fun _ => sumR (indices ns) F)); [|rewrite sumR_const, length_indices; reflexivity].
      apply sumR_ext. intros j Hj. apply in_indices in Hj. apply sumR_ext. intros x Hx. apply in_indices in Hx. unfold F.
      assert (V : dens_at sp d' (place ns j x) = dens_at sp d x) by (unfold dens_at; apply map_ext_in; intros s Hs'; apply in_seq in Hs'; apply Gd'; [lia|exact Hj|exact Hx]).
      assert (U : sig_at ns' G' sp d' (place ns j x) = sig_at ns G sp d x).
      { assert (W : forall i k, (i < sp)%nat -> (k < sp)%nat -> gprod ns' G' (fun y => tget d' (i :: y)) (fun y => tget d' (k :: y)) (place ns j x) = gprod ns G (fun y => tget d (i :: y)) (fun y => tget d (k :: y)) x).
        { intros i k Hi2 Hk2. unfold gprod. f_equal. apply sumC_ext. intros a _. rewrite !GC by assumption. reflexivity. }
        unfold sig_at. destruct Hs as [-> | ->]; cbn [Nat.eqb]; rewrite !W by lia; reflexivity. }
      rewrite V, U. f_equal. apply sumR_ext. intros s Hs'. apply in_seq in Hs'. apply Gd'; [lia|exact Hj|exact Hx]. }
    rewrite Z. unfold vol'. field. split; lra.
Qed.

(** ** The large cell's description always exists *)
Lemma unfolded_exists ms A Q : exists kpts, unfolded ms A Q kpts.
Proof.
  set (f := fun q => map (fun t => vadd q (combination (reciprocal_vectors (supercell ms A)) t)) (indices ms)).
  assert (Lf : forall q, length (f q) = nprod ms) by (intros q; unfold f; rewrite map_length, length_indices; reflexivity).
  exists (flat_map f Q). split.
  - induction Q as [|q Q IH]; [reflexivity|]. cbn [flat_map length Nat.mul]. rewrite app_length, Lf, IH. reflexivity.
  - intros l i Hl Hi. revert l Hl. induction Q as [|q Q IH]; intros [|l] Hl; cbn [length] in Hl; try lia.
    + cbn [flat_map nth]. rewrite Nat.mul_0_l, Nat.add_0_l, app_nth1 by (rewrite Lf; exact Hi). unfold f.
      rewrite (nth_indep _ vzero (vadd q (combination (reciprocal_vectors (supercell ms A)) []))) by (rewrite map_length, length_indices; exact Hi).
      apply (map_nth (fun t => vadd q (combination (reciprocal_vectors (supercell ms A)) t))).
    + cbn [flat_map nth]. rewrite app_nth2 by (rewrite Lf; nia). rewrite Lf. replace (S l * nprod ms + i - nprod ms)%nat with (l * nprod ms + i)%nat by nia. apply IH. lia.
Qed.
Fixpoint block (ms y : list nat) : list nat := match ms, y with m :: ms', a :: y' => (a / m)%nat :: block ms' y' | _, _ => [] end.
Fixpoint rest (ms y : list nat) : list nat := match ms, y with m :: ms', a :: y' => (a mod m)%nat :: rest ms' y' | _, _ => [] end.
Lemma block_rest ms ns g t : length ms = length ns -> inb g ns -> inb t ms -> block ms (place ms g t) = g /\ rest ms (place ms g t) = t.
Proof.
  intros Hl Hg. revert ms t Hl. induction Hg as [|a n g ns Ha Hg IH]; intros ms t Hl Ht; inversion Ht as [|b m t' ms' Hb Ht']; subst; try discriminate Hl; [split; reflexivity|].
  injection Hl as Hl. destruct (IH ms' t' Hl Ht') as (E1 & E2). cbn [place block rest]. rewrite E1, E2. rewrite (Nat.mul_comm m a), Nat.div_add_l, (Nat.div_small b), Nat.add_0_r by lia.
  rewrite (Nat.add_comm (a * m)), Nat.mod_add, Nat.mod_small by lia. split; reflexivity.
Qed.
Lemma orbitals_exist ms ns sp L B c occ : length ms = length ns -> tshape c = [sp; (L * nprod ms)%nat; B] ++ ns -> tshape occ = [sp; (L * nprod ms)%nat; B] ->
  exists c' occ', same_orbitals ms ns sp L B c c' occ occ'.
Proof.
  intros Hl Sc So. set (M := nprod ms) in *.
  exists (mkT ([sp; L; (M * B)%nat] ++ times ms ns) (fun x => match x with s :: l :: ib :: y => if list_eq_dec Nat.eq_dec (rest ms y) (nth (ib / B) (indices ms) []) then tget c ([s; (l * M + ib / B)%nat; (ib mod B)%nat] ++ block ms y) else RtoC 0 | _ => RtoC 0 end)).
  exists (mkT [sp; L; (M * B)%nat] (fun x => match x with s :: l :: ib :: _ => INR M * tget occ [s; (l * M + ib / B)%nat; (ib mod B)%nat] | _ => 0 end)).
  split; [exact Sc|]. split; [exact So|]. split; [reflexivity|]. split; [reflexivity|]. split.
  - intros s l i b _ _ _ Hb. cbn [tget]. fold M. rewrite Nat.div_add_l, (Nat.div_small b), Nat.add_0_r by lia. rewrite (Nat.add_comm (i * B)), Nat.mod_add, Nat.mod_small by lia. reflexivity.
  - intros s l i b g t _ _ _ Hb Hg Ht. cbn [tget app]. fold M. destruct (block_rest ms ns g t Hl Hg Ht) as (-> & ->).
    rewrite Nat.div_add_l, (Nat.div_small b), Nat.add_0_r by lia. rewrite (Nat.add_comm (i * B)), Nat.mod_add, Nat.mod_small by lia. reflexivity.
Qed.

(** ** What the description keeps *)
Lemma overlaps_super ms ns sp L B c c' occ occ' s l i i' b b' : length ms = length ns -> same_orbitals ms ns sp L B c c' occ occ' -> (s < sp)%nat -> (l < L)%nat -> (i < nprod ms)%nat -> (i' < nprod ms)%nat -> (b < B)%nat -> (b' < B)%nat ->
  sumC (indices (times ms ns)) (fun y => Cconj (tget c' ([s; l; (i * B + b)%nat] ++ y)) * tget c' ([s; l; (i' * B + b')%nat] ++ y))%C =
  if (i =? i')%nat then sumC (indices ns) (fun g => Cconj (tget c ([s; (l * nprod ms + i)%nat; b] ++ g)) * tget c ([s; (l * nprod ms + i)%nat; b'] ++ g))%C else RtoC 0.
Proof.
  intros Hl (_ & _ & _ & _ & _ & Hc) Hs Hll Hi Hi' Hb Hb'. rewrite sumC_place by exact Hl.
  assert (Ht : In (nth i (indices ms) []) (indices ms)) by (apply nth_In; rewrite length_indices; exact Hi).
  transitivity (sumC (indices ns) (fun g => if (i =? i')%nat then (Cconj (tget c ([s; (l * nprod ms + i)%nat; b] ++ g)) * tget c ([s; (l * nprod ms + i)%nat; b'] ++ g))%C else RtoC 0)); [|destruct (i =? i')%nat; [reflexivity|apply sumC_zero; reflexivity]].
  apply sumC_ext. intros g Hg. apply in_indices in Hg. rewrite (sumC_single _ (nth i (indices ms) [])); [|apply NoDup_indices|exact Ht|].
  - apply in_indices in Ht. rewrite !Hc by assumption. destruct (list_eq_dec _ _ (nth i (indices ms) [])) as [_|N]; [|contradiction].
    destruct (Nat.eqb_spec i i') as [<-|N].
    + destruct (list_eq_dec _ _ (nth i (indices ms) [])) as [_|N]; [reflexivity|contradiction].
    + destruct (list_eq_dec _ _ (nth i' (indices ms) [])) as [E|_]; [|ring]. exfalso. apply N. apply (proj1 (NoDup_nth (indices ms) []) (NoDup_indices ms)); rewrite ?length_indices; assumption.
  - intros t Ht' Nt. apply in_indices in Ht'. rewrite !Hc by assumption. destruct (list_eq_dec _ t (nth i (indices ms) [])); [contradiction|].
    replace (Cconj (RtoC 0)) with (RtoC 0) by (unfold Cconj, RtoC; cbn; f_equal; ring). ring.
Qed.
Lemma electrons_super ms ns sp L B c c' occ occ' : same_orbitals ms ns sp L B c c' occ occ' ->
  sumR (indices (tshape occ')) (tget occ') = INR (nprod ms) * sumR (indices (tshape occ)) (tget occ).
Proof.
  intros (_ & So & _ & So' & Ho & _). rewrite So, So'. rewrite !sumR_indices_cons, <- sumR_scal. apply sumR_ext. intros s Hs. apply in_seq in Hs. rewrite !sumR_indices_cons.
  rewrite (Nat.mul_comm L), sumR_blocks, <- sumR_scal. apply sumR_ext. intros l Hl. apply in_seq in Hl. rewrite !sumR_indices_cons, (Nat.mul_comm _ B), sumR_blocks, <- sumR_scal. apply sumR_ext. intros i Hi. apply in_seq in Hi.
  rewrite sumR_indices_cons, <- sumR_scal. apply sumR_ext. intros b Hb. apply in_seq in Hb. cbn [indices sumR]. rewrite (Nat.mul_comm B i), (Nat.mul_comm _ l), Ho by lia. ring.
Qed.
Lemma carried_odd : exists ms ns g t, length ms = 3%nat /\ length ns = 3%nat /\ inb g ns /\ inb t ms /\ ~ carried ms ns g t.
Proof.
  exists [2; 1; 1]%nat, [3; 1; 1]%nat, [1; 0; 0]%nat, [1; 0; 0]%nat. split; [reflexivity|]. split; [reflexivity|]. split; [repeat constructor|]. split; [repeat constructor|].
  intros H. specialize (H 0%nat ltac:(lia)). cbv in H. discriminate.
Qed.
