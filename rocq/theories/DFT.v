(** The discrete Fourier transform computed by jnp.fft.fftn / ifftn (norm="backward"),
    in any dimension, and its algebra. *)
From Coq Require Import List Arith ZArith Lia Reals Lra Bool.
From Coquelicot Require Import Complex.
From Verif Require Import Base Sums Tensor.
Import ListNotations.
Local Open Scope R_scope.
Local Open Scope C_scope.

(** exp(i t). *)
Definition cis (t : R) : C := (cos t, sin t).

(** sum_j g_j x_j / n_j for integer vectors g, x and axis sizes n. *)
Fixpoint phase (ns : list nat) (g x : list Z) : R :=
  match ns, g, x with
  | n :: ns', a :: g', b :: x' => (IZR (a * b) / INR n + phase ns' g' x')%R
  | _, _, _ => 0%R
  end.

Definition zs (l : list nat) : list Z := map Z.of_nat l.

(** numpy.fft.fftn: F[g] = sum_x f[x] exp(-2 pi i sum_j g_j x_j / n_j). *)
Definition dft (ns : list nat) (f : list nat -> C) (g : list nat) : C :=
  sumC (indices ns) (fun x => f x * cis (- (2 * PI * phase ns (zs g) (zs x)))%R).

(** numpy.fft.ifftn: f[x] = (1/N) sum_g F[g] exp(+2 pi i sum_j g_j x_j / n_j). *)
Definition idft (ns : list nat) (F : list nat -> C) (x : list nat) : C :=
  RtoC (/ INR (nprod ns))
  * sumC (indices ns) (fun g => F g * cis (2 * PI * phase ns (zs g) (zs x))%R).

(** ** cis *)
Lemma cis_0 : cis 0 = 1.
Proof. unfold cis. rewrite cos_0, sin_0. reflexivity. Qed.
Lemma cis_plus a b : cis (a + b)%R = cis a * cis b.
Proof.
  unfold cis, Cmult; simpl. rewrite cos_plus, sin_plus.
  apply injective_projections; simpl; ring.
Qed.
Lemma cis_conj a : Cconj (cis a) = cis (- a)%R.
Proof. unfold cis, Cconj; simpl. rewrite cos_neg, sin_neg. reflexivity. Qed.
Lemma cis_norm a : Cnorm2 (cis a) = 1%R.
Proof. unfold Cnorm2, cis; simpl. pose proof (sin2_cos2 a). unfold Rsqr in H. lra. Qed.
Lemma cis_neq_0 a : cis a <> 0.
Proof. intros H. pose proof (cis_norm a) as N. rewrite H in N. unfold Cnorm2 in N; simpl in N. lra. Qed.
Lemma cis_inv a : cis (- a)%R * cis a = 1.
Proof. rewrite <- cis_plus. replace (- a + a)%R with 0%R by ring. apply cis_0. Qed.

Lemma cis_2PI_nat n : cis (2 * PI * INR n)%R = 1.
Proof.
  induction n as [|n IH].
  - simpl. rewrite Rmult_0_r. apply cis_0.
  - rewrite S_INR. replace (2 * PI * (INR n + 1))%R with (2 * PI * INR n + 2 * PI)%R by ring.
    rewrite cis_plus, IH. unfold cis. rewrite cos_2PI, sin_2PI.
    unfold Cmult, RtoC; simpl. apply injective_projections; simpl; ring.
Qed.
Lemma cis_2PI_Z z : cis (2 * PI * IZR z)%R = 1.
Proof.
  destruct (Z_le_dec 0 z) as [H|H].
  - rewrite <- (Z2Nat.id z H), <- INR_IZR_INZ. apply cis_2PI_nat.
  - assert (Hz : z = (- Z.of_nat (Z.to_nat (- z)))%Z) by lia.
    rewrite Hz, opp_IZR, <- INR_IZR_INZ.
    replace (2 * PI * - INR (Z.to_nat (- z)))%R with (- (2 * PI * INR (Z.to_nat (-z))))%R by ring.
    rewrite <- cis_conj, cis_2PI_nat. apply Cconj_R.
Qed.
Lemma cis_period a z : cis (a + 2 * PI * IZR z)%R = cis a.
Proof. rewrite cis_plus, cis_2PI_Z. ring. Qed.

Lemma cis_neq_1 a : (0 < a < 2 * PI)%R -> cis a <> 1.
Proof.
  intros Ha H. injection H as Hc _.
  assert (Hs : (0 < sin (a / 2))%R) by (apply sin_gt_0; lra).
  pose proof (cos_2a_sin (a / 2)) as E. replace (2 * (a / 2))%R with a in E by field.
  rewrite Hc in E. nra.
Qed.

(** ** Characters of Z/n *)
Lemma sumC_seq_S n (f : nat -> C) : sumC (seq 0 (S n)) f = sumC (seq 0 n) f + f n.
Proof. rewrite seq_S, sumC_app. simpl. ring. Qed.
Lemma sumR_seq_S n (f : nat -> R) : sumR (seq 0 (S n)) f = (sumR (seq 0 n) f + f n)%R.
Proof. rewrite seq_S, sumR_app. simpl. ring. Qed.

Fixpoint Cpow_nat (z : C) (n : nat) : C := match n with O => 1 | S n' => z * Cpow_nat z n' end.

Lemma geom z n : (z - 1) * sumC (seq 0 n) (Cpow_nat z) = Cpow_nat z n - 1.
Proof.
  induction n as [|n IH]; [simpl; ring|].
  rewrite sumC_seq_S, Cmult_plus_distr_l, IH. simpl. ring.
Qed.

Lemma cis_pow a n : Cpow_nat (cis a) n = cis (INR n * a)%R.
Proof.
  induction n as [|n IH].
  - simpl. rewrite Rmult_0_l, cis_0. reflexivity.
  - cbn [Cpow_nat]. rewrite IH, <- cis_plus, S_INR. f_equal. ring.
Qed.

Lemma char_sum (n : nat) (m : Z) : (0 < n)%nat ->
  sumC (seq 0 n) (fun x => cis (2 * PI * (IZR (m * Z.of_nat x) / INR n))%R)
  = if (m mod Z.of_nat n =? 0)%Z then RtoC (INR n) else 0.
Proof.
  intros Hn. assert (Hn' : INR n <> 0%R) by (apply not_0_INR; lia).
  assert (Hpos : (0 < INR n)%R) by (apply lt_0_INR; lia).
  pose proof (Z.div_mod m (Z.of_nat n) ltac:(lia)) as Hdm.
  set (q := (m / Z.of_nat n)%Z) in *. set (r := (m mod Z.of_nat n)%Z) in *.
  assert (Hr : (0 <= r < Z.of_nat n)%Z) by (apply Z.mod_pos_bound; lia).
  set (a := (2 * PI * (IZR r / INR n))%R).
  assert (E : forall x, cis (2 * PI * (IZR (m * Z.of_nat x) / INR n))%R = Cpow_nat (cis a) x).
  { intros x. rewrite cis_pow.
    replace (2 * PI * (IZR (m * Z.of_nat x) / INR n))%R
      with (INR x * a + 2 * PI * IZR (q * Z.of_nat x))%R; [apply cis_period|].
    rewrite Hdm. unfold a. rewrite !mult_IZR, plus_IZR, mult_IZR, <- !INR_IZR_INZ.
    field. exact Hn'. }
  rewrite (sumC_ext _ _ (Cpow_nat (cis a))) by (intros x _; apply E).
  destruct (Z.eqb_spec r 0) as [H0|H0].
  - unfold a. rewrite H0. replace (2 * PI * (0 / INR n))%R with 0%R by (field; exact Hn').
    rewrite cis_0. rewrite (sumC_ext _ _ (fun _ => RtoC 1)).
    + rewrite sumC_const, seq_length. ring.
    + intros x _. induction x as [|x IH]; simpl; [reflexivity|rewrite IH; ring].
  - assert (Hne : cis a <> 1).
    { apply cis_neq_1. unfold a. pose proof PI_RGT_0.
      assert (0 < IZR r)%R by (apply IZR_lt; lia).
      assert (IZR r < INR n)%R by (rewrite INR_IZR_INZ; apply IZR_lt; lia).
      assert (0 < IZR r / INR n)%R by (apply Rdiv_lt_0_compat; lra).
      assert (IZR r / INR n < 1)%R by (apply Rmult_lt_reg_r with (INR n); [lra|]; unfold Rdiv; rewrite Rmult_assoc, Rinv_l; lra).
      nra. }
    pose proof (geom (cis a) n) as G.
    assert (HP : Cpow_nat (cis a) n = 1).
    { rewrite cis_pow. unfold a. replace (INR n * (2 * PI * (IZR r / INR n)))%R with (2 * PI * IZR r)%R by (field; exact Hn').
      apply cis_2PI_Z. }
    rewrite HP in G. replace (RtoC 1 - 1) with (RtoC 0) in G by ring.
    assert (Hd : cis a - 1 <> 0) by (apply Cminus_eq_contra; exact Hne).
    replace (sumC (seq 0 n) (Cpow_nat (cis a)))
      with (/ (cis a - 1) * ((cis a - 1) * sumC (seq 0 n) (Cpow_nat (cis a)))) by (field; exact Hd).
    rewrite G. ring.
Qed.

(** All components divisible by the axis sizes. *)
Fixpoint zero_mod (ns : list nat) (m : list Z) : bool :=
  match ns, m with
  | n :: ns', a :: m' => (a mod Z.of_nat n =? 0)%Z && zero_mod ns' m'
  | _, _ => true
  end.

Lemma RtoC_INR_nprod_cons n ns : RtoC (INR (nprod (n :: ns))) = RtoC (INR n) * RtoC (INR (nprod ns)).
Proof. cbn [nprod]. rewrite mult_INR, RtoC_mult. reflexivity. Qed.

Lemma char_sum_nd ns (m : list Z) : Forall (fun n => (0 < n)%nat) ns -> length m = length ns ->
  sumC (indices ns) (fun x => cis (2 * PI * phase ns m (zs x))%R)
  = if zero_mod ns m then RtoC (INR (nprod ns)) else 0.
Proof.
  intros Hns. revert m. induction Hns as [|n ns Hn Hns IH]; intros [|a m] Hl; try discriminate.
  - simpl. rewrite Rmult_0_r, cis_0. ring.
  - injection Hl as Hl. rewrite sumC_indices_cons.
    rewrite (sumC_ext _ _ (fun x => cis (2 * PI * (IZR (a * Z.of_nat x) / INR n))%R
        * (if zero_mod ns m then RtoC (INR (nprod ns)) else 0))).
    + rewrite sumC_scal_r, char_sum by exact Hn. cbn [zero_mod]. rewrite RtoC_INR_nprod_cons.
      destruct (_ =? 0)%Z, (zero_mod ns m); cbn [andb]; ring.
    + intros x _. rewrite <- IH by exact Hl. rewrite <- sumC_scal. apply sumC_ext. intros r _.
      rewrite <- cis_plus. f_equal. change (zs (x :: r)) with (Z.of_nat x :: zs r). cbn [phase]. ring.
Qed.

(** ** phase algebra *)
Definition zadd (a b : list Z) : list Z := map (fun p => (fst p + snd p)%Z) (combine a b).
Definition zopp (a : list Z) : list Z := map Z.opp a.
Definition zsub (a b : list Z) : list Z := map (fun p => (fst p - snd p)%Z) (combine a b).

Lemma phase_comm ns g x : phase ns g x = phase ns x g.
Proof.
  revert g x. induction ns as [|n ns IH]; intros [|a g] [|b x]; simpl; try reflexivity.
  rewrite IH, Z.mul_comm. reflexivity.
Qed.

Lemma phase_sub_l ns a b x : length a = length b ->
  phase ns (zsub a b) x = (phase ns a x - phase ns b x)%R.
Proof.
  revert a b x. induction ns as [|n ns IH]; intros [|a la] [|b lb] [|c lx] Hl; simpl in *; try discriminate; try (unfold zsub; simpl; ring).
  injection Hl as Hl. unfold zsub in IH. rewrite IH by exact Hl.
  rewrite Z.mul_sub_distr_r, minus_IZR. unfold Rdiv. ring.
Qed.

Lemma phase_add_l ns a b x : length a = length b ->
  phase ns (zadd a b) x = (phase ns a x + phase ns b x)%R.
Proof.
  revert a b x. induction ns as [|n ns IH]; intros [|a la] [|b lb] [|c lx] Hl; simpl in *; try discriminate; try (unfold zadd; simpl; ring).
  injection Hl as Hl. unfold zadd in IH. rewrite IH by exact Hl.
  rewrite Z.mul_add_distr_r, plus_IZR. unfold Rdiv. ring.
Qed.

Lemma phase_opp_l ns a x : phase ns (zopp a) x = (- phase ns a x)%R.
Proof.
  revert a x. induction ns as [|n ns IH]; intros [|a la] [|c lx]; simpl; try (unfold zopp; simpl; ring).
  unfold zopp in IH. rewrite IH. rewrite Z.mul_opp_l, opp_IZR. unfold Rdiv. ring.
Qed.

(** Frequencies congruent modulo the grid give the same kernel. *)
Fixpoint congr (ns : list nat) (a b : list Z) : Prop :=
  match ns, a, b with
  | n :: ns', x :: a', y :: b' => (exists k, x = y + k * Z.of_nat n)%Z /\ congr ns' a' b'
  | [], [], [] => True
  | _, _, _ => False
  end.

Lemma phase_congr ns a b x : Forall (fun n => (0 < n)%nat) ns -> congr ns a b -> length x = length ns ->
  exists k, phase ns a x = (phase ns b x + IZR k)%R.
Proof.
  intros Hns. revert a b x. induction Hns as [|n ns Hn Hns IH]; intros [|a la] [|b lb] [|c lx] Hc Hl;
    simpl in *; try contradiction; try discriminate.
  - exists 0%Z. simpl. ring.
  - destruct Hc as [[k ->] Hc]. injection Hl as Hl. destruct (IH la lb lx Hc Hl) as [k' ->].
    exists (k * c + k')%Z. rewrite !mult_IZR, !plus_IZR, !mult_IZR, <- INR_IZR_INZ.
    field. apply not_0_INR. lia.
Qed.

Lemma cis_phase_congr ns a b x : Forall (fun n => (0 < n)%nat) ns -> congr ns a b -> length x = length ns ->
  cis (2 * PI * phase ns a x)%R = cis (2 * PI * phase ns b x)%R.
Proof.
  intros Hns Hc Hl. destruct (phase_congr ns a b x Hns Hc Hl) as [k ->].
  rewrite Rmult_plus_distr_l. apply cis_period.
Qed.

Lemma zs_length l : length (zs l) = length l.
Proof. apply map_length. Qed.

Lemma zero_mod_sub ns g h : inb g ns -> inb h ns ->
  zero_mod ns (zsub (zs g) (zs h)) = true <-> g = h.
Proof.
  intros Hg. revert h. induction Hg as [|a n g ns Ha Hg IH]; intros h Hh; inversion Hh as [|b n' h' ns' Hb Hh']; subst.
  - split; reflexivity.
  - cbn [zs map zsub combine fst snd zero_mod]. rewrite andb_true_iff, Z.eqb_eq.
    unfold zs, zsub in IH. rewrite (IH h' Hh').
    split.
    + intros [H1 ->]. f_equal.
      apply Z.mod_divide in H1; [|lia]. destruct H1 as [k Hk]. assert (k = 0)%Z by nia. subst k. lia.
    + intros H. injection H as -> ->. split; auto. rewrite Z.sub_diag. apply Z.mod_0_l. lia.
Qed.

Lemma inb_pos i sh : inb i sh -> Forall (fun n => (0 < n)%nat) sh.
Proof. induction 1; constructor; auto; lia. Qed.

(** Orthogonality of the kernels. *)
Lemma dft_orth ns g h : inb g ns -> inb h ns ->
  sumC (indices ns) (fun x => cis (2 * PI * phase ns (zs g) (zs x))%R
                              * cis (- (2 * PI * phase ns (zs h) (zs x)))%R)
  = if list_eq_dec Nat.eq_dec g h then RtoC (INR (nprod ns)) else 0.
Proof.
  intros Hg Hh.
  rewrite (sumC_ext _ _ (fun x => cis (2 * PI * phase ns (zsub (zs g) (zs h)) (zs x))%R)).
  - rewrite char_sum_nd.
    + destruct (list_eq_dec Nat.eq_dec g h) as [E|E].
      * apply (zero_mod_sub ns g h Hg Hh) in E. rewrite E. reflexivity.
      * destruct (zero_mod ns _) eqn:Z; [|reflexivity].
        apply (zero_mod_sub ns g h Hg Hh) in Z. contradiction.
    + exact (inb_pos _ _ Hg).
    + unfold zsub. rewrite map_length, combine_length, !zs_length,
        (inb_length _ _ Hg), (inb_length _ _ Hh). lia.
  - intros x _. rewrite <- cis_plus, phase_sub_l by (rewrite !zs_length, (inb_length _ _ Hg), (inb_length _ _ Hh); reflexivity).
    f_equal. ring.
Qed.

Lemma nprod_pos ns : Forall (fun n => (0 < n)%nat) ns -> (0 < nprod ns)%nat.
Proof. induction 1; simpl; nia. Qed.

Lemma RtoC_neq_0 r : r <> 0%R -> RtoC r <> 0.
Proof. intros H E. injection E. exact H. Qed.

Lemma nprod_C_neq ns : Forall (fun n => (0 < n)%nat) ns -> RtoC (INR (nprod ns)) <> 0.
Proof. intros H. apply RtoC_neq_0. apply not_0_INR. pose proof (nprod_pos ns H). lia. Qed.

Lemma if_eq_sum ns h (f : list nat -> C) : inb h ns ->
  sumC (indices ns) (fun x => f x * (if list_eq_dec Nat.eq_dec x h then RtoC (INR (nprod ns)) else 0))
  = f h * RtoC (INR (nprod ns)).
Proof.
  intros Hh. rewrite (sumC_single _ h).
  - destruct (list_eq_dec Nat.eq_dec h h); [reflexivity|contradiction].
  - apply NoDup_indices.
  - apply in_indices. exact Hh.
  - intros x _ Hx. destruct (list_eq_dec Nat.eq_dec x h); [contradiction|ring].
Qed.

(** ifftn inverts fftn and conversely. *)
Lemma idft_dft ns f x : inb x ns -> idft ns (dft ns f) x = f x.
Proof.
  intros Hx. unfold idft, dft.
  rewrite (sumC_ext _ _ (fun g => sumC (indices ns) (fun y => f y *
     (cis (2 * PI * phase ns (zs x) (zs g))%R * cis (- (2 * PI * phase ns (zs y) (zs g)))%R)))).
  - rewrite sumC_swap.
    rewrite (sumC_ext _ _ (fun y => f y * (if list_eq_dec Nat.eq_dec y x then RtoC (INR (nprod ns)) else 0))).
    + rewrite if_eq_sum by exact Hx. pose proof (inb_pos _ _ Hx) as Hp.
      rewrite RtoC_inv by (apply not_0_INR; pose proof (nprod_pos ns Hp); lia).
      field. apply nprod_C_neq. exact Hp.
    + intros y Hy. apply in_indices in Hy. rewrite sumC_scal, dft_orth by assumption.
      f_equal. destruct (list_eq_dec Nat.eq_dec x y), (list_eq_dec Nat.eq_dec y x); congruence.
  - intros g _. rewrite <- sumC_scal_r. apply sumC_ext. intros y _.
    rewrite (phase_comm ns (zs g) (zs x)), (phase_comm ns (zs g) (zs y)). ring.
Qed.

Lemma dft_idft ns F g : inb g ns -> dft ns (idft ns F) g = F g.
Proof.
  intros Hg. unfold idft, dft.
  rewrite (sumC_ext _ _ (fun x => RtoC (/ INR (nprod ns)) * sumC (indices ns) (fun h => F h *
     (cis (2 * PI * phase ns (zs h) (zs x))%R * cis (- (2 * PI * phase ns (zs g) (zs x)))%R)))).
  - rewrite sumC_scal, sumC_swap.
    rewrite (sumC_ext _ _ (fun y => F y * (if list_eq_dec Nat.eq_dec y g then RtoC (INR (nprod ns)) else 0))).
    + rewrite if_eq_sum by exact Hg. pose proof (inb_pos _ _ Hg) as Hp.
      rewrite RtoC_inv by (apply not_0_INR; pose proof (nprod_pos ns Hp); lia).
      field. apply nprod_C_neq. exact Hp.
    + intros y Hy. apply in_indices in Hy. rewrite sumC_scal, dft_orth by assumption. reflexivity.
  - intros x _. rewrite <- Cmult_assoc. f_equal. rewrite <- sumC_scal_r. apply sumC_ext. intros y _. ring.
Qed.

(** Parseval: inner products. *)
Lemma parseval ns f g : Forall (fun n => (0 < n)%nat) ns ->
  sumC (indices ns) (fun k => Cconj (dft ns f k) * dft ns g k)
  = RtoC (INR (nprod ns)) * sumC (indices ns) (fun x => Cconj (f x) * g x).
Proof.
  intros Hp. unfold dft at 2.
  rewrite (sumC_ext _ _ (fun k => sumC (indices ns) (fun x => g x * (cis (- (2 * PI * phase ns (zs k) (zs x)))%R * Cconj (dft ns f k))))).
  2:{ intros k _. rewrite Cmult_comm, <- sumC_scal_r. apply sumC_ext. intros; ring. }
  rewrite sumC_swap, <- sumC_scal. apply sumC_ext. intros x Hx. apply in_indices in Hx.
  rewrite sumC_scal.
  assert (E : sumC (indices ns) (fun k => cis (- (2 * PI * phase ns (zs k) (zs x)))%R * Cconj (dft ns f k))
          = RtoC (INR (nprod ns)) * Cconj (f x)).
  { rewrite <- (idft_dft ns f x Hx). unfold idft. rewrite Cconj_mult, Cconj_sum, Cconj_R.
    rewrite RtoC_inv by (apply not_0_INR; pose proof (nprod_pos ns Hp); lia).
    rewrite (sumC_ext _ _ (fun k => Cconj (dft ns f k * cis (2 * PI * phase ns (zs k) (zs x))%R))).
    - field. apply nprod_C_neq. exact Hp.
    - intros k _. rewrite Cconj_mult, cis_conj. ring. }
  rewrite E. ring.
Qed.

Lemma parseval_idft ns f g : Forall (fun n => (0 < n)%nat) ns ->
  sumC (indices ns) (fun x => Cconj (idft ns f x) * idft ns g x)
  = RtoC (/ INR (nprod ns)) * sumC (indices ns) (fun x => Cconj (f x) * g x).
Proof.
  intros Hp. pose proof (parseval ns (idft ns f) (idft ns g) Hp) as E.
  rewrite (sumC_ext _ _ (fun x => Cconj (f x) * g x)) in E.
  - rewrite E. rewrite RtoC_inv by (apply not_0_INR; pose proof (nprod_pos ns Hp); lia).
    field. apply nprod_C_neq. exact Hp.
  - intros k Hk. apply in_indices in Hk. rewrite !dft_idft by exact Hk. reflexivity.
Qed.

(** The transform is its own transpose. *)
Lemma dft_transpose ns f g :
  sumC (indices ns) (fun k => dft ns f k * g k) = sumC (indices ns) (fun x => f x * dft ns g x).
Proof.
  unfold dft.
  rewrite (sumC_ext _ _ (fun k => sumC (indices ns) (fun x => f x * cis (- (2 * PI * phase ns (zs k) (zs x)))%R * g k)))
    by (intros k _; rewrite <- sumC_scal_r; reflexivity).
  rewrite sumC_swap. apply sumC_ext. intros x _. rewrite <- sumC_scal. apply sumC_ext. intros k _.
  rewrite (phase_comm ns (zs k) (zs x)). ring.
Qed.

Lemma idft_transpose ns f g :
  sumC (indices ns) (fun k => idft ns f k * g k) = sumC (indices ns) (fun x => f x * idft ns g x).
Proof.
  unfold idft.
  rewrite (sumC_ext _ _ (fun k => sumC (indices ns) (fun x => RtoC (/ INR (nprod ns)) * (f x * cis (2 * PI * phase ns (zs x) (zs k))%R * g k)))).
  2:{ intros k _. rewrite <- Cmult_assoc, <- sumC_scal_r, <- sumC_scal. reflexivity. }
  rewrite sumC_swap. apply sumC_ext. intros x _. rewrite <- sumC_scal, <- sumC_scal. apply sumC_ext. intros k _.
  rewrite (phase_comm ns (zs k) (zs x)). ring.
Qed.

(** Linearity and locality. *)
Lemma dft_ext ns f g k : (forall x, inb x ns -> f x = g x) -> dft ns f k = dft ns g k.
Proof. intros H. unfold dft. apply sumC_ext. intros x Hx. rewrite H; [reflexivity|apply in_indices; exact Hx]. Qed.
Lemma idft_ext ns f g k : (forall x, inb x ns -> f x = g x) -> idft ns f k = idft ns g k.
Proof. intros H. unfold idft. f_equal. apply sumC_ext. intros x Hx. rewrite H; [reflexivity|apply in_indices; exact Hx]. Qed.
Lemma dft_plus ns f g k : dft ns (fun x => f x + g x) k = dft ns f k + dft ns g k.
Proof. unfold dft. rewrite <- sumC_plus. apply sumC_ext. intros; ring. Qed.
Lemma dft_scal ns c f k : dft ns (fun x => c * f x) k = c * dft ns f k.
Proof. unfold dft. rewrite <- sumC_scal. apply sumC_ext. intros; ring. Qed.
Lemma idft_plus ns f g k : idft ns (fun x => f x + g x) k = idft ns f k + idft ns g k.
Proof. unfold idft. rewrite <- Cmult_plus_distr_l. f_equal. rewrite <- sumC_plus. apply sumC_ext. intros; ring. Qed.
Lemma idft_scal ns c f k : idft ns (fun x => c * f x) k = c * idft ns f k.
Proof.
  unfold idft. rewrite (sumC_ext _ _ (fun g => c * (f g * cis (2 * PI * phase ns (zs g) (zs k))%R))) by (intros; ring).
  rewrite sumC_scal. ring.
Qed.
Lemma dft_sum {X} ns (l : list X) (f : X -> list nat -> C) k :
  dft ns (fun x => sumC l (fun a => f a x)) k = sumC l (fun a => dft ns (f a) k).
Proof.
  induction l as [|a l IH]; simpl.
  - unfold dft. apply sumC_zero. intros; ring.
  - rewrite dft_plus, IH. reflexivity.
Qed.
