(** Eigenvalues of a compression: Poincare separation. *)
From Coq Require Import Reals Lra Lia List Arith Bool Classical.
From Coquelicot Require Import Complex.
From Verif Require Import Sums EigSpec.
Import ListNotations.
Local Open Scope R_scope.

Lemma seq_in k n : In k (seq 0 n) <-> (k < n)%nat.
Proof. rewrite in_seq. lia. Qed.
Lemma sum_kron n i (f : nat -> C) : (i < n)%nat -> sumC (seq 0 n) (fun j => kron i j * f j)%C = f i.
Proof.
  intros Hi. rewrite (sumC_single _ i); [unfold kron; rewrite Nat.eqb_refl; ring|apply seq_NoDup|apply seq_in; exact Hi|].
  intros j _ Hj. unfold kron. destruct (Nat.eqb_spec i j); [congruence|ring].
Qed.
Lemma sum_S n (f : nat -> C) : sumC (seq 0 (S n)) f = (sumC (seq 0 n) f + f n)%C.
Proof. rewrite seq_S, sumC_app. cbn. ring. Qed.
Lemma sumR_S n (f : nat -> R) : sumR (seq 0 (S n)) f = sumR (seq 0 n) f + f n.
Proof. rewrite seq_S, sumR_app. cbn. ring. Qed.

Lemma C1_neq : RtoC 1 <> RtoC 0.
Proof. intros H. apply RtoC_inj in H. lra. Qed.

(** m homogeneous equations in m + 1 unknowns have a solution other than zero. *)
Definition skip (e0 e : nat) : nat := if (e <? e0)%nat then e else S e.
Lemma homogeneous m : forall a : nat -> nat -> C,
  exists x : nat -> C, (exists i, (i <= m)%nat /\ x i <> RtoC 0) /\
    forall e, (e < m)%nat -> sumC (seq 0 (S m)) (fun i => a e i * x i)%C = RtoC 0.
Proof.
  induction m as [|m IH]; intros a.
  - exists (fun _ => RtoC 1). split; [exists 0%nat; split; [lia|apply C1_neq]|]. intros e He. lia.
  - destruct (classic (exists e0, (e0 <= m)%nat /\ a e0 (S m) <> RtoC 0)) as [(e0 & He0 & Hp)|Hn].
    + destruct (IH (fun e i => a (skip e0 e) i - a (skip e0 e) (S m) / a e0 (S m) * a e0 i)%C) as (x & (i0 & Hi0 & Hx) & Hs).
      set (p := a e0 (S m)) in *.
      set (t := (- (sumC (seq 0 (S m)) (fun i => a e0 i * x i)) / p)%C).
      exists (fun i => if (i =? S m)%nat then t else x i). split.
      { exists i0. split; [lia|]. destruct (Nat.eqb_spec i0 (S m)); [lia|exact Hx]. }
      intros e He. rewrite sum_S. rewrite Nat.eqb_refl.
      rewrite (sumC_ext _ _ (fun i => a e i * x i)%C).
      2:{ intros i Hi. apply seq_in in Hi. destruct (Nat.eqb_spec i (S m)); [lia|reflexivity]. }
      destruct (Nat.eq_dec e e0) as [->|Hne]; [unfold t; fold p; field; exact Hp|].
      assert (exists e', (e' < m)%nat /\ skip e0 e' = e) as (e' & He' & <-).
      { destruct (Nat.lt_ge_cases e e0) as [L|L].
        - exists e. split; [lia|]. unfold skip. destruct (Nat.ltb_spec e e0); lia.
        - exists (e - 1)%nat. split; [lia|]. unfold skip. destruct (Nat.ltb_spec (e - 1) e0); lia. }
      specialize (Hs e' He').
      rewrite (sumC_ext _ _ (fun i => a (skip e0 e') i * x i + - (a (skip e0 e') (S m) / p) * (a e0 i * x i))%C) in Hs by (intros; ring).
      rewrite sumC_plus, sumC_scal in Hs. rewrite <- Hs. unfold t. field. exact Hp.
    + exists (fun i => if (i =? S m)%nat then RtoC 1 else RtoC 0). split.
      { exists (S m). split; [lia|]. rewrite Nat.eqb_refl. apply C1_neq. }
      intros e He. rewrite sum_S, Nat.eqb_refl. rewrite sumC_zero.
      2:{ intros i Hi. apply seq_in in Hi. destruct (Nat.eqb_spec i (S m)); [lia|ring]. }
      assert (a e (S m) = RtoC 0) as ->; [|ring].
      apply NNPP. intros Hc. apply Hn. exists e. split; [lia|exact Hc].
Qed.

(** Applying matrices *)
Definition mulv (n : nat) (Q : nat -> nat -> C) (x : nat -> C) (g : nat) : C := sumC (seq 0 n) (fun b => Q g b * x b)%C.
Definition norm2 (n : nat) (x : nat -> C) : R := sumR (seq 0 n) (fun i => Cnorm2 (x i)).
Definition coord (n : nat) (V : nat -> nat -> C) (x : nat -> C) (m : nat) : C := sumC (seq 0 n) (fun g => Cconj (V g m) * x g)%C.

Lemma norm2_sum n x : sumC (seq 0 n) (fun i => Cconj (x i) * x i)%C = RtoC (norm2 n x).
Proof. unfold norm2. rewrite <- sumC_RtoC. apply sumC_ext. intros i _. apply Cconj_mult_self. Qed.

(** sum_g conj((Qx)_g) F_g = sum_b conj(x_b) sum_g conj(Q_gb) F_g *)
Lemma left_mul n B Q x (F : nat -> C) : sumC (seq 0 n) (fun g => Cconj (mulv B Q x g) * F g)%C = sumC (seq 0 B) (fun b => Cconj (x b) * sumC (seq 0 n) (fun g => Cconj (Q g b) * F g))%C.
Proof.
  unfold mulv. rewrite (sumC_ext _ _ (fun g => sumC (seq 0 B) (fun b => Cconj (x b) * (Cconj (Q g b) * F g)))%C).
  - rewrite sumC_swap. apply sumC_ext. intros b _. rewrite sumC_scal. reflexivity.
  - intros g _. rewrite Cconj_sum, <- sumC_scal_r. apply sumC_ext. intros b _. rewrite Cconj_mult. ring.
Qed.
Lemma isometry n B Q x : orthonormal_columns n B Q -> norm2 n (mulv B Q x) = norm2 B x.
Proof.
  intros HQ. apply RtoC_inj. rewrite <- !norm2_sum, left_mul. apply sumC_ext. intros b Hb. apply seq_in in Hb. f_equal.
  rewrite (sumC_ext _ _ (fun g => sumC (seq 0 B) (fun b' => Cconj (Q g b) * Q g b' * x b')%C)).
  - rewrite sumC_swap. rewrite (sumC_ext _ _ (fun b' => kron b b' * x b')%C).
    + apply sum_kron. exact Hb.
    + intros b' Hb'. apply seq_in in Hb'. rewrite sumC_scal_r, HQ by assumption. reflexivity.
  - intros g _. unfold mulv. rewrite <- sumC_scal. apply sumC_ext. intros; ring.
Qed.
(** (Qx)^H A (Qx) = x^H (Q^H A Q) x *)
Definition quad (n : nat) (A : nat -> nat -> C) (x : nat -> C) : C := sumC (seq 0 n) (fun i => Cconj (x i) * mulv n A x i)%C.
Lemma quad_compress n B A Q x : quad n A (mulv B Q x) = quad B (compress n A Q) x.
Proof.
  unfold quad. rewrite left_mul. apply sumC_ext. intros b _. f_equal. unfold mulv at 1 3. unfold compress.
  rewrite (sumC_ext _ _ (fun g => sumC (seq 0 B) (fun b' => sumC (seq 0 n) (fun g' => Cconj (Q g b) * A g g' * Q g' b' * x b')))%C).
  - rewrite sumC_swap. apply sumC_ext. intros b' _. rewrite <- sumC_scal_r. apply sumC_ext. intros g _. rewrite sumC_scal_r. reflexivity.
  - intros g _. rewrite <- sumC_scal, sumC_swap. apply sumC_ext. intros g' _. unfold mulv.
    rewrite <- !sumC_scal. apply sumC_ext. intros; ring.
Qed.
Lemma quad_ext n A A' x : (forall i j, (i < n)%nat -> (j < n)%nat -> A i j = A' i j) -> quad n A x = quad n A' x.
Proof.
  intros H. apply sumC_ext. intros i Hi. apply seq_in in Hi. f_equal. apply sumC_ext. intros j Hj. apply seq_in in Hj. rewrite H by assumption. reflexivity.
Qed.

Section Spec.
  Variables (n : nat) (H V : nat -> nat -> C) (lam : nat -> R).
  Hypothesis Hc : orthonormal_columns n n V.
  Hypothesis Hr : forall i j, (i < n)%nat -> (j < n)%nat -> sumC (seq 0 n) (fun m => V i m * Cconj (V j m))%C = kron i j.
  Hypothesis HH : forall i j, (i < n)%nat -> (j < n)%nat -> H i j = sumC (seq 0 n) (fun m => V i m * RtoC (lam m) * Cconj (V j m))%C.

  Lemma quad_coord x : quad n H x = RtoC (sumR (seq 0 n) (fun m => lam m * Cnorm2 (coord n V x m))).
  Proof.
    rewrite <- sumC_RtoC. unfold quad, mulv.
    rewrite (sumC_ext _ _ (fun i => sumC (seq 0 n) (fun m => sumC (seq 0 n) (fun j => Cconj (x i) * V i m * RtoC (lam m) * (Cconj (V j m) * x j))))%C).
    - rewrite sumC_swap. apply sumC_ext. intros m _. rewrite RtoC_mult, <- Cconj_mult_self. unfold coord.
      rewrite Cconj_sum, sumC_mult, <- sumC_scal. apply sumC_ext. intros i _. rewrite <- sumC_scal. apply sumC_ext. intros j _.
      rewrite Cconj_mult, Cconj_conj. ring.
    - intros i Hi. apply seq_in in Hi. rewrite sumC_swap, <- sumC_scal. apply sumC_ext. intros j Hj. apply seq_in in Hj.
      rewrite HH by assumption. rewrite <- sumC_scal_r, <- sumC_scal. apply sumC_ext. intros; ring.
  Qed.
  Lemma norm_coord x : norm2 n x = sumR (seq 0 n) (fun m => Cnorm2 (coord n V x m)).
  Proof.
    apply RtoC_inj. rewrite <- norm2_sum, <- sumC_RtoC.
    rewrite (sumC_ext _ (fun m => RtoC (Cnorm2 (coord n V x m))) (fun m => sumC (seq 0 n) (fun i => sumC (seq 0 n) (fun j => Cconj (x i) * ((V i m * Cconj (V j m)) * x j))))%C).
    - rewrite sumC_swap. apply sumC_ext. intros i Hi. apply seq_in in Hi. rewrite sumC_swap.
      rewrite (sumC_ext _ _ (fun j => Cconj (x i) * (kron i j * x j))%C).
      + rewrite sumC_scal, sum_kron by exact Hi. reflexivity.
      + intros j Hj. apply seq_in in Hj. rewrite sumC_scal, sumC_scal_r, Hr by assumption. reflexivity.
    - intros m _. rewrite <- Cconj_mult_self. unfold coord. rewrite Cconj_sum, sumC_mult. apply sumC_ext. intros i _. apply sumC_ext. intros j _.
      rewrite Cconj_mult, Cconj_conj. ring.
  Qed.
  Lemma coord_mulv x m : (m < n)%nat -> coord n V (mulv n V x) m = x m.
  Proof.
    intros Hm. unfold coord, mulv.
    rewrite (sumC_ext _ _ (fun g => sumC (seq 0 n) (fun b => Cconj (V g m) * V g b * x b)%C)).
    - rewrite sumC_swap. rewrite (sumC_ext _ _ (fun b => kron m b * x b)%C); [apply sum_kron; exact Hm|].
      intros b Hb. apply seq_in in Hb. rewrite sumC_scal_r, Hc by assumption. reflexivity.
    - intros g _. rewrite <- sumC_scal. apply sumC_ext. intros; ring.
  Qed.
End Spec.

Lemma norm2_pos n x i : (i < n)%nat -> x i <> RtoC 0 -> 0 < norm2 n x.
Proof.
  intros Hi Hx. assert (Cnorm2 (x i) <= norm2 n x).
  { apply (sumR_ge_term _ (fun i => Cnorm2 (x i))); [intros; apply Cnorm2_nonneg|apply seq_in; exact Hi]. }
  pose proof (Cnorm2_nonneg (x i)). assert (Cnorm2 (x i) <> 0) by (rewrite Cnorm2_zero; exact Hx). lra.
Qed.
(** The quadratic form is at least lam a on vectors orthogonal to the first a eigenvectors. *)
Lemma quad_lower n H V lam x a : ascending n lam ->
  (forall i j, (i < n)%nat -> (j < n)%nat -> sumC (seq 0 n) (fun m => V i m * Cconj (V j m))%C = kron i j) ->
  (forall i j, (i < n)%nat -> (j < n)%nat -> H i j = sumC (seq 0 n) (fun m => V i m * RtoC (lam m) * Cconj (V j m))%C) ->
  (forall m, (m < a)%nat -> (m < n)%nat -> coord n V x m = RtoC 0) -> lam a * norm2 n x <= Re (quad n H x).
Proof.
  intros Ha Hr HH Hz. rewrite (quad_coord n H V lam HH), (norm_coord n V Hr). cbn [Re fst RtoC]. rewrite <- sumR_scal. apply sumR_le.
  intros m Hm. apply seq_in in Hm. destruct (Nat.lt_ge_cases m a) as [L|L].
  - rewrite (Hz m L Hm). replace (Cnorm2 (RtoC 0)) with 0 by (unfold Cnorm2; cbn; ring). lra.
  - apply Rmult_le_compat_r; [apply Cnorm2_nonneg|]. apply Ha; assumption.
Qed.
Lemma quad_upper n H V lam x a : ascending n lam -> (a < n)%nat ->
  (forall i j, (i < n)%nat -> (j < n)%nat -> sumC (seq 0 n) (fun m => V i m * Cconj (V j m))%C = kron i j) ->
  (forall i j, (i < n)%nat -> (j < n)%nat -> H i j = sumC (seq 0 n) (fun m => V i m * RtoC (lam m) * Cconj (V j m))%C) ->
  (forall m, (a < m)%nat -> (m < n)%nat -> coord n V x m = RtoC 0) -> Re (quad n H x) <= lam a * norm2 n x.
Proof.
  intros Ha Hn Hr HH Hz. rewrite (quad_coord n H V lam HH), (norm_coord n V Hr). cbn [Re fst RtoC]. rewrite <- sumR_scal. apply sumR_le.
  intros m Hm. apply seq_in in Hm. destruct (Nat.lt_ge_cases a m) as [L|L].
  - rewrite (Hz m L Hm). replace (Cnorm2 (RtoC 0)) with 0 by (unfold Cnorm2; cbn; ring). lra.
  - apply Rmult_le_compat_r; [apply Cnorm2_nonneg|]. apply Ha; assumption.
Qed.

(** A nonzero combination y of columns a, ..., a+m that solves m equations. *)
Lemma combine m a N (eqs : nat -> nat -> C) : (a + m < N)%nat ->
  exists y, (exists i, (i < N)%nat /\ y i <> RtoC 0) /\ (forall i, (i < a \/ a + m < i)%nat -> y i = RtoC 0) /\
    forall e, (e < m)%nat -> sumC (seq 0 N) (fun i => eqs e i * y i)%C = RtoC 0.
Proof.
  intros HN. destruct (homogeneous m (fun e i => eqs e (a + i)%nat)) as (x & (i0 & Hi0 & Hx) & Hs).
  exists (fun i => if (a <=? i)%nat && (i <=? a + m)%nat then x (i - a)%nat else RtoC 0). split; [|split].
  - exists (a + i0)%nat. split; [lia|]. destruct (Nat.leb_spec a (a + i0)); [|lia]. destruct (Nat.leb_spec (a + i0) (a + m)); [|lia]. cbn [andb].
    replace (a + i0 - a)%nat with i0 by lia. exact Hx.
  - intros i Hi. destruct (Nat.leb_spec a i), (Nat.leb_spec i (a + m)); cbn; try reflexivity; lia.
  - intros e He. etransitivity; [|exact (Hs e He)]. replace N with (a + (S m + (N - a - S m)))%nat by lia.
    rewrite seq_app, sumC_app, seq_app, sumC_app. rewrite sumC_zero.
    2:{ intros i Hi. apply in_seq in Hi. destruct (Nat.leb_spec a i); [lia|]. cbn [andb]. ring. }
    rewrite (sumC_zero (seq (0 + a + S m) _)).
    2:{ intros i Hi. apply in_seq in Hi. destruct (Nat.leb_spec i (a + m)); [lia|]. rewrite Bool.andb_false_r. ring. }
    rewrite Cplus_0_l, Cplus_0_r. replace (seq (0 + a) (S m)) with (map (fun i => (a + i)%nat) (seq 0 (S m))).
    2:{ clear. generalize (S m). intros k. generalize 0%nat at 1 2. induction k as [|k IH]; intros z; cbn; [reflexivity|].
        f_equal; [lia|]. rewrite IH. reflexivity. }
    rewrite sumC_map. apply sumC_ext. intros i Hi. apply seq_in in Hi. destruct (Nat.leb_spec a (a + i)); [|lia]. destruct (Nat.leb_spec (a + i) (a + m)); [|lia]. cbn [andb].
    replace (a + i - a)%nat with i by lia. reflexivity.
Qed.

(** More orthonormal columns than rows do not exist. *)
Lemma columns_le n B Q : orthonormal_columns n B Q -> (B <= n)%nat.
Proof.
  intros HQ. destruct (Nat.le_gt_cases B n) as [|L]; [assumption|].
  destruct (combine n 0 B (fun e i => Q e i)) as (y & (i & Hi & Hy) & _ & Hs); [lia|].
  pose proof (norm2_pos B y i Hi Hy) as P. rewrite <- (isometry n B Q y HQ) in P.
  assert (norm2 n (mulv B Q y) = 0); [|lra].
  apply sumR_zero. intros g Hg. apply seq_in in Hg. apply Cnorm2_zero. apply Hs. exact Hg.
Qed.

Section Poincare.
  Variables (n B : nat) (A Q M : nat -> nat -> C) (lam mu : nat -> R).
  Hypothesis HQ : orthonormal_columns n B Q.
  Hypothesis HM : forall i j, (i < B)%nat -> (j < B)%nat -> M i j = compress n A Q i j.
  Hypothesis HA : spectrum n A lam.
  Hypothesis HS : spectrum B M mu.

  Lemma quad_M x : Re (quad B M x) = Re (quad n A (mulv B Q x)).
  Proof. rewrite (quad_ext B M _ x HM), quad_compress. reflexivity. Qed.

  Lemma coord_lin V U y m : coord n V (mulv B Q (mulv B U y)) m = sumC (seq 0 B) (fun b => sumC (seq 0 n) (fun g => Cconj (V g m) * mulv B Q (fun c => U c b) g) * y b)%C.
  Proof.
    unfold coord, mulv.
    rewrite (sumC_ext _ _ (fun g => sumC (seq 0 B) (fun b => Cconj (V g m) * sumC (seq 0 B) (fun c => Q g c * U c b) * y b)%C)).
    - rewrite sumC_swap. apply sumC_ext. intros b _. rewrite sumC_scal_r. reflexivity.
    - intros g _. rewrite <- sumC_scal. rewrite (sumC_ext _ _ (fun c => sumC (seq 0 B) (fun b => Cconj (V g m) * (Q g c * U c b) * y b))%C).
      + rewrite sumC_swap. apply sumC_ext. intros b _. rewrite sumC_scal_r, sumC_scal. reflexivity.
      + intros c _. rewrite <- sumC_scal, <- sumC_scal. apply sumC_ext. intros; ring.
  Qed.

  Lemma separation_lower i : (i < B)%nat -> lam i <= mu i.
  Proof.
    intros Hi. destruct HA as (Ha & V & Vc & Vr & VH). destruct HS as (Hs & U & Uc & Ur & UH).
    destruct (combine i 0 B (fun e b => sumC (seq 0 n) (fun g => Cconj (V g e) * mulv B Q (fun c => U c b) g)%C)) as (y & (i0 & Hi0 & Hy) & Hz & Hq); [lia|].
    set (x := mulv B U y).
    assert (N : norm2 B x = norm2 B y) by (apply isometry; exact Uc).
    pose proof (norm2_pos B y i0 Hi0 Hy) as P.
    assert (L : lam i * norm2 n (mulv B Q x) <= Re (quad n A (mulv B Q x))).
    { apply (quad_lower n A V lam); try assumption. intros m Hm _. unfold x. rewrite coord_lin. apply Hq. exact Hm. }
    assert (Up : Re (quad B M x) <= mu i * norm2 B x).
    { apply (quad_upper B M U mu); try assumption. intros m Hm Hm'. unfold x. rewrite (coord_mulv B U Uc) by exact Hm'. apply Hz. lia. }
    rewrite (isometry n B Q x HQ) in L. rewrite quad_M in Up. rewrite N in *. apply (Rmult_le_reg_r (norm2 B y)); [exact P|lra].
  Qed.

  Lemma separation_upper i : (i < B)%nat -> mu i <= lam (n - B + i)%nat.
  Proof.
    intros Hi. pose proof (columns_le n B Q HQ) as HB. destruct HA as (Ha & V & Vc & Vr & VH). destruct HS as (Hs & U & Uc & Ur & UH).
    destruct (combine (B - 1 - i) i B (fun e b => sumC (seq 0 n) (fun g => Cconj (V g (n - B + i + 1 + e)%nat) * mulv B Q (fun c => U c b) g)%C)) as (y & (i0 & Hi0 & Hy) & Hz & Hq); [lia|].
    set (x := mulv B U y).
    assert (N : norm2 B x = norm2 B y) by (apply isometry; exact Uc).
    pose proof (norm2_pos B y i0 Hi0 Hy) as P.
    assert (L : Re (quad n A (mulv B Q x)) <= lam (n - B + i)%nat * norm2 n (mulv B Q x)).
    { apply (quad_upper n A V lam); try assumption; [lia|]. intros m Hm Hm'. unfold x. rewrite coord_lin.
      replace m with (n - B + i + 1 + (m - (n - B + i + 1)))%nat by lia. apply Hq. lia. }
    assert (Up : mu i * norm2 B x <= Re (quad B M x)).
    { apply (quad_lower B M U mu); try assumption. intros m Hm Hm'. unfold x. rewrite (coord_mulv B U Uc) by exact Hm'. apply Hz. lia. }
    rewrite (isometry n B Q x HQ) in L. rewrite quad_M in Up. rewrite N in *. apply (Rmult_le_reg_r (norm2 B y)); [exact P|lra].
  Qed.
End Poincare.

(** The trace is the sum of the eigenvalues. *)
Lemma spectrum_trace n H lam : spectrum n H lam -> sumC (seq 0 n) (fun i => H i i) = RtoC (sumR (seq 0 n) lam).
Proof.
  intros (_ & V & Hc & _ & HH). rewrite <- sumC_RtoC.
  rewrite (sumC_ext _ _ (fun i => sumC (seq 0 n) (fun m => RtoC (lam m) * (Cconj (V i m) * V i m))%C)).
  - rewrite sumC_swap. apply sumC_ext. intros m Hm. apply seq_in in Hm. rewrite sumC_scal, Hc by assumption. unfold kron. rewrite Nat.eqb_refl. ring.
  - intros i Hi. apply seq_in in Hi. rewrite HH by assumption. apply sumC_ext. intros; ring.
Qed.
Lemma spectrum_hermitian n H lam : spectrum n H lam -> hermitian n H.
Proof.
  intros (_ & V & _ & _ & HH) i j Hi Hj. rewrite !HH by assumption. rewrite Cconj_sum. apply sumC_ext. intros m _.
  rewrite !Cconj_mult, Cconj_conj, Cconj_R. ring.
Qed.
Lemma kron_columns n : orthonormal_columns n n kron.
Proof.
  intros i j Hi Hj. rewrite (sumC_ext _ _ (fun g => kron i g * kron g j)%C); [apply (sum_kron n i (fun m => kron m j)); exact Hi|].
  intros g _. unfold kron. rewrite (Nat.eqb_sym i g). destruct (g =? i)%nat; rewrite ?Cconj_R; reflexivity.
Qed.
Lemma compress_kron n A i j : (i < n)%nat -> (j < n)%nat -> A i j = compress n A kron i j.
Proof.
  intros Hi Hj. unfold compress. rewrite (sumC_ext _ _ (fun g => kron i g * A g j)%C); [rewrite sum_kron by exact Hi; reflexivity|].
  intros g _. rewrite (sumC_ext _ _ (fun g' => kron j g' * (Cconj (kron g i) * A g g'))%C).
  - rewrite sum_kron by exact Hj. f_equal. unfold kron. rewrite (Nat.eqb_sym i g). destruct (g =? i)%nat; rewrite ?Cconj_R; reflexivity.
  - intros g' _. unfold kron at 2 3. rewrite (Nat.eqb_sym j g'). ring.
Qed.
(** The eigenvalues are determined by the matrix. *)
Lemma spectrum_unique n H lam mu : spectrum n H lam -> spectrum n H mu -> forall i, (i < n)%nat -> lam i = mu i.
Proof.
  intros H1 H2 i Hi. apply Rle_antisym.
  - apply (separation_lower n n H kron H lam mu); try assumption; [apply kron_columns|intros; apply compress_kron; assumption].
  - apply (separation_lower n n H kron H mu lam); try assumption; [apply kron_columns|intros; apply compress_kron; assumption].
Qed.
Lemma spectrum_ext n H H' lam : (forall i j, (i < n)%nat -> (j < n)%nat -> H i j = H' i j) -> spectrum n H lam -> spectrum n H' lam.
Proof. intros E (Ha & V & Hc & Hr & HH). split; [exact Ha|]. exists V. repeat split; try assumption. intros i j Hi Hj. rewrite <- E by assumption. apply HH; assumption. Qed.
(** Diagonal matrices in ascending order *)
Lemma spectrum_diagonal n lam : ascending n lam -> spectrum n (fun i j => if (i =? j)%nat then RtoC (lam i) else RtoC 0) lam.
Proof.
  intros Ha. split; [exact Ha|]. exists kron. split; [apply kron_columns|]. split.
  - intros i j Hi Hj. rewrite (sumC_ext _ _ (fun m => kron i m * kron m j)%C); [apply (sum_kron n i (fun m => kron m j)); exact Hi|].
    intros m _. unfold kron. rewrite (Nat.eqb_sym j m). destruct (m =? j)%nat; rewrite ?Cconj_R; reflexivity.
  - intros i j Hi Hj. rewrite (sumC_ext _ _ (fun m => kron i m * (RtoC (lam m) * kron m j))%C).
    + rewrite sum_kron by exact Hi. unfold kron. destruct (i =? j)%nat; ring.
    + intros m _. unfold kron. rewrite (Nat.eqb_sym j m). destruct (m =? j)%nat; rewrite ?Cconj_R; ring.
Qed.
