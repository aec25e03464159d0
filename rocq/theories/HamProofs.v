(** Proofs about the complex Hessian and the Hamiltonian matrix. *)
From Coq Require Import Reals Lra Lia.
From Coquelicot Require Import Coquelicot.
From Coq Require Import Ascii String List Arith ZArith Bool.
From Verif Require Import Base Sums Tensor DFT GridModel PadModel Lin3 VecModel PwModel BraketModel XcModel EnergyModel HamModel HamSpec.
Import ListNotations.
Local Open Scope R_scope.

Lemma derive_quadratic (a l q : R) : Derive (fun s => a + s * l + s * s * q) 0 = l.
Proof. apply is_derive_unique. auto_derive; [exact I|ring]. Qed.
Lemma derive_line (f : R -> R) (a l : R) : (forall s, f s = a + s * l) -> Derive f 0 = l.
Proof. intros H. rewrite (Derive_ext f (fun s => a + s * l + s * s * 0)) by (intros s; rewrite H; ring). apply derive_quadratic. Qed.
Lemma derive_poly (f : R -> R) (a l q : R) : (forall s, f s = a + s * l + s * s * q) -> Derive f 0 = l.
Proof. intros H. rewrite (Derive_ext f _ 0 H). apply derive_quadratic. Qed.

Lemma sumC_one m k (v : C) (f : nat -> C) : (k < m)%nat -> (forall j, (j < m)%nat -> j <> k -> f j = RtoC 0) -> f k = v -> sumC (seq 0 m) f = v.
Proof.
  intros Hk H0 Hv. rewrite (sumC_single _ k), Hv; [reflexivity|apply seq_NoDup|apply in_seq; lia|].
  intros x Hx Hn. apply in_seq in Hx. apply H0; [lia|exact Hn].
Qed.

(** sums along a moved point *)
Lemma sum_move m (a : nat -> C) x k d s : (k < m)%nat ->
  sumC (seq 0 m) (fun j => a j * move x k d s j)%C = (sumC (seq 0 m) (fun j => a j * x j) + RtoC s * (a k * d))%C.
Proof.
  intros Hk. rewrite (sumC_ext _ _ (fun j => a j * x j + (if Nat.eqb j k then RtoC s * (a k * d) else RtoC 0))%C).
  - rewrite sumC_plus. f_equal. apply (sumC_one m k); [exact Hk| |rewrite Nat.eqb_refl; reflexivity].
    intros j _ Hj. apply Nat.eqb_neq in Hj. rewrite Hj. reflexivity.
  - intros j _. unfold move. destruct (Nat.eqb_spec j k) as [->|_]; ring.
Qed.
Lemma sum_move_conj m (a : nat -> C) x k d s : (k < m)%nat ->
  sumC (seq 0 m) (fun j => Cconj (move x k d s j) * a j)%C = (sumC (seq 0 m) (fun j => Cconj (x j) * a j) + RtoC s * (Cconj d * a k))%C.
Proof.
  intros Hk. rewrite (sumC_ext _ _ (fun j => Cconj (x j) * a j + (if Nat.eqb j k then RtoC s * (Cconj d * a k) else RtoC 0))%C).
  - rewrite sumC_plus. f_equal. apply (sumC_one m k); [exact Hk| |rewrite Nat.eqb_refl; reflexivity].
    intros j _ Hj. apply Nat.eqb_neq in Hj. rewrite Hj. reflexivity.
  - intros j _. unfold move. destruct (Nat.eqb_spec j k) as [->|_]; [rewrite Cconj_plus, Cconj_mult, Cconj_R|]; ring.
Qed.

(* anchor *)
Section Quad.
  Context (m : nat) (c : R) (b : nat -> C) (H S : nat -> nat -> C).
  Definition mv (M : nat -> nat -> C) (x : cvec) (i : nat) : C := sumC (seq 0 m) (fun j => M i j * x j)%C.

  Lemma sesq_move x k d s : (k < m)%nat -> sesquilinear m H (move x k d s) = 
    (sesquilinear m H x + RtoC s * (Cconj d * mv H x k + d * sumC (seq 0 m) (fun i => Cconj (x i) * H i k)) + RtoC (s * s) * (Cconj d * d * H k k))%C.
  Proof.
    intros Hk. unfold sesquilinear, mv.
    rewrite (sumC_ext _ _ (fun i => Cconj (move x k d s i) * sumC (seq 0 m) (fun j => H i j * move x k d s j))%C) by (intros i _; rewrite <- sumC_scal; apply sumC_ext; intros; ring).
    rewrite sum_move_conj by exact Hk.
    rewrite (sumC_ext _ (fun j => Cconj (x j) * _)%C (fun i => sumC (seq 0 m) (fun j => Cconj (x i) * H i j * x j) + RtoC s * d * (Cconj (x i) * H i k))%C).
    2:{ intros i _. rewrite sum_move by exact Hk. rewrite Cmult_plus_distr_l, <- sumC_scal. f_equal; [apply sumC_ext; intros; ring|ring]. }
    rewrite sumC_plus, sumC_scal, sum_move by exact Hk. rewrite RtoC_mult. ring.
  Qed.
  Lemma bil_move x k d s : (k < m)%nat -> bilinear m S (move x k d s) = 
    (bilinear m S x + RtoC s * (d * mv S x k + d * sumC (seq 0 m) (fun i => x i * S i k)) + RtoC (s * s) * (d * d * S k k))%C.
  Proof.
    intros Hk. unfold bilinear, mv.
    rewrite (sumC_ext _ _ (fun i => sumC (seq 0 m) (fun j => S i j * move x k d s j) * move x k d s i)%C) by (intros i _; rewrite <- sumC_scal_r; apply sumC_ext; intros; ring).
    rewrite sum_move by exact Hk.
    rewrite (sumC_ext _ (fun j => _ * x j)%C (fun i => sumC (seq 0 m) (fun j => x i * S i j * x j) + RtoC s * d * (x i * S i k))%C).
    2:{ intros i _. rewrite sum_move by exact Hk. rewrite Cmult_plus_distr_r, <- sumC_scal_r. f_equal; [apply sumC_ext; intros; ring|ring]. }
    rewrite sumC_plus, sumC_scal, sum_move by exact Hk. rewrite RtoC_mult. ring.
  Qed.

  Context (f : cvec -> C) (Hf : forall y, Re (f y) = real_quadratic m c b H S y).

  Definition gradq (x : cvec) (k : nat) : C := (b k + Cconj (mv (herm H) x k) + mv (symm S) x k)%C.

  Lemma col_conj x k : Cconj (sumC (seq 0 m) (fun i => Cconj (x i) * H i k))%C = sumC (seq 0 m) (fun i => Cconj (H i k) * x i)%C.
  Proof. rewrite Cconj_sum. apply sumC_ext. intros i _. rewrite Cconj_mult, Cconj_conj. ring. Qed.

  Lemma mv_herm x k : mv (herm H) x k = (RtoC (/ 2) * (mv H x k + sumC (seq 0 m) (fun i => Cconj (H i k) * x i)))%C.
  Proof. unfold mv, herm. rewrite <- sumC_plus, <- sumC_scal. apply sumC_ext. intros j _. ring. Qed.
  Lemma mv_symm x k : mv (symm S) x k = (RtoC (/ 2) * (mv S x k + sumC (seq 0 m) (fun i => x i * S i k)))%C.
  Proof. unfold mv, symm. rewrite <- sumC_plus, <- sumC_scal. apply sumC_ext. intros j _. ring. Qed.

  Lemma first_derivative x k d : (k < m)%nat ->
    Derive (fun s => Re (sumC (seq 0 1) (fun j => RtoC 1 * f (move x k d s)))%C) 0 = Re (d * (b k + mv (symm S) x k) + Cconj d * mv (herm H) x k)%C.
  Proof.
    intros Hk.
    apply (derive_poly _ (real_quadratic m c b H S x) _ (Re (RtoC (/ 2) * (Cconj d * d * H k k + d * d * S k k))%C)).
    intros s. replace (Re (sumC (seq 0 1) (fun _ => RtoC 1 * f (move x k d s))%C)) with (Re (f (move x k d s))) by (cbn [seq sumC]; f_equal; ring).
    rewrite Hf. unfold real_quadratic. rewrite sum_move, sesq_move, bil_move by exact Hk. rewrite mv_herm, mv_symm.
    set (Z := mv H x k). set (W := mv S x k).
    assert (E : sumC (seq 0 m) (fun i => Cconj (x i) * H i k)%C = Cconj (sumC (seq 0 m) (fun i => Cconj (H i k) * x i)%C)) by (rewrite <- col_conj, Cconj_conj; reflexivity).
    rewrite E. set (Z' := sumC (seq 0 m) (fun i => Cconj (H i k) * x i)%C). set (W' := sumC (seq 0 m) (fun i => x i * S i k)%C).
    set (B0 := sumC (seq 0 m) (fun j => b j * x j)%C). set (Q0 := sesquilinear m H x). set (P0 := bilinear m S x).
    generalize (H k k) (S k k) (b k) Z W Z' W' B0 Q0 P0. clear. intros [h1 h2] [s1 s2] [b1 b2] [z1 z2] [w1 w2] [z3 z4] [w3 w4] [p1 p2] [q1 q2] [r1 r2].
    destruct d as [d1 d2]. unfold Re, Cmult, Cplus, Cconj, RtoC. cbn [fst snd]. field.
  Qed.

  Lemma grad_value x k : (k < m)%nat -> vjp 1 (fun z _ => f z) x (fun _ => RtoC 1) k = gradq x k.
  Proof.
    intros Hk. unfold vjp. rewrite !first_derivative by exact Hk. unfold gradq.
    generalize (b k) (mv (symm S) x k) (mv (herm H) x k). intros [b1 b2] [s1 s2] [h1 h2]. unfold Re, Cmult, Cplus, Cconj, RtoC, Ci. cbn [fst snd].
    apply injective_projections; cbn; ring.
  Qed.

  Lemma mv_move M x i k d s : (k < m)%nat -> mv M (move x k d s) i = (mv M x i + RtoC s * (M i k * d))%C.
  Proof. intros Hk. unfold mv. apply sum_move, Hk. Qed.

  Lemma second_derivative x i k d : (i < m)%nat -> (k < m)%nat ->
    Derive (fun s => Re (sumC (seq 0 m) (fun j => (if Nat.eqb j i then RtoC 1 else RtoC 0) * vjp 1 (fun z _ => f z) (move x k d s) (fun _ => RtoC 1) j))%C) 0
    = Re (Cconj (herm H i k * d) + symm S i k * d)%C.
  Proof.
    intros Hi Hk. apply (derive_line _ (Re (gradq x i))). intros s.
    rewrite (sumC_one m i (gradq (move x k d s) i)); [|exact Hi| |].
    - unfold gradq. rewrite !mv_move by exact Hk. generalize (b i) (mv (herm H) x i) (mv (symm S) x i) (herm H i k) (symm S i k). clear.
      intros [b1 b2] [p1 p2] [q1 q2] [h1 h2] [s1 s2]. destruct d as [d1 d2]. unfold Re, Cmult, Cplus, Cconj, RtoC. cbn [fst snd]. ring.
    - intros j _ Hj. apply Nat.eqb_neq in Hj. rewrite Hj. ring.
    - rewrite Nat.eqb_refl, grad_value by exact Hi. ring.
  Qed.

  Lemma hessian_quadratic x i k : (i < m)%nat -> (k < m)%nat -> tget (complex_hessian m f x) [i; k] = (herm H i k + symm S i k)%C.
  Proof.
    intros Hi Hk. unfold complex_hessian. cbn [tget nth]. unfold vjp at 1. rewrite !second_derivative by assumption.
    generalize (herm H i k) (symm S i k). intros [h1 h2] [s1 s2]. unfold Re, Cmult, Cplus, Cconj, RtoC, Ci. cbn [fst snd].
    apply injective_projections; cbn; ring.
  Qed.
End Quad.

Lemma hessian_hermitian_re m (H : nat -> nat -> C) f : (forall i j, (i < m)%nat -> (j < m)%nat -> H j i = Cconj (H i j)) ->
  (forall y, Re (f y) = Re (RtoC (/ 2) * sesquilinear m H y)%C) ->
  forall x, ((0 < m)%nat -> tshape (complex_hessian m f x) = [m; m]) /\ forall i j, (i < m)%nat -> (j < m)%nat -> tget (complex_hessian m f x) [i; j] = H i j.
Proof.
  intros HH Hf x. split; [destruct m; [lia|reflexivity]|]. intros i j Hi Hj. rewrite (hessian_quadratic m 0 (fun _ => RtoC 0) H (fun _ _ => RtoC 0)); try assumption.
  - unfold herm, symm. rewrite (HH i j Hi Hj), Cconj_conj. apply injective_projections; cbn; field.
  - intros y. rewrite Hf. unfold real_quadratic, bilinear.
    rewrite (sumC_zero _ (fun j => RtoC 0 * y j)%C) by (intros; apply Cmult_0_l).
    rewrite (sumC_zero _ (fun i0 => sumC _ _)) by (intros; apply sumC_zero; intros; rewrite Cmult_0_r, Cmult_0_l; reflexivity).
    destruct (sesquilinear m H y) as [p q]. unfold Re. cbn. ring.
Qed.
Lemma hessian_hermitian m (H : nat -> nat -> C) f : (forall i j, (i < m)%nat -> (j < m)%nat -> H j i = Cconj (H i j)) ->
  (forall y, f y = (RtoC (/ 2) * sesquilinear m H y)%C) ->
  forall x, ((0 < m)%nat -> tshape (complex_hessian m f x) = [m; m]) /\ forall i j, (i < m)%nat -> (j < m)%nat -> tget (complex_hessian m f x) [i; j] = H i j.
Proof. intros HH Hf. apply hessian_hermitian_re; [exact HH|]. intros y. rewrite Hf. reflexivity. Qed.
