(** Proofs about the nonlocal pseudopotential operator: the matrix of one call. *)
From Coq Require Import List Arith ZArith Reals Bool Lra Lia Permutation Sorted.
From Coquelicot Require Import Complex.
From Verif Require Import Base Sums Tensor DFT GridModel GridProofs Lin3 VecModel VecProofs PwModel PwSpec PwProofs BraketModel BraketSpec BraketProofs EnergyModel EnergySpec EnergyProofs ExtProofs SbtModel LocModel LocProofs NlocModel NlocSpec NlocProofs.
From Verif Require SphModel SphSpec SphProofs.
From Coq Require Import List.
Import ListNotations.
Local Open Scope C_scope.

Lemma le_max_l atoms a j : In a atoms -> (j < length (p_l a))%nat -> (nth j (p_l a) 0 <= max_l atoms)%nat.
Proof.
  intros Ha Hj. unfold max_l. assert (H : Forall (fun k => (k <= list_max (concat (map p_l atoms)))%nat) (concat (map p_l atoms))) by (apply list_max_le; lia).
  rewrite Forall_forall in H. apply H. apply in_concat. exists (p_l a). split; [apply in_map, Ha|apply nth_In, Hj].
Qed.
Lemma sum_pad l lm (f : nat -> C) : (l <= lm)%nat -> (forall m, (2 * l + 1 <= m)%nat -> f m = RtoC 0) -> sumC (seq 0 (2 * lm + 1)) f = sumC (seq 0 (2 * l + 1)) f.
Proof.
  intros Hl H0. replace (2 * lm + 1)%nat with (2 * l + 1 + (2 * lm - 2 * l))%nat by lia. rewrite seq_app, sumC_app, (sumC_zero (seq (0 + (2 * l + 1)) _)); [ring|].
  intros m Hm. apply in_seq in Hm. apply H0. lia.
Qed.
Lemma projection_pad sign Y G kpts a c b k j m : (2 * nth j (p_l a) 0 + 1 <= m)%nat -> projection sign Y G kpts a c b k j m = RtoC 0.
Proof.
  intros H. unfold projection. apply sumC_zero. intros x _. cbn zeta. unfold harmonic, y_lm, SphModel.compute_spherical_harmonics.
  destruct (Nat.ltb_spec m (2 * nth j (p_l a) 0 + 1)); [lia|]. ring.
Qed.

Section N.
Variable jn : Z -> R -> R.
Variable spline : list R -> list R -> R -> R.
Variable Y : Z -> Z -> R -> R -> C.
Variable eigh : list (list R) -> list R * list (list R).
Notation nlof := (nonlocal_of jn spline Y eigh).
Lemma psi_shape atoms G kpts rs betas m psi : psi_of jn spline Y eigh atoms G kpts rs betas m = Ok psi ->
  exists n1 n2 n3, tshape G = [n1; n2; n3] /\ tshape psi = [length kpts; total_beta atoms; 2 * max_l atoms + 1; n1; n2; n3]%nat.
Proof.
  intros E. destruct (proj1 (psi_of_returns jn spline Y eigh atoms G kpts rs betas m) (ex_intro _ psi E)) as (H1 & H2 & H3 & H4 & H5).
  rewrite psi_of_eq in E by assumption. destruct (concat_ok Y eigh atoms G kpts (max_l atoms) (concat_nil_atoms _ H4)) as (p & Ep & Sp & _).
  assert (p = psi) as <- by congruence. unfold ndim in H3. destruct (tshape G) as [|n1 [|n2 [|n3 [|? ?]]]]; try discriminate. exists n1, n2, n3. split; [reflexivity|]. exact Sp.
Qed.
Lemma ham_inv c psi vol H : hamiltonian_nonlocal c psi vol = Ok H -> exists sp K B nb nm n1 n2 n3, tshape c = [sp; K; B; n1; n2; n3] /\ tshape psi = [K; nb; nm; n1; n2; n3].
Proof.
  unfold hamiltonian_nonlocal. destruct (tshape c) as [|sp [|K [|B [|x [|y [|z [|? ?]]]]]]]; try discriminate.
  destruct (tshape psi) as [|K' [|nb [|nm [|x' [|y' [|z' [|? ?]]]]]]]; try discriminate. destruct (list_eq_dec _ _ _) as [E|]; [|discriminate]. injection E as <- <- <- <-. intros _.
  exists sp, K, B, nb, nm, x, y, z. split; reflexivity.
Qed.
Lemma nonlocal_returns atoms G kpts rs betas m c vol : (exists H, nlof atoms G kpts rs betas m c vol = Ok H) <->
  length betas = length atoms /\ m <> NlOther /\ concat (map p_l atoms) <> [] /\ Forall (fits G kpts) atoms /\
  ndim G = 3%nat /\ exists sp B, tshape c = [sp; length kpts; B] ++ tshape G.
Proof.
  unfold nonlocal_of. split.
  - intros (H & E). destruct (psi_of _ _ _ _ _ _ _ _ _ _) as [psi|] eqn:Ep; [|discriminate]. cbn [bind] in E.
    destruct (proj1 (psi_of_returns jn spline Y eigh atoms G kpts rs betas m) (ex_intro _ psi Ep)) as (H1 & H2 & H3 & H4 & H5). repeat (split; [assumption|]).
    destruct (psi_shape _ _ _ _ _ _ _ Ep) as (n1 & n2 & n3 & SG & Sp). destruct (ham_inv _ _ _ _ E) as (sp & K & B & nb & nm & m1 & m2 & m3 & Sc & Sp'). rewrite Sp in Sp'. injection Sp' as <- <- <- <- <- <-.
    exists sp, B. rewrite SG. exact Sc.
  - intros (H1 & H2 & H4 & H5 & H3 & sp & B & Sc). destruct (proj2 (psi_of_returns jn spline Y eigh atoms G kpts rs betas m)) as (psi & Ep); [tauto|]. rewrite Ep. cbn [bind].
    destruct (psi_shape _ _ _ _ _ _ _ Ep) as (n1 & n2 & n3 & SG & Sp). rewrite SG in Sc.
    destruct (nonlocal_eq c psi vol sp (length kpts) B _ _ n1 n2 n3 Sc Sp) as (H & E & _). exists H. exact E.
Qed.
Local Notation columns := (NlocSpec.columns eigh).
Local Notation formula := (NlocSpec.formula Y eigh).
Lemma nonlocal_formula atoms G kpts rs betas m c vol H : columns atoms -> nlof atoms G kpts rs betas m c vol = Ok H ->
  exists sp B, tshape c = [sp; length kpts; B] ++ tshape G /\ tshape H = [sp; length kpts; B; B] /\
    forall s k b1 b2, tget H [s; k; b1; b2] = formula atoms G kpts c vol s k b1 b2.
Proof.
  intros HV E. destruct (proj1 (nonlocal_returns atoms G kpts rs betas m c vol) (ex_intro _ H E)) as (H1 & H2 & H4 & H5 & H3 & sp & B & Sc). exists sp, B. split; [exact Sc|].
  unfold ndim in H3. destruct (tshape G) as [|n1 [|n2 [|n3 [|? ?]]]] eqn:SG; try discriminate.
  destruct (nonlocal_value jn spline Y eigh atoms G kpts rs betas m c vol sp B n1 n2 n3 SG Sc H1 H2 H4 H5 HV) as (psi & H' & Ep & _ & EH & SH & GH).
  unfold nonlocal_of in E. rewrite Ep in E. cbn [bind] in E. assert (H' = H) as <- by congruence. split; [exact SH|]. intros s k b1 b2. rewrite GH. unfold formula. f_equal.
  apply sumC_ext. intros a Ha. apply sumC_ext. intros j Hj. apply in_seq in Hj. f_equal. unfold overlap. apply sum_pad; [apply le_max_l; [exact Ha|lia]|].
  intros mm Hm. rewrite (projection_pad (-1) Y G kpts a c [s; k; b2]) by exact Hm. ring.
Qed.

(** *** Hermitian, positive semidefinite *)
Lemma ham_entries c psi vol H : hamiltonian_nonlocal c psi vol = Ok H -> exists sp K B (F : nat -> nat -> nat -> nat -> nat -> C) nb nm, tshape c = [sp; K; B] ++ skipn 3 (tshape c) /\ tshape H = [sp; K; B; B] /\
  forall s k b1 b2, tget H [s; k; b1; b2] = RtoC (/ vol) * sumC (seq 0 nb) (fun be => sumC (seq 0 nm) (fun m => Cconj (F s k b1 be m) * F s k b2 be m)).
Proof.
  intros E. destruct (ham_inv _ _ _ _ E) as (sp & K & B & nb & nm & n1 & n2 & n3 & Sc & Sp). destruct (nonlocal_eq c psi vol sp K B nb nm n1 n2 n3 Sc Sp) as (H' & E' & SH & GH). assert (H' = H) as <- by congruence.
  exists sp, K, B, (fun s k b be m => sumC (indices [n1; n2; n3]) (fun g => tget c ([s; k; b] ++ g) * tget psi ([k; be; m] ++ g))), nb, nm. split; [rewrite Sc; reflexivity|]. split; [exact SH|]. exact GH.
Qed.
Lemma ham_hermitian c psi vol H : hamiltonian_nonlocal c psi vol = Ok H -> forall s k b1 b2, tget H [s; k; b1; b2] = Cconj (tget H [s; k; b2; b1]).
Proof.
  intros E s k b1 b2. destruct (ham_entries _ _ _ _ E) as (sp & K & B & F & nb & nm & _ & _ & GH). rewrite !GH, Cconj_mult, Cconj_R, Cconj_sum. f_equal. apply sumC_ext. intros be _. rewrite Cconj_sum. apply sumC_ext. intros m _. rewrite Cconj_mult, Cconj_conj. ring.
Qed.
Lemma ham_psd c psi vol H : (0 < vol)%R -> hamiltonian_nonlocal c psi vol = Ok H -> forall s k n (x : nat -> C),
  let q := sumC (seq 0 n) (fun b1 => sumC (seq 0 n) (fun b2 => Cconj (x b1) * tget H [s; k; b1; b2] * x b2)) in Im q = 0%R /\ (0 <= Re q)%R.
Proof.
  intros Hv E s k n x q. destruct (ham_entries _ _ _ _ E) as (sp & K & B & F & nb & nm & _ & _ & GH).
  assert (Q : q = RtoC (/ vol * sumR (seq 0 nb) (fun be => sumR (seq 0 nm) (fun m => Cnorm2 (sumC (seq 0 n) (fun b => x b * F s k b be m)))))).
  { rewrite RtoC_mult, <- sumC_RtoC. unfold q.
    transitivity (RtoC (/ vol) * sumC (seq 0 n) (fun b1 => sumC (seq 0 n) (fun b2 => sumC (seq 0 nb) (fun be => sumC (seq 0 nm) (fun m => Cconj (x b1 * F s k b1 be m) * (x b2 * F s k b2 be m)))))).
    - rewrite <- sumC_scal. apply sumC_ext. intros b1 _. rewrite <- sumC_scal. apply sumC_ext. intros b2 _. rewrite GH.
      transitivity (RtoC (/ vol) * ((Cconj (x b1) * x b2) * sumC (seq 0 nb) (fun be => sumC (seq 0 nm) (fun m => Cconj (F s k b1 be m) * F s k b2 be m)))); [ring|]. f_equal.
      rewrite <- sumC_scal. apply sumC_ext. intros be _. rewrite <- sumC_scal. apply sumC_ext. intros m _. rewrite Cconj_mult. ring.
    - f_equal. rewrite (sumC_ext (seq 0 nb) _ (fun be => sumC (seq 0 nm) (fun m => sumC (seq 0 n) (fun b1 => sumC (seq 0 n) (fun b2 => Cconj (x b1 * F s k b1 be m) * (x b2 * F s k b2 be m)))))).
      + rewrite (sumC_ext _ _ (fun b1 => sumC (seq 0 nb) (fun be => sumC (seq 0 n) (fun b2 => sumC (seq 0 nm) (fun m => Cconj (x b1 * F s k b1 be m) * (x b2 * F s k b2 be m)))))) by (intros; apply sumC_swap).
        rewrite sumC_swap. apply sumC_ext. intros be _. rewrite (sumC_ext _ _ (fun b1 => sumC (seq 0 nm) (fun m => sumC (seq 0 n) (fun b2 => Cconj (x b1 * F s k b1 be m) * (x b2 * F s k b2 be m))))) by (intros; apply sumC_swap). apply sumC_swap.
      + intros be _. rewrite <- sumC_RtoC. apply sumC_ext. intros m _. rewrite <- Cconj_mult_self, Cconj_sum, <- sumC_scal_r. apply sumC_ext. intros b1 _. rewrite <- sumC_scal. reflexivity. }
  rewrite Q. split; [reflexivity|]. cbn [Re RtoC fst]. apply Rmult_le_pos; [left; apply Rinv_0_lt_compat, Hv|]. apply sumR_nonneg. intros be _. apply sumR_nonneg. intros m _. apply Cnorm2_nonneg.
Qed.
End N.

(** *** Eigenvalues of a diagonal matrix *)
Lemma sorted_unique (l1 l2 : list R) : Sorted Rle l1 -> Sorted Rle l2 -> Permutation l1 l2 -> l1 = l2.
Proof.
  intros S1 S2 P. apply Sorted_StronglySorted in S1, S2; try (intros x y z; apply Rle_trans). revert l2 S2 P.
  induction S1 as [|a l1 S1 IH Ha]; intros l2 S2 P; [symmetry; apply Permutation_nil, P|]. destruct S2 as [|b l2 S2 Hb]; [apply Permutation_sym, Permutation_nil in P; discriminate|].
  assert (a = b) as <-.
  { apply Rle_antisym.
    - assert (In b (a :: l1)) as [<-|Hi] by (apply (Permutation_in b (Permutation_sym P)); left; reflexivity); [lra|]. rewrite Forall_forall in Ha. apply Ha, Hi.
    - assert (In a (b :: l2)) as [->|Hi] by (apply (Permutation_in a P); left; reflexivity); [lra|]. rewrite Forall_forall in Hb. apply Hb, Hi. }
  f_equal. apply IH; [exact S2|]. apply (Permutation_cons_inv P).
Qed.
Lemma count_sum (l : list R) x : INR (count_occ Req_EM_T l x) = sumR (seq 0 (length l)) (fun i => if Req_EM_T (nth i l 0%R) x then 1%R else 0%R).
Proof.
  induction l as [|a l IH]; [reflexivity|]. cbn [count_occ length seq]. rewrite <- seq_shift.
  change (sumR (0%nat :: ?t) ?g) with (g 0%nat + sumR t g)%R. rewrite sumR_map. cbn [nth]. destruct (Req_EM_T a x); [rewrite S_INR|]; rewrite IH; lra.
Qed.
Lemma same_counts n D lam V : spectral n D lam V -> (forall i j, (i < n)%nat -> (j < n)%nat -> i <> j -> mat D i j = 0%R) -> Permutation lam (map (fun i => mat D i i) (seq 0 n)).
Proof.
  intros (Hl & Hs & Hc & Hr & HD) H0. apply (Permutation_count_occ Req_EM_T). intros x. apply INR_eq. rewrite !count_sum, Hl, map_length, seq_length.
  assert (K : forall i j, (i < n)%nat -> (j < n)%nat -> (mat V i j * nth j lam 0 = mat D i i * mat V i j)%R).
  { intros i j Hi Hj. transitivity (sumR (seq 0 n) (fun i' => mat D i i' * mat V i' j)%R).
    - rewrite (sumR_ext _ _ (fun i' => sumR (seq 0 n) (fun j' => mat V i j' * nth j' lam 0 * (mat V i' j' * mat V i' j))%R)).
      + rewrite sumR_swap. rewrite (sumR_ext _ _ (fun j' => mat V i j' * nth j' lam 0 * (if (j' =? j)%nat then 1 else 0))%R).
        * rewrite (sumR_single _ j); [|apply seq_NoDup|apply in_seq; lia|]; [rewrite Nat.eqb_refl; ring|]. intros j' _ N. apply Nat.eqb_neq in N. rewrite N. ring.
        * intros j' Hj'. apply in_seq in Hj'. rewrite sumR_scal. f_equal. apply Hc; lia.
      + intros i' Hi'. apply in_seq in Hi'. rewrite (HD i i') by lia. rewrite <- sumR_scal_r. apply sumR_ext. intros; ring.
    - rewrite (sumR_single _ i); [reflexivity|apply seq_NoDup|apply in_seq; lia|]. intros i' Hi' N. apply in_seq in Hi'. rewrite H0 by (try lia; congruence). ring. }
  set (chi y := if Req_EM_T y x then 1%R else 0%R).
  transitivity (sumR (seq 0 n) (fun j => sumR (seq 0 n) (fun i => chi (nth j lam 0%R) * (mat V i j * mat V i j))%R)).
  { apply sumR_ext. intros j Hj. apply in_seq in Hj. rewrite sumR_scal, (Hc j j), Nat.eqb_refl by lia. unfold chi. ring. }
  transitivity (sumR (seq 0 n) (fun i => sumR (seq 0 n) (fun j => chi (mat D i i) * (mat V i j * mat V i j))%R)).
  { rewrite sumR_swap. apply sumR_ext. intros i Hi. apply sumR_ext. intros j Hj. apply in_seq in Hi, Hj. specialize (K i j ltac:(lia) ltac:(lia)).
    destruct (Req_EM_T (mat V i j) 0) as [->|N]; [ring|]. assert (nth j lam 0 = mat D i i)%R as -> by (apply (Rmult_eq_reg_l (mat V i j)); [rewrite K; ring|exact N]). reflexivity. }
  apply sumR_ext. intros i Hi. apply in_seq in Hi. rewrite sumR_scal, (Hr i i), Nat.eqb_refl by lia. rewrite (nth_indep _ 0%R (mat D 0 0)) by (rewrite map_length, seq_length; lia).
  rewrite (map_nth (fun i => mat D i i)), seq_nth by lia. unfold chi. rewrite Nat.add_0_l. ring.
Qed.
Lemma diag_sorted (f : nat -> R) n k : (forall i, (S i < k + n)%nat -> (f i <= f (S i))%R) -> Sorted Rle (map f (seq k n)).
Proof.
  revert k. induction n as [|n IH]; intros k H; [constructor|]. cbn [seq map]. constructor; [apply IH; intros; apply H; lia|]. destruct n; [constructor|]. cbn [seq map]. constructor. apply H. lia.
Qed.
Lemma diagonal_eigenvalues n D lam V : spectral n D lam V -> (forall i j, (i < n)%nat -> (j < n)%nat -> i <> j -> mat D i j = 0%R) -> (forall i, (S i < n)%nat -> (mat D i i <= mat D (S i) (S i))%R) ->
  lam = map (fun i => mat D i i) (seq 0 n).
Proof.
  intros H H0 H1. apply sorted_unique; [apply H|apply diag_sorted; intros; apply H1; lia|apply (same_counts n D lam V H H0)].
Qed.
