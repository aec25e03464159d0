(** Every Hermitian matrix has a spectrum: the spectral theorem, by induction on the size.  A
    bordered diagonal matrix has an eigenvector (root of the secular equation below the smallest
    diagonal entry, by the intermediate value theorem); a reflection moves it to the last axis. *)
From Coq Require Import Reals Lra Lia.
From Coquelicot Require Import Coquelicot.
From Coq Require Import List Arith Bool Permutation Sorted Ranalysis5.
From Verif Require Import Sums EigSpec EigProofs.
Import ListNotations.
Local Open Scope R_scope.

Definition mm (n : nat) (A B : nat -> nat -> C) (i j : nat) : C := sumC (seq 0 n) (fun k => A i k * B k j)%C.
Definition adj (A : nat -> nat -> C) (i j : nat) : C := Cconj (A j i).
Definition dg (lam : nat -> R) (i j : nat) : C := (kron i j * RtoC (lam j))%C.
Definition meq (n : nat) (A B : nat -> nat -> C) : Prop := forall i j, (i < n)%nat -> (j < n)%nat -> A i j = B i j.
Definition unitary (n : nat) (V : nat -> nat -> C) : Prop := meq n (mm n (adj V) V) kron /\ meq n (mm n V (adj V)) kron.

Lemma kron_sym i j : kron i j = kron j i.
Proof. unfold kron. rewrite Nat.eqb_sym. reflexivity. Qed.
Lemma kron_conj i j : Cconj (kron i j) = kron i j.
Proof. unfold kron. destruct (i =? j)%nat; apply Cconj_R. Qed.
Lemma kron_same i : kron i i = RtoC 1.
Proof. unfold kron. rewrite Nat.eqb_refl. reflexivity. Qed.
Lemma kron_diff i j : i <> j -> kron i j = RtoC 0.
Proof. unfold kron. intros H. apply Nat.eqb_neq in H. rewrite H. reflexivity. Qed.
Lemma mm_ext n A A' B B' i j : (forall k, (k < n)%nat -> A i k = A' i k) -> (forall k, (k < n)%nat -> B k j = B' k j) -> mm n A B i j = mm n A' B' i j.
Proof. intros HA HB. apply sumC_ext. intros k Hk. apply seq_in in Hk. rewrite HA, HB by assumption. reflexivity. Qed.
Lemma mm_eq n A A' B B' : meq n A A' -> meq n B B' -> meq n (mm n A B) (mm n A' B').
Proof. intros HA HB i j Hi Hj. apply mm_ext; intros k Hk; [apply HA|apply HB]; assumption. Qed.
Lemma meq_trans n A B D : meq n A B -> meq n B D -> meq n A D.
Proof. intros H1 H2 i j Hi Hj. rewrite H1, H2 by assumption. reflexivity. Qed.
Lemma meq_sym n A B : meq n A B -> meq n B A.
Proof. intros H i j Hi Hj. symmetry. apply H; assumption. Qed.
Lemma meq_refl n A : meq n A A.
Proof. intros i j _ _. reflexivity. Qed.
Lemma mm_assoc n A B D i j : mm n (mm n A B) D i j = mm n A (mm n B D) i j.
Proof.
  unfold mm. rewrite (sumC_ext (seq 0 n) _ (fun k => sumC (seq 0 n) (fun l => A i l * B l k * D k j))%C) by (intros; rewrite sumC_scal_r; reflexivity).
  rewrite sumC_swap. apply sumC_ext. intros l _. rewrite <- sumC_scal. apply sumC_ext. intros; ring.
Qed.
Lemma mm_kron_l n A i j : (i < n)%nat -> mm n kron A i j = A i j.
Proof. intros Hi. unfold mm. apply (sum_kron n i (fun k => A k j)), Hi. Qed.
Lemma mm_kron_r n A i j : (j < n)%nat -> mm n A kron i j = A i j.
Proof. intros Hj. unfold mm. rewrite (sumC_ext _ _ (fun k => kron j k * A i k)%C) by (intros; rewrite (kron_sym _ j); ring). apply (sum_kron n j (fun k => A i k)), Hj. Qed.
Lemma adj_mm n A B i j : adj (mm n A B) i j = mm n (adj B) (adj A) i j.
Proof. unfold adj, mm. rewrite Cconj_sum. apply sumC_ext. intros. rewrite Cconj_mult. ring. Qed.
Lemma unitary_mm n V U : unitary n V -> unitary n U -> unitary n (mm n V U).
Proof.
  intros [V1 V2] [U1 U2]. split; intros i j Hi Hj.
  - rewrite (mm_ext n _ (mm n (adj U) (adj V)) _ (mm n V U)) by (intros; try reflexivity; apply adj_mm).
    rewrite mm_assoc. rewrite (mm_ext n _ (adj U) _ U); [apply U1; assumption|reflexivity|]. intros k Hk. rewrite <- mm_assoc.
    rewrite (mm_ext n _ kron _ U); [apply mm_kron_l, Hk|intros; apply V1; assumption|reflexivity].
  - rewrite (mm_ext n _ (mm n V U) _ (mm n (adj U) (adj V))) by (intros; try reflexivity; apply adj_mm).
    rewrite mm_assoc. rewrite (mm_ext n _ V _ (adj V)); [apply V2; assumption|reflexivity|]. intros k Hk. rewrite <- mm_assoc.
    rewrite (mm_ext n _ kron _ (adj V)); [apply mm_kron_l, Hk|intros; apply U2; assumption|reflexivity].
Qed.

(** The secular equation. *)
Lemma continuity_poles (mu b : nat -> R) a (l : list nat) : (forall i, In i l -> mu i - a <> 0) -> continuity_pt (fun x => sumR l (fun i => b i / (mu i - x))) a.
Proof.
  induction l as [|i l IH]; intros Hin; [apply derivable_continuous_pt, derivable_pt_const|].
  apply (continuity_pt_plus (fun x => b i / (mu i - x)) (fun x => sumR l (fun i => b i / (mu i - x)))); [|apply IH; intros; apply Hin; right; assumption].
  apply (continuity_pt_div (fun _ => b i) (fun x => mu i - x)); [apply derivable_continuous_pt, derivable_pt_const| |apply Hin; left; reflexivity].
  apply (continuity_pt_minus (fun _ => mu i) (fun x => x)); [apply derivable_continuous_pt, derivable_pt_const|apply derivable_continuous_pt, derivable_pt_id].
Qed.
Lemma secular n (mu b : nat -> R) d : (0 < n)%nat -> (forall i, (i < n)%nat -> mu 0%nat <= mu i) -> (forall i, (i < n)%nat -> 0 <= b i) -> 0 < b 0%nat ->
  {l | l < mu 0%nat /\ l - d + sumR (seq 0 n) (fun i => b i / (mu i - l)) = 0}.
Proof.
  intros Hn Hmu Hb Hb0. set (f := fun l => l - d + sumR (seq 0 n) (fun i => b i / (mu i - l))). set (m := mu 0%nat). set (S := sumR (seq 0 n) b).
  set (L := Rmin (m - 1) (d - S - 1)). set (s := Rabs (d - m) + 1). set (eps := b 0%nat / (s + b 0%nat)).
  assert (Hs : 0 < s) by (unfold s; pose proof (Rabs_pos (d - m)); lra).
  assert (He : 0 < eps) by (unfold eps; apply Rdiv_lt_0_compat; lra).
  assert (He1 : eps < 1) by (unfold eps; apply Rmult_lt_reg_r with (s + b 0%nat); [lra|]; unfold Rdiv; rewrite Rmult_assoc, Rinv_l by lra; lra).
  assert (Hes : eps * s < b 0%nat).
  { unfold eps, Rdiv. apply Rmult_lt_reg_r with (s + b 0%nat); [lra|]. replace (b 0%nat * / (s + b 0%nat) * s * (s + b 0%nat)) with (b 0%nat * s) by (field; lra). pose proof (Rmult_lt_0_compat _ _ Hb0 Hb0). lra. }
  assert (HL1 : L <= m - 1) by apply Rmin_l. assert (HL2 : L <= d - S - 1) by apply Rmin_r.
  destruct (IVT_interv f L (m - eps)) as (l & Hl & El).
  - intros a Ha. unfold f. apply (continuity_pt_plus (fun l => l - d) (fun l => sumR (seq 0 n) (fun i => b i / (mu i - l)))); [apply (continuity_pt_minus (fun l => l) (fun _ => d)); [apply derivable_continuous_pt, derivable_pt_id|apply derivable_continuous_pt, derivable_pt_const]|].
    assert (Hin : forall i, In i (seq 0 n) -> mu i - a <> 0) by (intros i Hi; apply seq_in in Hi; pose proof (Hmu i Hi); fold m in H; lra).
    apply continuity_poles, Hin.
  - lra.
  - unfold f. assert (sumR (seq 0 n) (fun i => b i / (mu i - L)) <= S).
    { apply sumR_le. intros i Hi. apply seq_in in Hi. pose proof (Hmu i Hi). fold m in H. pose proof (Hb i Hi).
      apply Rmult_le_reg_r with (mu i - L); [lra|]. unfold Rdiv. rewrite Rmult_assoc, Rinv_l by lra. rewrite Rmult_1_r. rewrite <- (Rmult_1_r (b i)) at 1. apply Rmult_le_compat_l; lra. }
    lra.
  - unfold f. assert (b 0%nat / eps <= sumR (seq 0 n) (fun i => b i / (mu i - (m - eps)))).
    { replace (b 0%nat / eps) with ((fun i => b i / (mu i - (m - eps))) 0%nat) by (cbv beta; f_equal; unfold m; lra).
      apply (sumR_ge_term (seq 0 n) (fun i => b i / (mu i - (m - eps))) 0%nat); [|apply seq_in; exact Hn]. intros i Hi. apply seq_in in Hi. pose proof (Hmu i Hi). fold m in H.
      apply Rmult_le_pos; [apply Hb, Hi|]. left. apply Rinv_0_lt_compat. lra. }
    assert (s < b 0%nat / eps).
    { apply Rmult_lt_reg_r with eps; [exact He|]. unfold Rdiv. rewrite Rmult_assoc, Rinv_l by lra. lra. }
    assert (d - m + 1 <= s) by (unfold s; pose proof (Rle_abs (d - m)); lra). lra.
  - exists l. split; [fold m; lra|exact El].
Qed.

(** A search that decides. *)
Lemma find_zero n (b : nat -> C) : {i | (i < n)%nat /\ b i = RtoC 0} + {forall i, (i < n)%nat -> b i <> RtoC 0}.
Proof.
  induction n as [|n IH]; [right; intros i Hi; exfalso; inversion Hi|].
  destruct IH as [(i & Hi & E)|IH]; [left; exists i; split; [apply Nat.lt_lt_succ_r, Hi|exact E]|].
  destruct (Ceq_dec (b n) (RtoC 0)) as [E|N]; [left; exists n; split; [apply Nat.lt_succ_diag_r|exact E]|].
  right. intros i Hi. destruct (Nat.eq_dec i n) as [->|Hne]; [exact N|apply IH; lia].
Qed.

Lemma C1_nonzero : RtoC 1 <> RtoC 0. Proof. exact C1_neq. Qed.

(** Eigenvector of a bordered matrix. *)
Section Border.
  Context (n : nat) (H V : nat -> nat -> C) (mu : nat -> R) (Hh : hermitian (S n) H) (HV : unitary n V) (HD : meq n H (mm n V (mm n (dg mu) (adj V)))).
  Let beta i := sumC (seq 0 n) (fun g => Cconj (V g i) * H g n)%C.
  Let zv (x : nat -> C) (zeta : C) (g : nat) : C := if (g <? n)%nat then sumC (seq 0 n) (fun i => V g i * x i)%C else zeta.

  Lemma arrow x zeta l : (forall i, (i < n)%nat -> (RtoC (mu i) * x i + beta i * zeta = l * x i)%C) ->
    (sumC (seq 0 n) (fun i => Cconj (beta i) * x i) + H n n * zeta = l * zeta)%C ->
    forall g, (g < S n)%nat -> sumC (seq 0 (S n)) (fun g' => H g g' * zv x zeta g')%C = (l * zv x zeta g)%C.
  Proof.
    intros E1 E2 g Hg. rewrite sum_S. unfold zv at 2. rewrite (proj2 (Nat.ltb_ge n n)) by lia.
    rewrite (sumC_ext (seq 0 n) _ (fun g' => H g g' * sumC (seq 0 n) (fun i => V g' i * x i))%C).
    2:{ intros g' Hg'. apply seq_in in Hg'. unfold zv. apply Nat.ltb_lt in Hg'. rewrite Hg'. reflexivity. }
    unfold zv. destruct (Nat.ltb_spec g n) as [Hlt|Hge].
    - (* rows of the block *)
      assert (A1 : sumC (seq 0 n) (fun g' => H g g' * sumC (seq 0 n) (fun i => V g' i * x i))%C = sumC (seq 0 n) (fun i => V g i * (RtoC (mu i) * x i))%C).
      { change (sumC (seq 0 n) (fun g' => H g g' * mm n V (fun i _ => x i) g' 0)%C = sumC (seq 0 n) (fun i => V g i * (RtoC (mu i) * x i))%C).
        change (mm n H (mm n V (fun i _ => x i)) g 0%nat = sumC (seq 0 n) (fun i => V g i * (RtoC (mu i) * x i))%C).
        rewrite (mm_ext n H (mm n V (mm n (dg mu) (adj V))) _ (mm n V (fun i _ => x i))); [|intros k Hk; apply HD; assumption|reflexivity].
        rewrite mm_assoc. apply sumC_ext. intros i Hi. apply seq_in in Hi. f_equal. rewrite mm_assoc.
        rewrite (mm_ext n (dg mu) (dg mu) _ (fun i _ => x i)); [|reflexivity|].
        - unfold mm, dg. rewrite (sumC_ext _ _ (fun k => kron i k * (RtoC (mu k) * x k))%C) by (intros; ring). apply (sum_kron n i (fun k => RtoC (mu k) * x k)%C), Hi.
        - intros k Hk. rewrite <- mm_assoc. rewrite (mm_ext n _ kron _ (fun i _ => x i)); [apply mm_kron_l, Hk|intros; apply (proj1 HV); assumption|reflexivity]. }
      assert (A2 : H g n = sumC (seq 0 n) (fun i => V g i * beta i)%C).
      { change (H g n = mm n V (mm n (adj V) H) g n). rewrite <- mm_assoc. rewrite (mm_ext n _ kron _ H); [symmetry; apply mm_kron_l, Hlt|intros; apply (proj2 HV); assumption|reflexivity]. }
      rewrite A1, A2, <- sumC_scal_r, <- sumC_plus, <- sumC_scal. apply sumC_ext. intros i Hi. apply seq_in in Hi.
      transitivity (V g i * (RtoC (mu i) * x i + beta i * zeta))%C; [ring|]. rewrite E1 by exact Hi. ring.
    - replace g with n by lia. rewrite <- E2. f_equal.
      rewrite (sumC_ext (seq 0 n) _ (fun g' => sumC (seq 0 n) (fun i => H n g' * (V g' i * x i)))%C) by (intros; rewrite sumC_scal; reflexivity).
      rewrite sumC_swap. apply sumC_ext. intros i _. unfold beta. rewrite Cconj_sum, <- sumC_scal_r. apply sumC_ext. intros g' Hg'. apply seq_in in Hg'.
      rewrite Cconj_mult, Cconj_conj, <- (Hh g' n) by lia. ring.
  Qed.

  Lemma border_eigen : (forall i, (i < n)%nat -> mu 0%nat <= mu i) ->
    {lz : R * (nat -> C) | 0 < norm2 (S n) (snd lz) /\ forall g, (g < S n)%nat -> sumC (seq 0 (S n)) (fun g' => H g g' * snd lz g')%C = (RtoC (fst lz) * snd lz g)%C}.
  Proof.
    intros Hmu. destruct (find_zero n beta) as [(i0 & Hi0 & E0)|Hnz].
    - exists (mu i0, zv (kron i0) (RtoC 0)). cbn [fst snd]. split.
      + assert (En : norm2 (S n) (zv (kron i0) (RtoC 0)) = 1).
        { apply RtoC_inj. rewrite <- norm2_sum, sum_S. unfold zv at 3 4. rewrite (proj2 (Nat.ltb_ge n n)) by lia. rewrite Cconj_R, Cmult_0_l, Cplus_0_r.
          rewrite (sumC_ext _ _ (fun g => Cconj (V g i0) * V g i0)%C).
          - change (mm n (adj V) V i0 i0 = RtoC 1). rewrite (proj1 HV) by assumption. apply kron_same.
          - intros g Hg. apply seq_in in Hg. unfold zv. apply Nat.ltb_lt in Hg. rewrite Hg.
            rewrite (sumC_ext _ (fun i => V g i * kron i0 i)%C (fun i => kron i0 i * V g i)%C) by (intros; ring). rewrite (sum_kron n i0 (fun i => V g i)) by exact Hi0. reflexivity. }
        rewrite En. lra.
      + apply arrow.
        * intros i Hi. rewrite Cmult_0_r, Cplus_0_r. destruct (Nat.eq_dec i0 i) as [->|N]; [reflexivity|]. rewrite kron_diff by exact N. ring.
        * rewrite Cmult_0_r, Cplus_0_r, Cmult_0_r. rewrite (sumC_ext _ _ (fun i => kron i0 i * Cconj (beta i))%C) by (intros; ring). rewrite (sum_kron n i0 (fun i => Cconj (beta i))) by exact Hi0.
          rewrite E0. apply Cconj_R.
    - destruct (Nat.eq_dec n 0) as [Hn0|Hn0].
      + exists (Re (H n n), zv (fun _ => RtoC 0) (RtoC 1)). cbn [fst snd]. split.
        * apply (norm2_pos (S n) _ n); [lia|]. unfold zv. rewrite (proj2 (Nat.ltb_ge n n)) by lia. exact C1_nonzero.
        * apply arrow; [intros i Hi; lia|]. rewrite Hn0. cbn [seq sumC fold_right map]. 
          pose proof (Hh 0 0 ltac:(lia) ltac:(lia))%nat as Ec. destruct (H 0%nat 0%nat) as [a b]. unfold Cconj in Ec. cbn in Ec. injection Ec as Eb. assert (b = 0) by lra. subst b.
          apply injective_projections; cbn; ring.
      + destruct (secular n mu (fun i => Cnorm2 (beta i)) (Re (H n n))) as (l & Hl & El); [lia|exact Hmu|intros; apply Cnorm2_nonneg| |].
        { assert (N : beta 0%nat <> RtoC 0) by (apply Hnz; lia). pose proof (Cnorm2_nonneg (beta 0%nat)) as [P|P]; [exact P|].
          exfalso. apply N. unfold Cnorm2 in P. destruct (beta 0%nat) as [a b]. cbn in P. assert (a = 0 /\ b = 0) as [-> ->] by nra. reflexivity. }
        exists (l, zv (fun i => beta i * RtoC (/ (l - mu i)))%C (RtoC 1)). cbn [fst snd]. split.
        * apply (norm2_pos (S n) _ n); [lia|]. unfold zv. rewrite (proj2 (Nat.ltb_ge n n)) by lia. exact C1_nonzero.
        * apply arrow.
          -- intros i Hi. pose proof (Hmu i Hi). destruct (beta i) as [a b]. apply injective_projections; cbn; field; lra.
          -- rewrite (sumC_ext _ _ (fun i => RtoC (- (Cnorm2 (beta i) / (mu i - l))))).
             ++ rewrite sumC_RtoC. rewrite (sumR_ext _ _ (fun i => (-1) * (Cnorm2 (beta i) / (mu i - l)))) by (intros; ring). rewrite sumR_scal.
                pose proof (Hh n n ltac:(lia) ltac:(lia)) as Ec. destruct (H n n) as [a b]. unfold Cconj in Ec. cbn [fst snd] in Ec. injection Ec as Eb. assert (b = 0) by lra. subst b. cbn [Re fst] in El.
                apply injective_projections; cbn; [|ring]. cbn in El. lra.
             ++ intros i Hi. apply seq_in in Hi. pose proof (Hmu i Hi). destruct (beta i) as [a b]. unfold Cnorm2. apply injective_projections; cbn; field; lra.
  Qed.
End Border.

(** Normalisation: unit length, last component real and not negative. *)
Lemma normalise n (z : nat -> C) : 0 < norm2 (S n) z ->
  {ra : R * C | 0 <= fst ra /\ (snd ra * z n)%C = RtoC (fst ra) /\ sumC (seq 0 (S n)) (fun i => Cconj (snd ra * z i) * (snd ra * z i))%C = RtoC 1}.
Proof.
  intros HN. set (s := sqrt (norm2 (S n) z)). assert (Hs : 0 < s) by (apply sqrt_lt_R0, HN).
  assert (Hss : s * s = norm2 (S n) z) by (apply sqrt_sqrt; lra).
  assert (Hn : forall a : C, Cnorm2 a = 1 -> sumC (seq 0 (S n)) (fun i => Cconj (RtoC (/ s) * a * z i) * (RtoC (/ s) * a * z i))%C = RtoC 1).
  { intros a Ha. rewrite (sumC_ext _ _ (fun i => RtoC (/ s * / s) * (Cconj (z i) * z i))%C).
    - rewrite sumC_scal, norm2_sum, <- RtoC_mult, <- Hss. f_equal. field. lra.
    - intros i _. rewrite !Cconj_mult, Cconj_R. transitivity (RtoC (/ s) * RtoC (/ s) * (Cconj a * a) * (Cconj (z i) * z i))%C; [ring|]. rewrite Cconj_mult_self, Ha, <- RtoC_mult. ring. }
  destruct (Ceq_dec (z n) (RtoC 0)) as [E|N].
  - exists (0%R, (RtoC (/ s) * RtoC 1)%C). cbn [fst snd]. split; [lra|]. split; [rewrite E; ring|]. apply Hn. unfold Cnorm2. cbn. ring.
  - assert (Hm : 0 < Cmod (z n)) by (apply Cmod_gt_0, N).
    assert (Hmm : Cnorm2 (z n) = Cmod (z n) * Cmod (z n)) by apply Cnorm2_Cmod.
    exists ((/ s * Cmod (z n))%R, (RtoC (/ s) * (Cconj (z n) * RtoC (/ Cmod (z n))))%C). cbn [fst snd]. split; [|split].
    + apply Rmult_le_pos; [left; apply Rinv_0_lt_compat|left]; assumption.
    + transitivity (RtoC (/ s) * RtoC (/ Cmod (z n)) * (Cconj (z n) * z n))%C; [ring|]. rewrite Cconj_mult_self, Hmm, <- !RtoC_mult. f_equal. field. split; lra.
    + apply Hn. rewrite Cnorm2_mult. replace (Cnorm2 (Cconj (z n))) with (Cnorm2 (z n)) by (destruct (z n); unfold Cnorm2; cbn; ring). rewrite Hmm. unfold Cnorm2. cbn [fst snd RtoC]. field. lra.
Qed.

(** The reflection that takes the last axis to minus u. *)
Section Reflect.
  Context (n : nat) (u : nat -> C) (r : R) (Hr : 0 <= r) (Hu : u n = RtoC r) (Hn : sumC (seq 0 (S n)) (fun i => Cconj (u i) * u i)%C = RtoC 1).
  Let w i := (u i + kron i n)%C.
  Definition refl (i j : nat) : C := (kron i j - w i * Cconj (w j) * RtoC (/ (1 + r)))%C.

  Lemma refl_adj i j : adj refl i j = refl i j.
  Proof. unfold adj, refl. rewrite Cconj_minus, !Cconj_mult, Cconj_conj, Cconj_R, kron_conj, (kron_sym j i). ring. Qed.
  Lemma refl_w : sumC (seq 0 (S n)) (fun i => Cconj (w i) * w i)%C = RtoC (2 * (1 + r)).
  Proof.
    unfold w. rewrite (sumC_ext _ _ (fun i => Cconj (u i) * u i + (kron n i * (Cconj (u i) + u i) + kron n i * kron n i))%C).
    - rewrite !sumC_plus, Hn, (sum_kron (S n) n (fun i => Cconj (u i) + u i)%C), (sum_kron (S n) n (fun i => kron n i)), kron_same, Hu, Cconj_R by lia.
      rewrite <- !RtoC_plus. f_equal. ring.
    - intros i _. rewrite Cconj_plus, kron_conj, (kron_sym i n). ring.
  Qed.
  Lemma refl_square : meq (S n) (mm (S n) refl refl) kron.
  Proof.
    intros i j Hi Hj. unfold mm, refl.
    rewrite (sumC_ext _ _ (fun k => kron i k * kron k j - RtoC (/ (1 + r)) * Cconj (w j) * (kron i k * w k) - w i * RtoC (/ (1 + r)) * (kron j k * Cconj (w k)) + w i * Cconj (w j) * RtoC (/ (1 + r)) * RtoC (/ (1 + r)) * (Cconj (w k) * w k))%C).
    - rewrite sumC_plus, !sumC_minus, !sumC_scal, refl_w, (sum_kron (S n) i (fun k => kron k j)), (sum_kron (S n) i w), (sum_kron (S n) j (fun k => Cconj (w k))) by assumption.
      replace (RtoC (2 * (1 + r))) with (RtoC 2 * RtoC (1 + r))%C by (rewrite <- RtoC_mult; reflexivity).
      transitivity (kron i j - RtoC 2 * (RtoC (/ (1 + r)) * w i * Cconj (w j)) + RtoC 2 * (RtoC (/ (1 + r)) * RtoC (1 + r)) * (RtoC (/ (1 + r)) * w i * Cconj (w j)))%C.
      + replace (RtoC 2) with (RtoC 1 + RtoC 1)%C by (rewrite <- RtoC_plus; f_equal; ring). ring.
      + rewrite <- RtoC_mult, Rinv_l by lra. ring.
    - intros k _. rewrite (kron_sym k j). ring.
  Qed.
  Lemma refl_last i : refl i n = (- u i)%C.
  Proof.
    unfold refl. replace (w n) with (RtoC (1 + r)) by (unfold w; rewrite Hu, kron_same, <- RtoC_plus; f_equal; ring). rewrite Cconj_R.
    rewrite <- Cmult_assoc, <- RtoC_mult, Rinv_r by lra. unfold w. ring.
  Qed.
  Lemma refl_unitary : unitary (S n) refl.
  Proof.
    split; intros i j Hi Hj; rewrite <- refl_square by assumption; apply mm_ext; intros; try reflexivity; apply refl_adj.
  Qed.
End Reflect.

Definition extend (n : nat) (U : nat -> nat -> C) (i j : nat) : C := if ((i <? n) && (j <? n))%nat then U i j else kron i j.
Lemma extend_unitary n U : unitary n U -> unitary (S n) (extend n U).
Proof.
  assert (G : forall A B, meq n (mm n A B) kron -> (forall i j, (i < n)%nat -> (j < n)%nat -> True) -> meq (S n) (mm (S n) (extend n A) (extend n B)) kron).
  { intros A B HAB _ i j Hi Hj. unfold mm. rewrite sum_S. unfold extend. rewrite (proj2 (Nat.ltb_ge n n)), !andb_false_r, andb_false_l by lia.
    destruct (Nat.ltb_spec i n) as [Hin|Hin]; destruct (Nat.ltb_spec j n) as [Hjn|Hjn].
    - rewrite (sumC_ext _ _ (fun k => A i k * B k j)%C).
      + change (mm n A B i j + kron i n * kron n j = kron i j)%C. rewrite HAB, (kron_diff i n) by lia. ring.
      + intros k Hk. apply seq_in in Hk. rewrite (proj2 (Nat.ltb_lt k n)) by exact Hk. reflexivity.
    - rewrite (sumC_zero (seq 0 n)); [replace j with n by lia; rewrite kron_same; ring|].
      intros k Hk. apply seq_in in Hk. rewrite andb_false_r, (kron_diff k j) by lia. ring.
    - rewrite (sumC_zero (seq 0 n)); [replace i with n by lia; rewrite kron_same; ring|].
      intros k Hk. apply seq_in in Hk. rewrite andb_false_l, (kron_diff i k) by lia. ring.
    - rewrite (sumC_zero (seq 0 n)); [replace i with n by lia; rewrite kron_same; ring|].
      intros k Hk. apply seq_in in Hk. rewrite andb_false_l, (kron_diff i k) by lia. ring. }
  assert (Ha : forall i j, adj (extend n U) i j = extend n (adj U) i j).
  { intros i j. unfold adj, extend. rewrite andb_comm. destruct ((i <? n) && (j <? n))%nat; [reflexivity|]. rewrite kron_conj. apply kron_sym. }
  intros [U1 U2]. split; intros i j Hi Hj.
  - rewrite (mm_ext (S n) _ (extend n (adj U)) _ (extend n U)) by (intros; try reflexivity; apply Ha). apply G; auto.
  - rewrite (mm_ext (S n) _ (extend n U) _ (extend n (adj U))) by (intros; try reflexivity; apply Ha). apply G; auto.
Qed.

(** Sorting a list of eigenvalues. *)
Fixpoint insert_by (f : nat -> R) (a : nat) (l : list nat) : list nat :=
  match l with [] => [a] | b :: l' => if Rle_dec (f a) (f b) then a :: l else b :: insert_by f a l' end.
Definition sort_by (f : nat -> R) (l : list nat) : list nat := fold_right (insert_by f) [] l.
Lemma insert_perm f a l : Permutation (a :: l) (insert_by f a l).
Proof.
  induction l as [|b l IH]; [reflexivity|]. cbn. destruct (Rle_dec _ _); [reflexivity|]. etransitivity; [apply perm_swap|]. constructor. exact IH.
Qed.
Lemma sort_perm f l : Permutation l (sort_by f l).
Proof. induction l as [|a l IH]; [reflexivity|]. cbn. etransitivity; [constructor; exact IH|]. apply insert_perm. Qed.
Lemma sort_sorted f l : StronglySorted (fun a b => f a <= f b) (sort_by f l).
Proof.
  induction l as [|a l IH]; [constructor|]. cbn. fold (sort_by f l). induction IH as [|b m Hm IHm Hb]; [repeat constructor|]. cbn.
  destruct (Rle_dec (f a) (f b)) as [Hab|Hab].
  - constructor; [constructor; assumption|]. constructor; [exact Hab|]. eapply Forall_impl; [|exact Hb]. intros x Hx. cbv beta in Hx. lra.
  - constructor; [exact IHm|]. apply (Permutation_Forall (insert_perm f a m)). constructor; [lra|exact Hb].
Qed.
Lemma sorted_nth f l i j : StronglySorted (fun a b => f a <= f b) l -> (i <= j)%nat -> (j < length l)%nat -> f (nth i l 0%nat) <= f (nth j l 0%nat).
Proof.
  intros H. revert i j. induction H as [|a l Hs IH Ha]; intros i j Hij Hj; [cbn in Hj; lia|]. cbn [length] in Hj.
  destruct i as [|i], j as [|j]; cbn [nth]; try lra; try lia.
  - rewrite Forall_forall in Ha. apply Ha, nth_In. lia.
  - apply IH; lia.
Qed.

Definition decomposed (n : nat) (H : nat -> nat -> C) (lam : nat -> R) (V : nat -> nat -> C) : Prop :=
  unitary n V /\ meq n H (mm n V (mm n (dg lam) (adj V))).
Lemma decomposed_entry n V lam i j : mm n V (mm n (dg lam) (adj V)) i j = sumC (seq 0 n) (fun m => V i m * RtoC (lam m) * Cconj (V j m))%C.
Proof.
  unfold mm at 1. apply sumC_ext. intros m Hm. apply seq_in in Hm. unfold mm, dg, adj. rewrite (sumC_ext _ _ (fun k => kron m k * (RtoC (lam k) * Cconj (V j k)))%C) by (intros; ring).
  rewrite (sum_kron n m (fun k => RtoC (lam k) * Cconj (V j k))%C) by exact Hm. ring.
Qed.
Lemma decomposed_spectrum n H lam V : decomposed n H lam V -> ascending n lam -> spectrum n H lam.
Proof.
  intros [[V1 V2] E] Ha. split; [exact Ha|]. exists V. split; [exact V1|]. split; [exact V2|]. intros i j Hi Hj. rewrite E by assumption. apply decomposed_entry.
Qed.
Lemma sum_nth {X} (l : list X) d (f : X -> C) : sumC (seq 0 (length l)) (fun m => f (nth m l d)) = sumC l f.
Proof.
  induction l as [|a l IH]; [reflexivity|]. cbn [length seq sumC fold_right nth]. rewrite <- seq_shift, sumC_map. cbn [nth]. rewrite IH. reflexivity.
Qed.
Lemma decomposed_sort n H lam V : decomposed n H lam V -> {lV : (nat -> R) * (nat -> nat -> C) | decomposed n H (fst lV) (snd lV) /\ ascending n (fst lV)}.
Proof.
  intros [[V1 V2] E]. set (l := sort_by lam (seq 0 n)). pose proof (sort_perm lam (seq 0 n)) as P. fold l in P. pose proof (sort_sorted lam (seq 0 n)) as Ss. fold l in Ss.
  assert (Hl : length l = n) by (rewrite <- (Permutation_length P), seq_length; reflexivity).
  assert (Hin : forall i, (i < n)%nat -> (nth i l 0 < n)%nat).
  { intros i Hi. apply seq_in. apply (Permutation_in _ (Permutation_sym P)). apply nth_In. lia. }
  assert (Hinj : forall i j, (i < n)%nat -> (j < n)%nat -> kron (nth i l 0%nat) (nth j l 0%nat) = kron i j).
  { intros i j Hi Hj. destruct (Nat.eq_dec i j) as [->|N]; [rewrite !kron_same; reflexivity|]. rewrite !kron_diff; auto.
    intros Eq. apply N. apply (proj1 (NoDup_nth l 0%nat) (Permutation_NoDup P (seq_NoDup n 0)) i j); [lia|lia|exact Eq]. }
  assert (Hsum : forall f : nat -> C, sumC (seq 0 n) (fun m => f (nth m l 0%nat)) = sumC (seq 0 n) f).
  { intros f. rewrite <- Hl at 1. rewrite (sum_nth l 0%nat f). apply sumC_perm. symmetry. exact P. }
  exists (fun m => lam (nth m l 0%nat), fun i m => V i (nth m l 0%nat)). cbn [fst snd]. split; [split; [split|]|].
  - intros i j Hi Hj. change (mm n (adj V) V (nth i l 0%nat) (nth j l 0%nat) = kron i j). rewrite V1 by (apply Hin; assumption). apply Hinj; assumption.
  - intros i j Hi Hj. rewrite <- V2 by assumption. unfold mm, adj. apply (Hsum (fun m => V i m * Cconj (V j m))%C).
  - intros i j Hi Hj. rewrite E, !decomposed_entry by assumption. symmetry. apply (Hsum (fun m => V i m * RtoC (lam m) * Cconj (V j m))%C).
  - intros i j Hij Hj. apply (sorted_nth lam); [exact Ss|exact Hij|lia].
Qed.

Theorem spectral : forall n H, hermitian n H -> {lV : (nat -> R) * (nat -> nat -> C) | decomposed n H (fst lV) (snd lV) /\ ascending n (fst lV)}.
Proof.
  induction n as [|n IH]; intros H Hh.
  - exists (fun _ => 0, kron). split; [split; [split|]|]; intros i j Hi Hj; try (exfalso; inversion Hi; fail). exfalso. inversion Hj.
  - assert (Hh' : hermitian n H) by (intros i j Hi Hj; apply Hh; lia).
    destruct (IH H Hh') as ([mu V] & [HV HD] & Ha). cbn [fst snd] in *.
    assert (Hmu : forall i, (i < n)%nat -> mu 0%nat <= mu i) by (intros i Hi; apply Ha; lia).
    destruct (border_eigen n H V mu Hh HV HD Hmu) as ([l z] & HN & Hz). cbn [fst snd] in *.
    destruct (normalise n z HN) as ([r a] & Hr & Hun & H1). cbn [fst snd] in *. set (u := fun i => (a * z i)%C).
    assert (Hu : forall g, (g < S n)%nat -> sumC (seq 0 (S n)) (fun g' => H g g' * u g')%C = (RtoC l * u g)%C).
    { intros g Hg. unfold u. rewrite (sumC_ext _ _ (fun g' => a * (H g g' * z g'))%C) by (intros; ring). rewrite sumC_scal, Hz by exact Hg. ring. }
    set (W := refl n u r). pose proof (refl_unitary n u r Hr Hun H1) as HW. fold W in HW. pose proof (refl_square n u r Hr Hun H1) as HWW. fold W in HWW.
    set (K := mm (S n) W (mm (S n) H W)).
    assert (HKl : forall i, (i < S n)%nat -> K i n = (RtoC l * kron i n)%C).
    { intros i Hi. unfold K. rewrite <- (HWW i n Hi ltac:(lia)). unfold mm at 1 3. rewrite <- sumC_scal. apply sumC_ext. intros k Hk. apply seq_in in Hk.
      transitivity (W i k * (RtoC l * W k n))%C; [|ring]. f_equal. unfold W at 2. rewrite (refl_last n u r Hr Hun). transitivity (- (RtoC l * u k))%C; [|ring]. rewrite <- (Hu k Hk), <- sumC_opp.
      apply sumC_ext. intros g _. unfold W. rewrite (refl_last n u r Hr Hun). ring. }
    assert (HKh : forall i j, (i < S n)%nat -> (j < S n)%nat -> K j i = Cconj (K i j)).
    { intros i j Hi Hj. change (K j i = adj K j i). unfold K. rewrite adj_mm.
      rewrite (mm_ext (S n) (adj (mm (S n) H W)) (mm (S n) W H) (adj W) W).
      - rewrite <- mm_assoc. reflexivity.
      - intros k Hk. rewrite adj_mm. apply mm_ext; [intros; apply refl_adj|intros k' Hk'; unfold adj; symmetry; apply Hh; assumption].
      - intros k Hk. apply refl_adj. }
    destruct (IH K) as ([nu U] & [HU HK] & _); [intros i j Hi Hj; apply HKh; lia|]. cbn [fst snd] in *.
    set (lam := fun m => if (m <? n)%nat then nu m else l).
    apply (decomposed_sort (S n) H lam (mm (S n) W (extend n U))). split; [apply unitary_mm; [exact HW|apply extend_unitary, HU]|].
    assert (HKd : meq (S n) K (mm (S n) (extend n U) (mm (S n) (dg lam) (adj (extend n U))))).
    { intros i j Hi Hj. rewrite decomposed_entry, sum_S. unfold lam at 2. rewrite (proj2 (Nat.ltb_ge n n)) by lia.
      unfold extend at 3 4. rewrite (proj2 (Nat.ltb_ge n n)), !andb_false_r by lia.
      assert (Z : forall x m, ~ (x < n)%nat -> (m < n)%nat -> extend n U x m = RtoC 0).
      { intros x m Hx Hm. unfold extend. rewrite (proj2 (Nat.ltb_ge x n)), andb_false_l by lia. apply kron_diff. lia. }
      destruct (Nat.eq_dec j n) as [->|Hjn]; [|destruct (Nat.eq_dec i n) as [->|Hin]].
      - rewrite HKl by assumption. rewrite (sumC_zero (seq 0 n)) by (intros m Hm; apply seq_in in Hm; rewrite (Z n m) by lia; rewrite Cconj_R; ring). rewrite kron_same, Cconj_R. ring.
      - rewrite (HKh j n Hj Hi), HKl by exact Hj. rewrite (sumC_zero (seq 0 n)) by (intros m Hm; apply seq_in in Hm; rewrite (Z n m) by lia; ring). rewrite (kron_diff j n) by exact Hjn. rewrite Cmult_0_r, Cconj_R. ring.
      - rewrite HK, decomposed_entry by lia. rewrite (kron_diff i n) by exact Hin. rewrite Cmult_0_l, Cmult_0_l, Cplus_0_r. apply sumC_ext. intros m Hm. apply seq_in in Hm.
        unfold extend, lam. rewrite !(proj2 (Nat.ltb_lt _ n)) by lia. reflexivity. }
    set (Ue := extend n U) in *. set (D := dg lam) in *.
    intros i j Hi Hj.
    assert (HHK : H i j = mm (S n) W (mm (S n) K W) i j).
    { unfold K. symmetry. rewrite (mm_ext (S n) W W _ (mm (S n) W H)); [|reflexivity|].
      - rewrite <- mm_assoc. rewrite (mm_ext (S n) _ kron _ H); [apply mm_kron_l, Hi|intros; apply HWW; assumption|reflexivity].
      - intros k Hk. rewrite mm_assoc. rewrite (mm_ext (S n) W W _ H); [reflexivity|reflexivity|]. intros k' Hk'. rewrite mm_assoc.
        rewrite (mm_ext (S n) H H _ kron); [apply mm_kron_r, Hj|reflexivity|intros; apply HWW; assumption]. }
    rewrite HHK. rewrite mm_assoc. apply mm_ext; [reflexivity|]. intros k Hk.
    rewrite (mm_ext (S n) K (mm (S n) Ue (mm (S n) D (adj Ue))) W W) by (intros; try reflexivity; apply HKd; assumption).
    rewrite mm_assoc. apply mm_ext; [reflexivity|]. intros k' Hk'. rewrite mm_assoc. apply mm_ext; [reflexivity|]. intros k'' Hk''.
    rewrite adj_mm. apply mm_ext; [reflexivity|]. intros; symmetry; apply refl_adj.
Qed.

Lemma spectrum_exists n H : hermitian n H -> {lam | spectrum n H lam}.
Proof. intros Hh. destruct (spectral n H Hh) as ([lam V] & HD & Ha). exists lam. apply (decomposed_spectrum n H lam V HD Ha). Qed.
