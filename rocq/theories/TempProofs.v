(** The range of the entropy, and free energies at several temperatures (C155). *)
From Coq Require Import Reals Lra Lia.
From Coquelicot Require Import Coquelicot.
From Coq Require Import Ascii String List Arith ZArith Bool.
From Verif Require Import Base Sums Tensor DFT GridModel GridProofs PadModel PadProofs Lin3 VecModel VecProofs OccModel OccSpec OccProofs PwModel PwSpec PwProofs BraketModel XcModel XcSpec XcProofs XcProofs3 GgaProofs2 EnergyModel EnergySpec EnergyProofs ExtProofs TotalProofs SpinProofs
  LocModel NlocModel CalcModel CalcSpec DrvModel DrvSpec DrvProofs DrvProofs2 DrvProofs3 DrvProofs4 DrvProofs5 DrvProofs6 CalcProofs3 BoundSpec BoundProofs BoundProofs2 ReachSpec ReachProofs ReachProofs2 ReachProofs3 GeomSpec IdemSpec IdemProofs AttSpec AttProofs AttProofs2 AttProofs3 AttProofs4 AttProofs5 NcAttSpec NcAttProofs NcAttProofs2 TempSpec.
Import ListNotations.
Local Open Scope R_scope.

Lemma xln_le a b x : 0 <= x -> 0 < a -> a <= b -> x * ln a <= x * ln b.
Proof. intros Hx Ha Hab. apply Rmult_le_compat_l; [exact Hx|]. destruct (Rle_lt_or_eq_dec a b Hab) as [H|H]; [left; apply ln_increasing; assumption|rewrite H; right; reflexivity]. Qed.

Lemma fdterm_top eps w o : 0 < eps -> 0 <= o <= w -> fdterm eps w o <= w * ln (eps + w).
Proof.
  intros He Ho. unfold fdterm. pose proof (xln_le (eps + o) (eps + w) o ltac:(lra) ltac:(lra) ltac:(lra)). pose proof (xln_le (eps + w - o) (eps + w) (w - o) ltac:(lra) ltac:(lra) ltac:(lra)).
  replace (w * ln (eps + w)) with (o * ln (eps + w) + (w - o) * ln (eps + w)) by ring. lra.
Qed.
Lemma fdterm_range eps w : 0 < eps -> 0 <= w -> w * ln (eps + w) <= w * ln (eps + w / 2) + w * ln 2.
Proof.
  intros He Hw. rewrite <- Rmult_plus_distr_l, <- ln_mult by lra. apply xln_le; lra.
Qed.

(** Entropies of occupations between empty and full differ by no more than ln 2 for each of the two
    spins of each band. *)
Lemma entropy_range S K B eps occ occ' h h' : (S = 1 \/ S = 2)%nat -> (1 <= K)%nat -> 0 < eps -> tshape occ = [S; K; B] -> tshape occ' = [S; K; B] ->
  within 0 ((3 - INR S) / INR K) occ -> within 0 ((3 - INR S) / INR K) occ' -> fermi_dirac occ eps = Ok h -> fermi_dirac occ' eps = Ok h' -> h <= h' + 2 * INR B * ln 2.
Proof.
  intros HS HK He S1 S2 W1 W2. rewrite (fermi_dirac_eq occ eps _ _ _ S1), (fermi_dirac_eq occ' eps _ _ _ S2). intros E1 E2. injection E1 as <-. injection E2 as <-.
  unfold within in *. rewrite S1 in *. rewrite S2 in *. set (w := (3 - INR S) / INR K) in *. assert (HKp : 0 < INR K) by (apply lt_0_INR; lia).
  assert (Hw : 0 <= w). { unfold w. apply Rmult_le_pos; [|left; apply Rinv_0_lt_compat, HKp]. destruct HS as [-> | ->]; cbn; lra. }
  assert (L : sumR (indices [S; K; B]) (fun _ => w * ln (eps + w / 2)) <= sumR (indices [S; K; B]) (fun i => fdterm eps w (tget occ i))).
  { apply sumR_le. intros i Hi. apply fdterm_lower; [exact He|]. apply W1, in_indices, Hi. }
  assert (U : sumR (indices [S; K; B]) (fun i => fdterm eps w (tget occ' i)) <= sumR (indices [S; K; B]) (fun _ => w * ln (eps + w / 2) + w * ln 2)).
  { apply sumR_le. intros i Hi. eapply Rle_trans; [apply fdterm_top; [exact He|apply W2, in_indices, Hi]|apply fdterm_range; assumption]. }
  rewrite sumR_const, length_indices in L, U. cbn [nprod] in L, U. replace (S * (K * (B * 1)))%nat with (S * K * B)%nat in L, U by lia.
  assert (E : INR (S * K * B) * (w * ln 2) = 2 * INR B * ln 2).
  { rewrite !mult_INR. unfold w. destruct HS as [-> | ->]; cbn [INR]; field; lra. }
  rewrite Rmult_plus_distr_l, E in U. lra.
Qed.

(** The gamma occupations of several k-points are larger than the largest value by far. *)
Lemma gamma_outside K N s B r occ eps : (2 <= K)%nat -> (1 <= B)%nat -> (N mod 2 = s mod 2)%Z -> (1 <= (N - Z.abs s) / 2)%Z -> ((N + Z.abs s) / 2 <= Z.of_nat B)%Z -> eps < / 2 -> gamma K N s (Some B) r = Ok occ ->
  exists i, inb i (tshape occ) /\ eps + (3 - INR (num_spin r)) / INR K - tget occ i < 0.
Proof.
  intros HK HB Hp H1 H2 He. unfold gamma. cbv zeta. intros E. injection E as <-.
  assert (Pb : forall z, (1 <= z)%Z -> (0 <? py_bound (Z.of_nat B) z)%Z = true).
  { intros z Hz. apply Z.ltb_lt. unfold py_bound. destruct (z <? 0)%Z eqn:Ez; [apply Z.ltb_lt in Ez; lia|]. lia. }
  assert (Hz1 : (1 <= (N + s) / 2)%Z) by (eapply Z.le_trans; [exact H1|apply Z.div_le_mono; lia]). assert (Hz2 : (1 <= (N - s) / 2)%Z) by (eapply Z.le_trans; [exact H1|apply Z.div_le_mono; lia]).
  assert (HK2 : 2 <= INR K) by (replace 2 with (INR 2) by (cbn; ring); apply le_INR; exact HK).
  assert (Hi : / INR K <= / 2) by (apply Rinv_le_contravar; lra).
  exists [0%nat; 0%nat; 0%nat]. destruct r; unfold sum_spin; cbn [tshape tget nth num_spin tl].
  - split; [unfold inb; repeat constructor; lia|]. cbn [nth andb Nat.eqb Z.of_nat] in *. rewrite (Pb _ Hz1), (Pb _ Hz2). cbn [INR]. unfold Rdiv. lra.
  - split; [unfold inb; repeat constructor; lia|]. cbn [nth andb Nat.eqb Z.of_nat] in *. rewrite (Pb _ Hz1). cbn [INR]. unfold Rdiv. lra.
Qed.
