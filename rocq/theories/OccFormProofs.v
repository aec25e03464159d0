(** The capped-simplex occupations as a formula, and the values they start from (C78, C79). *)
From Coq Require Import List Arith ZArith Reals Bool Lra Lia ZifyBool.
From Verif Require Import Base Sums Tensor GridModel PadModel PadProofs OccModel OccSpec ProjProofs OccProofs.
Import ListNotations.
Local Open Scope R_scope.

Lemma nth_blocks {A} (f : nat -> list A) B d : (forall k, length (f k) = B) -> forall n s k b, (k < n)%nat -> (b < B)%nat ->
  nth (k * B + b) (flat_map f (seq s n)) d = nth b (f (s + k)%nat) d.
Proof.
  intros HL. induction n as [|n IH]; intros s k b Hk Hb; [lia|]. cbn [seq flat_map]. destruct k as [|k].
  - rewrite app_nth1 by (rewrite HL; exact Hb). rewrite Nat.add_0_r. reflexivity.
  - rewrite app_nth2 by (rewrite HL; nia). rewrite HL. replace (S k * B + b - B)%nat with (k * B + b)%nat by nia. rewrite IH by lia. f_equal. f_equal. lia.
Qed.
Lemma nth_indices2 K B k b : (k < K)%nat -> (b < B)%nat -> nth (k * B + b) (indices [K; B]) [] = [k; b].
Proof.
  intros Hk Hb. assert (H1 : length (indices [B]) = B) by (rewrite length_indices; cbn; lia).
  change (indices [K; B]) with (flat_map (fun i => map (cons i) (indices [B])) (seq 0 K)).
  rewrite (nth_blocks _ B) by (try assumption; intros; rewrite map_length; exact H1).
  rewrite (nth_indep _ [] [(0 + k)%nat]) by (rewrite map_length, H1; exact Hb).
  change [(0 + k)%nat] with (cons (0 + k)%nat []). rewrite (map_nth (cons (0 + k)%nat)). cbn [plus]. f_equal.
  change (indices [B]) with (flat_map (fun i => map (cons i) [[]]) (seq 0 B)).
  replace b with (b * 1 + 0)%nat at 1 by lia. rewrite (nth_blocks _ 1) by (try lia; intros; reflexivity). reflexivity.
Qed.
Lemma ravel_nth t K B k b : tshape t = [K; B] -> (k < K)%nat -> (b < B)%nat -> nth (k * B + b) (map sigmoid (ravel t)) 0 = sigmoid (tget t [k; b]).
Proof.
  intros St Hk Hb. assert (HL : (k * B + b < K * B)%nat) by nia.
  rewrite (nth_indep _ 0 (sigmoid (tget t []))) by (rewrite map_length, (ravel_length t K B St); exact HL).
  rewrite (map_nth sigmoid). unfold ravel. rewrite (map_nth (tget t)), St, nth_indices2 by assumption. reflexivity.
Qed.

(** The projection shifts all entries by one number and cuts at 0 and 1. *)
Lemma proj_clip x m : unit_entries x -> 0 < m < INR (length x) -> exists lam, proj x m = map (fun v => Rmin (Rmax (v + lam) 0) 1) x.
Proof.
  intros Hx Hm. destruct (proj_exact x m Hx Hm) as (_ & U & _). revert U. unfold proj, pushup, pushdown. destruct (Rle_dec (lsum x) m); cbv zeta; intros U.
  - match type of U with unit_entries (map (fun v => Rmin (v + ?l) 1) x) => exists l; set (lam := l) in * end. apply map_ext_in. intros v Hv.
    assert (0 <= Rmin (v + lam) 1) by (apply (U (Rmin (v + lam) 1)), in_map_iff; exists v; split; [reflexivity|exact Hv]).
    rewrite (Rmax_left (v + lam) 0); [reflexivity|]. pose proof (Rmin_l (v + lam) 1). lra.
  - match type of U with unit_entries (map (fun v => Rmax (v - ?l) 0) x) => exists (- l); set (lam := l) in * end. apply map_ext_in. intros v Hv. change (v + - lam) with (v - lam).
    assert (Rmax (v - lam) 0 <= 1) by (apply (U (Rmax (v - lam) 0)), in_map_iff; exists v; split; [reflexivity|exact Hv]).
    rewrite (Rmin_left (Rmax (v - lam) 0) 1); [reflexivity|assumption].
Qed.

Lemma simplex_formula up down N s K B : (1 <= K)%nat -> tshape up = [K; B] -> tshape down = [K; B] ->
  (0 < (N - Z.abs s) / 2)%Z -> ((N + Z.abs s) / 2 < Z.of_nat B)%Z ->
  exists occ occ1 lu ld, simplex_projector up down N s false = Ok occ /\ simplex_projector up down N s true = Ok occ1 /\
    channel occ 0 = IZR ((N + s) / 2) /\ channel occ 1 = IZR ((N - s) / 2) /\
    forall k b, (k < K)%nat -> (b < B)%nat ->
      tget occ [0; k; b]%nat = Rmin (Rmax (/ (1 + exp (- tget up [k; b])) + lu) 0) 1 / INR K /\
      tget occ [1; k; b]%nat = Rmin (Rmax (/ (1 + exp (- tget down [k; b])) + ld) 0) 1 / INR K /\
      tget occ1 [0; k; b]%nat = tget occ [0; k; b]%nat + tget occ [1; k; b]%nat.
Proof.
  intros HK Su Sd Hlo Hhi. assert (HKp : 0 < INR K) by (apply lt_0_INR; lia).
  assert (Hzu : (0 < (N + s) / 2 < Z.of_nat B)%Z) by lia. assert (Hzd : (0 < (N - s) / 2 < Z.of_nat B)%Z) by lia.
  assert (Hm : forall z, (0 < z < Z.of_nat B)%Z -> 0 < IZR (z * Z.of_nat K) < INR (K * B)) by (intros z Hz; rewrite INR_IZR_INZ; split; apply IZR_lt; nia).
  assert (Hmap : forall t, tshape t = [K; B] -> length (map sigmoid (ravel t)) = (K * B)%nat) by (intros t Ht; rewrite map_length; apply ravel_length, Ht).
  unfold simplex_projector. rewrite Su. destruct (Nat.eqb_spec (K * B) 0) as [E0|_]; [exfalso; nia|].
  replace (nprod (tshape down)) with (K * B)%nat by (rewrite Sd; cbn [nprod fold_right]; lia). rewrite Nat.eqb_refl.
  destruct (proj_clip _ (IZR ((N + s) / 2 * Z.of_nat K)) (sig_unit up)) as (lu & Eu); [rewrite (Hmap up Su); apply Hm, Hzu|].
  destruct (proj_clip _ (IZR ((N - s) / 2 * Z.of_nat K)) (sig_unit down)) as (ld & Edn); [rewrite (Hmap down Sd); apply Hm, Hzd|].
  destruct (proj_exact _ _ (sig_unit up) ltac:(rewrite (Hmap up Su); apply (Hm _ Hzu))) as (Lu & Uu & Squ).
  destruct (proj_exact _ _ (sig_unit down) ltac:(rewrite (Hmap down Sd); apply (Hm _ Hzd))) as (Ld & Ud & Sqd). rewrite (Hmap up Su) in Lu. rewrite (Hmap down Sd) in Ld.
  set (pu := proj (map sigmoid (ravel up)) _) in *. set (pd := proj (map sigmoid (ravel down)) _) in *.
  destruct (simplex_sums pu pd K B HK Lu Ld Uu Ud) as (C0 & C1 & _).
  assert (Ez : forall z, IZR (z * Z.of_nat K) / INR K = IZR z) by (intros z; rewrite mult_IZR, <- INR_IZR_INZ; field; lra).
  rewrite Squ, Ez in C0. rewrite Sqd, Ez in C1.
  eexists _, _, lu, ld. split; [reflexivity|]. split; [reflexivity|]. split; [exact C0|]. split; [exact C1|].
  assert (Gt : forall t l p k b, tshape t = [K; B] -> p = map (fun v => Rmin (Rmax (v + l) 0) 1) (map sigmoid (ravel t)) -> (k < K)%nat -> (b < B)%nat -> nth (k * B + b) p 0 = Rmin (Rmax (/ (1 + exp (- tget t [k; b])) + l) 0) 1).
  { intros t l p k b St -> Hk Hb. assert (HL : (k * B + b < K * B)%nat) by nia.
    rewrite (nth_indep _ 0 ((fun v => Rmin (Rmax (v + l) 0) 1) 0)) by (rewrite map_length, (Hmap t St); exact HL). rewrite (map_nth (fun v => Rmin (Rmax (v + l) 0) 1)), (ravel_nth t K B k b St Hk Hb). reflexivity. }
  intros k b Hk Hb. cbn [tget nth Nat.eqb tl sum_spin tshape]. rewrite (Gt up lu pu k b Su Eu Hk Hb), (Gt down ld pd k b Sd Edn Hk Hb). repeat split; reflexivity.
Qed.

(** The start: the parameters grow by a tenth from one position to the next. *)
Lemma simplex_start qr rnd B N K s : (1 <= K)%nat -> (0 < (N - Z.abs s) / 2)%Z -> ((N + Z.abs s) / 2 < Z.of_nat B)%Z ->
  exists p occ, occ_param_init rnd B N K s MSimplex false = Ok p /\ occupation qr p K N s MSimplex false = Ok occ /\
    forall c, (c < 2)%nat -> exists lam, forall k b, (k < K)%nat -> (b < B)%nat ->
      tget occ [c; k; b] = Rmin (Rmax (/ (1 + exp (- ((INR (k * B + b) - INR (K * B / 2)) / 10))) + lam) 0) 1 / INR K.
Proof.
  intros HK Hlo Hhi. exists (PDict (simplex_projector_init B K) (simplex_projector_init B K)).
  destruct (simplex_formula (simplex_projector_init B K) (simplex_projector_init B K) N s K B HK eq_refl eq_refl Hlo Hhi) as (occ & occ1 & lu & ld & E & _ & _ & _ & V).
  exists occ. split; [reflexivity|]. split; [exact E|]. intros c Hc. assert (Cc : c = 0%nat \/ c = 1%nat) by lia. destruct Cc as [-> | ->]; [exists lu|exists ld]; intros k b Hk Hb; destruct (V k b Hk Hb) as (V0 & V1 & _); [rewrite V0|rewrite V1];
    cbn [simplex_projector_init tget nth]; rewrite (Nat.mul_comm K B); reflexivity.
Qed.
Lemma clip_mono a b lam w : a <= b -> 0 < w -> Rmin (Rmax (a + lam) 0) 1 / w <= Rmin (Rmax (b + lam) 0) 1 / w.
Proof. intros H Hw. apply Rmult_le_compat_r; [left; apply Rinv_0_lt_compat, Hw|]. apply Rle_min_compat_r, Rle_max_compat_r. lra. Qed.
(** So the highest bands of the last k-points start fullest. *)
Lemma simplex_start_order qr rnd B N K s : (1 <= K)%nat -> (0 < (N - Z.abs s) / 2)%Z -> ((N + Z.abs s) / 2 < Z.of_nat B)%Z ->
  exists p occ, occ_param_init rnd B N K s MSimplex false = Ok p /\ occupation qr p K N s MSimplex false = Ok occ /\
    forall c k b k' b', (c < 2)%nat -> (k < K)%nat -> (b < B)%nat -> (k' < K)%nat -> (b' < B)%nat -> (k * B + b <= k' * B + b')%nat -> tget occ [c; k; b] <= tget occ [c; k'; b'].
Proof.
  intros HK Hlo Hhi. destruct (simplex_start qr rnd B N K s HK Hlo Hhi) as (p & occ & E1 & E2 & V). exists p, occ. split; [exact E1|]. split; [exact E2|].
  intros c k b k' b' Hc Hk Hb Hk' Hb' Hle. destruct (V c Hc) as (lam & V'). rewrite (V' k b Hk Hb), (V' k' b' Hk' Hb'). apply clip_mono; [|apply lt_0_INR; lia].
  apply le_INR in Hle. apply Rinv_le_contravar.
  - pose proof (exp_pos (- ((INR (k' * B + b') - INR (K * B / 2)) / 10))). lra.
  - apply Rplus_le_compat_l. destruct Hle as [Hlt|E]; [left; apply exp_increasing; lra|rewrite E; lra].
Qed.
