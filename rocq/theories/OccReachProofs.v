(** Which occupations the capped-simplex method describes (C145). *)
From Coq Require Import List Arith ZArith Reals Bool Lra Lia ZifyBool.
From Verif Require Import Base Sums Tensor GridModel PadModel PadProofs OccModel OccSpec ProjProofs OccProofs OccReachSpec.
Import ListNotations.
Local Open Scope R_scope.

Lemma logit x : 0 < x < 1 -> exists y, sigmoid y = x.
Proof.
  intros Hx. exists (- ln (/ x - 1)). unfold sigmoid. rewrite Ropp_involutive, exp_ln; [field; lra|].
  assert (1 < / x) by (rewrite <- Rinv_1; apply Rinv_lt_contravar; lra). lra.
Qed.
Lemma sigmoid_open y : 0 < sigmoid y < 1.
Proof.
  unfold sigmoid. pose proof (exp_pos (- y)) as P. split; [apply Rinv_0_lt_compat; lra|]. rewrite <- Rinv_1. apply Rinv_lt_contravar; lra.
Qed.
Lemma logit_list l : (forall v, In v l -> 0 < v < 1) -> exists ys, length ys = length l /\ map sigmoid ys = l.
Proof.
  induction l as [|a l IH]; intros H; [exists []; split; reflexivity|]. destruct (IH (fun v Hv => H v (or_intror Hv))) as (ys & Ly & Ey). destruct (logit a (H a (or_introl eq_refl))) as (y & Hy).
  exists (y :: ys). split; [cbn; congruence|]. cbn [map]. congruence.
Qed.
Lemma sqdist_shift d : forall q p, length q = length p -> sqdist (map (fun v => v + d) q) p = sqdist q p + 2 * d * (list_sum q - list_sum p) + INR (length q) * (d * d).
Proof.
  induction q as [|a q IH]; intros [|b p] H; try discriminate; [cbn; ring|]. injection H as H. cbn [map sqdist list_sum]. rewrite (IH p H). change (length (a :: q)) with (S (length q)). rewrite S_INR. ring.
Qed.
Lemma sqdist_nonneg : forall q p, 0 <= sqdist q p.
Proof. induction q as [|a q IH]; intros [|b p]; cbn [sqdist]; try lra. specialize (IH p). pose proof (Rle_0_sqr (a - b)) as S. unfold Rsqr in S. lra. Qed.
Lemma sqdist_refl : forall q, sqdist q q = 0.
Proof. induction q as [|a q IH]; cbn [sqdist]; [reflexivity|]. rewrite IH. ring. Qed.
Lemma list_sum_shift d q : list_sum (map (fun v => v + d) q) = list_sum q + INR (length q) * d.
Proof. induction q as [|a q IH]; [cbn; ring|]. cbn [map list_sum]. rewrite IH. change (length (a :: q)) with (S (length q)). rewrite S_INR. ring. Qed.
(** Moving all entries by the same amount does not change the projection. *)
Lemma proj_shift q m d : unit_entries q -> unit_entries (map (fun v => v + d) q) -> 0 < m < INR (length q) -> list_sum q = m -> proj (map (fun v => v + d) q) m = q.
Proof.
  intros Uq Ux Hm Hs. assert (Lx : length (map (fun v => v + d) q) = length q) by apply map_length. assert (Hm' : 0 < m < INR (length (map (fun v => v + d) q))) by (rewrite Lx; exact Hm).
  destruct (proj_exact _ m Ux Hm') as (Lp & Up & Sp). symmetry. apply proj_unique; try assumption; [congruence|].
  rewrite !sqdist_shift by congruence. rewrite sqdist_refl, Sp, Hs. pose proof (sqdist_nonneg q (proj (map (fun v => v + d) q) m)). lra.
Qed.
Lemma room_below q : (forall v, In v q -> 0 < v) -> exists d, 0 < d /\ forall v, In v q -> d < v.
Proof.
  induction q as [|a q IH]; intros H; [exists 1; split; [lra|intros v []]|]. destruct (IH (fun v Hv => H v (or_intror Hv))) as (d & Pd & Hd). pose proof (H a (or_introl eq_refl)) as Pa.
  exists (Rmin d (a / 2)). split; [apply Rmin_glb_lt; lra|]. intros v [<-|Hv]; [pose proof (Rmin_r d (a / 2)); lra|pose proof (Rmin_l d (a / 2)); specialize (Hd v Hv); lra].
Qed.
Lemma room_above q : (forall v, In v q -> v < 1) -> exists d, 0 < d /\ forall v, In v q -> v + d < 1.
Proof.
  intros H. destruct (room_below (map (fun v => 1 - v) q)) as (d & Pd & Hd); [intros v Hv; apply in_map_iff in Hv; destruct Hv as (w & <- & Hw); specialize (H w Hw); lra|].
  exists d. split; [exact Pd|]. intros v Hv. specialize (Hd (1 - v) (in_map (fun v => 1 - v) q v Hv)). lra.
Qed.
Lemma proj_reach q m : unit_entries q -> list_sum q = m -> 0 < m < INR (length q) -> (exists y, length y = length q /\ proj (map sigmoid y) m = q) <-> ~ (In 0 q /\ In 1 q).
Proof.
  intros Uq Hs Hm. split.
  - intros (y & Ly & <-) (H0 & H1). unfold proj in H0, H1. destruct (Rle_dec _ _) as [_|_]; [unfold pushup in H0, H1|unfold pushdown in H0, H1]; cbv zeta in H0, H1; apply in_map_iff in H0, H1;
      destruct H0 as (a & Ea & Ia), H1 as (b & Eb & Ib); apply in_map_iff in Ia, Ib; destruct Ia as (ya & <- & _), Ib as (yb & <- & _); pose proof (sigmoid_open ya) as Pa; pose proof (sigmoid_open yb) as Pb.
    + match type of Ea with Rmin (_ + ?l) 1 = 0 => set (lam := l) in * end. unfold Rmin in Ea, Eb. destruct (Rle_dec _ 1) in Ea; destruct (Rle_dec _ 1) in Eb; lra.
    + match type of Ea with Rmax (_ - ?l) 0 = 0 => set (lam := l) in * end. unfold Rmax in Ea, Eb. destruct (Rle_dec _ 0) in Ea; destruct (Rle_dec _ 0) in Eb; lra.
  - intros Hn. destruct (in_dec Req_EM_T 0 q) as [H0|H0].
    + assert (H1 : forall v, In v q -> v < 1) by (intros v Hv; pose proof (Uq v Hv) as P; destruct (Req_dec v 1) as [->|]; [elim Hn; split; assumption|lra]). destruct (room_above q H1) as (d & Pd & Hd).
      assert (Hx : forall v, In v (map (fun v => v + d) q) -> 0 < v < 1) by (intros v Hv; apply in_map_iff in Hv; destruct Hv as (w & <- & Hw); pose proof (Uq w Hw); specialize (Hd w Hw); lra).
      destruct (logit_list _ Hx) as (y & Ly & Ey). exists y. rewrite map_length in Ly. split; [exact Ly|]. rewrite Ey. apply proj_shift; try assumption. intros v Hv. specialize (Hx v Hv). lra.
    + assert (H1 : forall v, In v q -> 0 < v) by (intros v Hv; pose proof (Uq v Hv) as P; destruct (Req_dec v 0) as [->|]; [elim H0; assumption|lra]). destruct (room_below q H1) as (d & Pd & Hd).
      assert (Hx : forall v, In v (map (fun v => v + - d) q) -> 0 < v < 1) by (intros v Hv; apply in_map_iff in Hv; destruct Hv as (w & <- & Hw); pose proof (Uq w Hw); specialize (Hd w Hw); lra).
      destruct (logit_list _ Hx) as (y & Ly & Ey). exists y. rewrite map_length in Ly. split; [exact Ly|]. rewrite Ey. apply proj_shift; try assumption. intros v Hv. specialize (Hx v Hv). lra.
Qed.
Lemma ravel_any l K B : length l = (K * B)%nat -> exists t, tshape t = [K; B] /\ ravel t = l.
Proof.
  intros Hl. exists (mkT [K; B] (fun i => match find_index i (indices [K; B]) with Some j => nth j l 0 | None => 0 end)). split; [reflexivity|]. unfold ravel. cbn [tshape tget].
  assert (Li : length (indices [K; B]) = (K * B)%nat) by (rewrite length_indices; cbn; lia).
  apply (nth_ext _ _ 0 0); [rewrite map_length; congruence|]. intros n Hn. rewrite map_length in Hn.
  rewrite (nth_indep _ 0 ((fun i => match find_index i (indices [K; B]) with Some j => nth j l 0 | None => 0 end) [])) by (rewrite map_length; exact Hn).
  rewrite (map_nth (fun i => match find_index i (indices [K; B]) with Some j => nth j l 0 | None => 0 end)). rewrite find_index_nth by (first [apply NoDup_indices|exact Hn]). reflexivity.
Qed.

(** The entries of one spin channel, times the number of k-points. *)
Definition flat (occ : tensor R) (s K B : nat) : list R := map (fun n => tget occ [s; n / B; n mod B]%nat * INR K) (seq 0 (K * B)).
Lemma flat_length occ s K B : length (flat occ s K B) = (K * B)%nat.
Proof. unfold flat. rewrite map_length, seq_length. reflexivity. Qed.
Lemma flat_nth occ s K B k b : (k < K)%nat -> (b < B)%nat -> nth (k * B + b) (flat occ s K B) 0 = tget occ [s; k; b] * INR K.
Proof.
  intros Hk Hb. pose proof (block_lt k b K B Hk Hb) as HL. unfold flat. rewrite (nth_indep _ 0 ((fun n => tget occ [s; n / B; n mod B]%nat * INR K) 0%nat)) by (rewrite map_length, seq_length; exact HL).
  rewrite (map_nth (fun n => tget occ [s; n / B; n mod B]%nat * INR K)), seq_nth by exact HL. cbn [plus].
  assert (E1 : ((k * B + b) / B = k)%nat) by (rewrite Nat.div_add_l by lia; rewrite Nat.div_small by exact Hb; lia). assert (E2 : ((k * B + b) mod B = b)%nat) by (rewrite Nat.add_comm, Nat.mod_add by lia; apply Nat.mod_small, Hb). rewrite E1, E2. reflexivity.
Qed.
Lemma flat_in occ s K B v : (1 <= B)%nat -> In v (flat occ s K B) <-> exists k b, (k < K)%nat /\ (b < B)%nat /\ v = tget occ [s; k; b] * INR K.
Proof.
  intros HB. split.
  - intros H. unfold flat in H. apply in_map_iff in H. destruct H as (n & <- & Hn). apply in_seq in Hn. exists (n / B)%nat, (n mod B)%nat. split; [apply Nat.div_lt_upper_bound; lia|]. split; [apply Nat.mod_upper_bound; lia|reflexivity].
  - intros (k & b & Hk & Hb & ->). rewrite <- (flat_nth occ s K B k b Hk Hb). apply nth_In. rewrite flat_length. apply block_lt; assumption.
Qed.
Lemma flat_sum occ s K B : tshape occ = [2; K; B]%nat -> list_sum (flat occ s K B) = channel occ s * INR K.
Proof.
  intros So. rewrite list_sum_nth, flat_length. rewrite <- (sumR_blocks K B (fun i => nth i (flat occ s K B) 0)).
  replace (channel occ s) with (sumR (seq 0 K) (fun k => sumR (seq 0 B) (fun b => tget occ [s; k; b]))) by (unfold channel; rewrite So; cbn [tl]; symmetry; apply (sumR_KB K B (fun i => tget occ (s :: i)))).
  rewrite <- sumR_scal_r. apply sumR_ext. intros k Hk. apply in_seq in Hk. rewrite <- sumR_scal_r. apply sumR_ext. intros b Hb. apply in_seq in Hb. apply flat_nth; lia.
Qed.

Lemma in3 a b c x y z : (a < x)%nat -> (b < y)%nat -> (c < z)%nat -> inb [a; b; c] [x; y; z].
Proof. intros. unfold inb. apply Forall2_cons; [assumption|]. apply Forall2_cons; [assumption|]. apply Forall2_cons; [assumption|]. apply Forall2_nil. Qed.
Lemma simplex_reach occ N s K B : (1 <= K)%nat -> tshape occ = [2; K; B]%nat -> (0 < (N - Z.abs s) / 2)%Z -> ((N + Z.abs s) / 2 < Z.of_nat B)%Z ->
  (exists up down o, tshape up = [K; B] /\ tshape down = [K; B] /\ simplex_projector up down N s false = Ok o /\ teq o occ) <->
  admissible occ K B N s /\ forall i, (i < 2)%nat -> ~ (has_empty occ i K B /\ has_full occ i K B).
Proof.
  intros HK So Hlo Hhi. assert (HKp : 0 < INR K) by (apply lt_0_INR; lia). assert (HB : (1 <= B)%nat) by lia.
  assert (Hzu : (0 < (N + s) / 2 < Z.of_nat B)%Z) by lia. assert (Hzd : (0 < (N - s) / 2 < Z.of_nat B)%Z) by lia.
  assert (Hm : forall z, (0 < z < Z.of_nat B)%Z -> 0 < IZR (z * Z.of_nat K) < INR (K * B)).
  { intros z Hz. rewrite INR_IZR_INZ. split; apply IZR_lt; nia. }
  assert (Hd : forall z, IZR (z * Z.of_nat K) = IZR z * INR K) by (intros z; rewrite mult_IZR, <- INR_IZR_INZ; reflexivity).
  assert (HE : forall i, has_empty occ i K B <-> In 0 (flat occ i K B)).
  { intros i. rewrite flat_in by exact HB. split; intros (k & b & Hk & Hb & E); exists k, b; (split; [exact Hk|]); (split; [exact Hb|]); [rewrite E; ring|]. symmetry in E. apply Rmult_integral in E. destruct E; [assumption|lra]. }
  assert (HF : forall i, has_full occ i K B <-> In 1 (flat occ i K B)).
  { intros i. rewrite flat_in by exact HB. split; intros (k & b & Hk & Hb & E); exists k, b; (split; [exact Hk|]); (split; [exact Hb|]); [rewrite E; field; lra|]. rewrite E. field. lra. }
  assert (HU : within 0 (1 / INR K) occ -> forall i, (i < 2)%nat -> unit_entries (flat occ i K B)).
  { intros W i Hi v Hv. apply flat_in in Hv; [|exact HB]. destruct Hv as (k & b & Hk & Hb & ->). assert (P := W [i; k; b]). rewrite So in P. specialize (P (in3 i k b 2 K B Hi Hk Hb)). split; [apply Rmult_le_pos; lra|].
    replace 1 with (1 / INR K * INR K) by (field; lra). apply Rmult_le_compat_r; lra. }
  split.
  - intros (up & down & o & Su & Sd & E & (T1 & T2)).
    unfold simplex_projector in E. rewrite Su in E. destruct (Nat.eqb_spec (K * B) 0) as [E0|_]; [exfalso; nia|]. replace (nprod (tshape down)) with (K * B)%nat in E by (rewrite Sd; cbn [nprod fold_right]; lia). rewrite Nat.eqb_refl in E.
    assert (Lu : length (map sigmoid (ravel up)) = (K * B)%nat) by (rewrite map_length; apply ravel_length, Su). assert (Ld : length (map sigmoid (ravel down)) = (K * B)%nat) by (rewrite map_length; apply ravel_length, Sd).
    destruct (proj_exact _ _ (sig_unit up) ltac:(rewrite Lu; apply (Hm _ Hzu))) as (Lpu & Upu & Spu). destruct (proj_exact _ _ (sig_unit down) ltac:(rewrite Ld; apply (Hm _ Hzd))) as (Lpd & Upd & Spd).
    set (pu := proj (map sigmoid (ravel up)) _) in *. set (pd := proj (map sigmoid (ravel down)) _) in *. rewrite Lu in Lpu. rewrite Ld in Lpd. injection E as <-.
    assert (Gt : forall i k b, (i < 2)%nat -> (k < K)%nat -> (b < B)%nat -> tget occ [i; k; b] = nth (k * B + b) (if (i =? 0)%nat then pu else pd) 0 / INR K).
    { intros i k b Hi Hk Hb. pose proof (T2 [i; k; b] (in3 i k b 2 K B Hi Hk Hb)) as E. cbn [tget nth] in E. rewrite <- E. destruct (i =? 0)%nat; reflexivity. }
    assert (Fu : flat occ 0 K B = pu).
    { apply (nth_ext _ _ 0 0); [rewrite flat_length; congruence|]. intros n Hn. rewrite flat_length in Hn. rewrite (Nat.div_mod n B) by lia. rewrite (Nat.mul_comm B). rewrite flat_nth by (first [apply Nat.div_lt_upper_bound; lia|apply Nat.mod_upper_bound; lia]).
      rewrite Gt by (first [lia|apply Nat.div_lt_upper_bound; lia|apply Nat.mod_upper_bound; lia]). cbn [Nat.eqb]. field. lra. }
    assert (Fd : flat occ 1 K B = pd).
    { apply (nth_ext _ _ 0 0); [rewrite flat_length; congruence|]. intros n Hn. rewrite flat_length in Hn. rewrite (Nat.div_mod n B) by lia. rewrite (Nat.mul_comm B). rewrite flat_nth by (first [apply Nat.div_lt_upper_bound; lia|apply Nat.mod_upper_bound; lia]).
      rewrite Gt by (first [lia|apply Nat.div_lt_upper_bound; lia|apply Nat.mod_upper_bound; lia]). cbn [Nat.eqb]. field. lra. }
    split.
    + split; [exact So|]. split.
      * intros i Hi. rewrite So in Hi. apply inb3' in Hi. destruct Hi as (a & k & b & -> & Ha & Hk & Hb). rewrite Gt by assumption. pose proof (block_lt k b K B Hk Hb) as HL.
        assert (G : 0 <= nth (k * B + b) (if (a =? 0)%nat then pu else pd) 0 <= 1) by (destruct (a =? 0)%nat; [apply Upu|apply Upd]; apply nth_In; lia).
        split; [apply Rmult_le_pos; [lra|apply Rlt_le, Rinv_0_lt_compat, HKp]|apply Rmult_le_compat_r; [apply Rlt_le, Rinv_0_lt_compat, HKp|lra]].
      * pose proof (flat_sum occ 0 K B So) as S0. pose proof (flat_sum occ 1 K B So) as S1. rewrite Fu, Spu, Hd in S0. rewrite Fd, Spd, Hd in S1.
        split; [apply (Rmult_eq_reg_r (INR K)); lra|apply (Rmult_eq_reg_r (INR K)); lra].
    + intros i Hi. rewrite HE, HF. assert (Ci : i = 0%nat \/ i = 1%nat) by lia. destruct Ci as [-> | ->]; [rewrite Fu|rewrite Fd].
      * apply (proj_reach pu _ Upu Spu); [rewrite Lpu; apply (Hm _ Hzu)|]. exists (ravel up). split; [rewrite Lpu; apply ravel_length, Su|reflexivity].
      * apply (proj_reach pd _ Upd Spd); [rewrite Lpd; apply (Hm _ Hzd)|]. exists (ravel down). split; [rewrite Lpd; apply ravel_length, Sd|reflexivity].
  - intros ((_ & W & C0 & C1) & Hn).
    assert (R : forall i z, (i < 2)%nat -> (0 < z < Z.of_nat B)%Z -> channel occ i = IZR z -> exists t, tshape t = [K; B] /\ proj (map sigmoid (ravel t)) (IZR (z * Z.of_nat K)) = flat occ i K B).
    { intros i z Hi Hz Ci. destruct (proj2 (proj_reach (flat occ i K B) (IZR (z * Z.of_nat K)) (HU W i Hi) ltac:(rewrite flat_sum, Hd, Ci by exact So; reflexivity) ltac:(rewrite flat_length; apply Hm, Hz))) as (y & Ly & Ey).
      - rewrite <- HE, <- HF. apply Hn, Hi.
      - rewrite flat_length in Ly. destruct (ravel_any y K B Ly) as (t & St & <-). exists t. split; assumption. }
    destruct (R 0%nat _ ltac:(lia) Hzu C0) as (up & Su & Eu). destruct (R 1%nat _ ltac:(lia) Hzd C1) as (down & Sd & Ed).
    exists up, down. unfold simplex_projector. rewrite Su. destruct (Nat.eqb_spec (K * B) 0) as [E0|_]; [exfalso; nia|]. replace (nprod (tshape down)) with (K * B)%nat by (rewrite Sd; cbn [nprod fold_right]; lia). rewrite Nat.eqb_refl.
    eexists. split; [reflexivity|]. split; [exact Sd|]. split; [reflexivity|]. split; [symmetry; exact So|]. intros i Hi. cbn [tshape] in Hi. apply inb3' in Hi. destruct Hi as (a & k & b & -> & Ha & Hk & Hb). cbn [tget nth]. rewrite Eu, Ed.
    assert (Ca : a = 0%nat \/ a = 1%nat) by lia. destruct Ca as [-> | ->]; cbn [Nat.eqb]; rewrite flat_nth by assumption; field; lra.
Qed.

(** The summed occupation: an empty state is empty in both channels, a full one full in both. *)
Lemma simplex_reach_restricted up down N s K B o : (1 <= K)%nat -> (0 < (N - Z.abs s) / 2)%Z -> ((N + Z.abs s) / 2 < Z.of_nat B)%Z ->
  tshape up = [K; B] -> tshape down = [K; B] -> simplex_projector up down N s true = Ok o ->
  ~ ((exists k b, (k < K)%nat /\ (b < B)%nat /\ tget o [0%nat; k; b] = 0) /\ (exists k b, (k < K)%nat /\ (b < B)%nat /\ tget o [0%nat; k; b] = 2 / INR K)).
Proof.
  intros HK Hlo Hhi Su Sd E. assert (HKp : 0 < INR K) by (apply lt_0_INR; lia).
  assert (X : exists o2, simplex_projector up down N s false = Ok o2 /\ o = sum_spin o2 /\ tshape o2 = [2; K; B]%nat).
  { unfold simplex_projector in *. rewrite Su in *. destruct (K * B =? 0)%nat; [discriminate|]. destruct (nprod (tshape down) =? K * B)%nat; [|discriminate]. injection E as <-. eexists. split; [reflexivity|]. split; reflexivity. }
  destruct X as (o2 & E2 & -> & So). assert (R := proj1 (simplex_reach o2 N s K B HK So Hlo Hhi)). specialize (R ltac:(exists up, down, o2; repeat split; assumption)).
  destruct R as ((_ & W & _ & _) & Hn). intros ((k & b & Hk & Hb & Z0) & (k' & b' & Hk' & Hb' & Z1)). apply (Hn 0%nat ltac:(lia)).
  assert (P : forall a k b, (a < 2)%nat -> (k < K)%nat -> (b < B)%nat -> 0 <= tget o2 [a; k; b] <= 1 / INR K) by (intros a k0 b0 Ha Hk0 Hb0; apply W; rewrite So; apply in3; assumption).
  assert (S : forall k b, tget (sum_spin o2) [0%nat; k; b] = tget o2 [0%nat; k; b] + tget o2 [1%nat; k; b]) by (intros; unfold sum_spin; cbn [tget tl]; reflexivity).
  rewrite S in Z0, Z1. pose proof (P 0%nat k b ltac:(lia) Hk Hb). pose proof (P 1%nat k b ltac:(lia) Hk Hb). pose proof (P 0%nat k' b' ltac:(lia) Hk' Hb'). pose proof (P 1%nat k' b' ltac:(lia) Hk' Hb').
  split; [exists k, b|exists k', b']; repeat split; try assumption; [lra|]. unfold Rdiv in *. lra.
Qed.

(** Every admissible occupation is approached. *)
Lemma simplex_dense occ N s K B eps : (1 <= K)%nat -> (0 < (N - Z.abs s) / 2)%Z -> ((N + Z.abs s) / 2 < Z.of_nat B)%Z -> admissible occ K B N s -> 0 < eps ->
  exists up down o, tshape up = [K; B] /\ tshape down = [K; B] /\ simplex_projector up down N s false = Ok o /\ tshape o = tshape occ /\ forall i, inb i (tshape occ) -> Rabs (tget o i - tget occ i) < eps.
Proof.
  intros HK Hlo Hhi (So & W & C0 & C1) He. assert (HKp : 0 < INR K) by (apply lt_0_INR; lia). assert (HB : (1 <= B)%nat) by lia. assert (HBp : 0 < INR B) by (apply lt_0_INR; lia).
  set (z := fun a : nat => if (a =? 0)%nat then ((N + s) / 2)%Z else ((N - s) / 2)%Z).
  assert (Hz : forall a, (0 < z a < Z.of_nat B)%Z) by (intros a; unfold z; destruct (a =? 0)%nat; lia).
  set (avg := fun a => IZR (z a) / INR B / INR K). assert (Ha : forall a, 0 < avg a < 1 / INR K).
  { intros a. unfold avg. assert (Q : 0 < IZR (z a) / INR B < 1).
    { rewrite INR_IZR_INZ. rewrite INR_IZR_INZ in HBp. destruct (Hz a) as (Z1 & Z2). apply IZR_lt in Z1, Z2. split; [apply Rdiv_lt_0_compat; assumption|]. apply (Rmult_lt_reg_r (IZR (Z.of_nat B))); [assumption|]. unfold Rdiv. rewrite Rmult_assoc, Rinv_l by lra. lra. }
    split; [apply Rdiv_lt_0_compat; lra|]. unfold Rdiv at 1. apply Rmult_lt_compat_r; [apply Rinv_0_lt_compat, HKp|lra]. }
  set (t := Rmin (1 / 2) (eps / 2)). assert (Ht : 0 < t) by (unfold t; apply Rmin_glb_lt; lra). assert (Ht1 : t <= 1 / 2) by apply Rmin_l. assert (Ht2 : t <= eps / 2) by apply Rmin_r.
  set (oc := mkT [2; K; B]%nat (fun i => (1 - t) * tget occ i + t * avg (nth 0 i 0%nat))).
  assert (P : forall a k b, (a < 2)%nat -> (k < K)%nat -> (b < B)%nat -> 0 <= tget occ [a; k; b] <= 1 / INR K) by (intros a k0 b0 Ha0 Hk0 Hb0; apply W; rewrite So; apply in3; assumption).
  assert (I : forall a k b, (a < 2)%nat -> (k < K)%nat -> (b < B)%nat -> 0 < tget oc [a; k; b] < 1 / INR K).
  { intros a k b Hx Hk Hb. unfold oc. cbn [tget nth]. pose proof (P a k b Hx Hk Hb) as P1. pose proof (Ha a) as P2. set (v := tget occ [a; k; b]) in *. set (w := avg a) in *. set (m := 1 / INR K) in *. clearbody v w m.
    assert (0 < t * w) by (apply Rmult_lt_0_compat; lra). assert (0 <= (1 - t) * v) by (apply Rmult_le_pos; lra). assert (t * w < t * m) by (apply Rmult_lt_compat_l; lra). assert ((1 - t) * v <= (1 - t) * m) by (apply Rmult_le_compat_l; lra). split; lra. }
  assert (Cc : forall a, (a < 2)%nat -> channel occ a = IZR (z a) -> channel oc a = IZR (z a)).
  { intros a Hx Ca. pose proof (flat_sum oc a K B eq_refl) as F1. pose proof (flat_sum occ a K B So) as F2. rewrite Ca in F2. rewrite list_sum_nth, flat_length in F1, F2. rewrite <- (sumR_blocks K B (fun i => nth i (flat oc a K B) 0)) in F1. rewrite <- (sumR_blocks K B (fun i => nth i (flat occ a K B) 0)) in F2.
    apply (Rmult_eq_reg_r (INR K)); [|lra]. rewrite <- F1.
    transitivity ((1 - t) * (IZR (z a) * INR K) + t * (INR K * (INR B * (avg a * INR K)))); [|unfold avg; field; lra].
    rewrite <- F2, <- sumR_scal. replace (t * (INR K * (INR B * (avg a * INR K)))) with (sumR (seq 0 K) (fun _ => sumR (seq 0 B) (fun _ => t * (avg a * INR K)))) by (rewrite !sumR_const, !seq_length; ring).
    rewrite <- sumR_plus. apply sumR_ext. intros k Hk. apply in_seq in Hk. rewrite <- sumR_scal, <- sumR_plus. apply sumR_ext. intros b Hb. apply in_seq in Hb. rewrite !flat_nth by lia. unfold oc. cbn [tget nth]. ring. }
  assert (A : admissible oc K B N s).
  { split; [reflexivity|]. split; [|split; [apply (Cc 0%nat); [lia|exact C0]|apply (Cc 1%nat); [lia|exact C1]]]. intros i Hi. apply inb3' in Hi. destruct Hi as (a & k & b & -> & Hx & Hk & Hb). pose proof (I a k b Hx Hk Hb). lra. }
  destruct (proj2 (simplex_reach oc N s K B HK eq_refl Hlo Hhi)) as (up & down & o & Su & Sd & E & (T1 & T2)).
  { split; [exact A|]. intros a Hx ((k & b & Hk & Hb & E) & _). pose proof (I a k b Hx Hk Hb). lra. }
  exists up, down, o. repeat (split; [assumption|]). split; [rewrite T1; symmetry; exact So|]. intros i Hi. rewrite T2 by (rewrite T1; rewrite So in Hi; exact Hi). rewrite So in Hi. apply inb3' in Hi. destruct Hi as (a & k & b & -> & Hx & Hk & Hb).
  unfold oc. cbn [tget nth]. pose proof (P a k b Hx Hk Hb) as P1. pose proof (Ha a) as P2. assert (M : 1 / INR K <= 1).
  { unfold Rdiv. rewrite Rmult_1_l, <- Rinv_1. apply Rinv_le_contravar; [lra|]. change 1 with (INR 1). apply le_INR, HK. }
  replace ((1 - t) * tget occ [a; k; b] + t * avg a - tget occ [a; k; b]) with (t * (avg a - tget occ [a; k; b])) by ring. rewrite Rabs_mult, (Rabs_right t) by lra.
  assert (Rabs (avg a - tget occ [a; k; b]) <= 1) by (apply Rabs_le; lra). apply Rle_lt_trans with (t * 1); [apply Rmult_le_compat_l; lra|lra].
Qed.

(** The ground state of an insulator: one full and one empty band. *)
Definition two_bands : tensor R := mkT [2; 1; 2]%nat (fun i => if (nth 2 i 0 =? 0)%nat then 1 else 0).
Lemma two_bands_admissible : admissible two_bands 1 2 2 0.
Proof.
  split; [reflexivity|]. split.
  - intros i _. unfold two_bands. cbn [tget]. destruct (nth 2 i 0 =? 0)%nat; cbn; lra.
  - split; unfold channel, two_bands; cbn; lra.
Qed.
Lemma two_bands_missed : ~ exists up down o, tshape up = [1; 2]%nat /\ tshape down = [1; 2]%nat /\ simplex_projector up down 2 0 false = Ok o /\ teq o two_bands.
Proof.
  intros H. assert (R := proj1 (simplex_reach two_bands 2 0 1 2 ltac:(lia) eq_refl ltac:(reflexivity) ltac:(reflexivity)) H). destruct R as (_ & Hn). apply (Hn 0%nat ltac:(lia)). split; [exists 0%nat, 1%nat|exists 0%nat, 0%nat]; (split; [lia|]); (split; [lia|]); cbn; lra.
Qed.
(** A metal: half of a band everywhere, and one with a full but no empty state. *)
Definition metal : tensor R := mkT [2; 1; 3]%nat (fun i => if (nth 2 i 0 =? 0)%nat then 1 else 1 / 2).
Lemma metal_fits : admissible metal 1 3 4 0 /\ (forall i, (i < 2)%nat -> ~ (has_empty metal i 1 3 /\ has_full metal i 1 3)) /\ has_full metal 0 1 3.
Proof.
  split; [|split].
  - split; [reflexivity|]. split; [|split; unfold channel, metal; cbn; lra]. intros i _. unfold metal. cbn [tget]. destruct (nth 2 i 0 =? 0)%nat; cbn; lra.
  - intros i _ ((k & b & _ & _ & E) & _). unfold metal in E. cbn [tget nth] in E. destruct (b =? 0)%nat; lra.
  - exists 0%nat, 0%nat. split; [lia|]. split; [lia|]. cbn. lra.
Qed.
