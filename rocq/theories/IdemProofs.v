(** Every vector of numbers in [0,1] with an integer sum is the diagonal of a projection (C149). *)
From Coq Require Import Reals Lra Lia List Arith ZArith Bool.
From Verif Require Import Base Sums Tensor OccModel OccSpec ProjProofs OccProofs IdemSpec.
Import ListNotations.
Local Open Scope R_scope.

Definition frame (M m : nat) (q : nat -> nat -> R) : Prop :=
  forall j l, (j < m)%nat -> (l < m)%nat -> sumR (seq 0 M) (fun i => q i j * q i l) = if Nat.eqb j l then 1 else 0.
Definition rown (m : nat) (q : nat -> nat -> R) (i : nat) : R := sumR (seq 0 m) (fun j => q i j * q i j).

Lemma sum_two M a b (f : nat -> R) : (a < M)%nat -> (b < M)%nat -> a <> b -> (forall i, i <> a -> i <> b -> f i = 0) -> sumR (seq 0 M) f = f a + f b.
Proof.
  intros Ha Hb Hn Hz.
  rewrite (sumR_ext _ _ (fun i => (if Nat.eqb i a then f a else 0) + (if Nat.eqb i b then f b else 0))).
  - rewrite sumR_plus. f_equal.
    + rewrite (sumR_single (seq 0 M) a); [rewrite Nat.eqb_refl; reflexivity|apply seq_NoDup|apply in_seq; lia|].
      intros i _ Hi. destruct (Nat.eqb_spec i a); [congruence|reflexivity].
    + rewrite (sumR_single (seq 0 M) b); [rewrite Nat.eqb_refl; reflexivity|apply seq_NoDup|apply in_seq; lia|].
      intros i _ Hi. destruct (Nat.eqb_spec i b); [congruence|reflexivity].
  - intros i _. destruct (Nat.eqb_spec i a) as [Ea|Ea]; destruct (Nat.eqb_spec i b) as [Eb|Eb]; [congruence|rewrite Ea; ring|rewrite Eb; ring|].
    rewrite Hz by assumption. ring.
Qed.

Definition turn (a b : nat) (t : R) (q : nat -> nat -> R) : nat -> nat -> R := fun i j =>
  if Nat.eqb i a then cos t * q a j + sin t * q b j else if Nat.eqb i b then - sin t * q a j + cos t * q b j else q i j.
Lemma turn_a a b t q j : turn a b t q a j = cos t * q a j + sin t * q b j.
Proof. unfold turn. rewrite Nat.eqb_refl. reflexivity. Qed.
Lemma turn_b a b t q j : a <> b -> turn a b t q b j = - sin t * q a j + cos t * q b j.
Proof. intros H. unfold turn. rewrite Nat.eqb_refl. destruct (Nat.eqb_spec b a); [congruence|reflexivity]. Qed.
Lemma turn_o a b t q i j : i <> a -> i <> b -> turn a b t q i j = q i j.
Proof. intros. unfold turn. destruct (Nat.eqb_spec i a); [congruence|]. destruct (Nat.eqb_spec i b); [congruence|reflexivity]. Qed.

Lemma turn_frame M m a b t q : (a < M)%nat -> (b < M)%nat -> a <> b -> frame M m q -> frame M m (turn a b t q).
Proof.
  intros Ha Hb Hn F j l Hj Hl. rewrite <- (F j l Hj Hl). apply Rminus_diag_uniq. rewrite <- sumR_minus.
  rewrite (sum_two M a b) by (try assumption; intros i Hi Hi'; rewrite !turn_o by assumption; ring).
  rewrite !turn_a, !turn_b by assumption. pose proof (sin2_cos2 t) as E. unfold Rsqr in E.
  replace (_ + _) with ((sin t * sin t + cos t * cos t - 1) * (q a j * q a l + q b j * q b l)) by ring. rewrite E. ring.
Qed.
Lemma turn_rown_a m a b t q : rown m (turn a b t q) a = cos t * cos t * rown m q a + sin t * sin t * rown m q b + 2 * sin t * cos t * sumR (seq 0 m) (fun j => q a j * q b j).
Proof.
  unfold rown. rewrite <- !sumR_scal, <- !sumR_plus. apply sumR_ext. intros j _. rewrite turn_a. ring.
Qed.
Lemma turn_rown_b m a b t q : a <> b -> rown m (turn a b t q) a + rown m (turn a b t q) b = rown m q a + rown m q b.
Proof.
  intros Hn. unfold rown. rewrite <- !sumR_plus. apply sumR_ext. intros j _. rewrite turn_a, turn_b by exact Hn.
  pose proof (sin2_cos2 t) as E. unfold Rsqr in E.
  replace (_ + _) with ((sin t * sin t + cos t * cos t) * (q a j * q a j + q b j * q b j)) by ring. rewrite E. ring.
Qed.
Lemma turn_rown_o m a b t q i : i <> a -> i <> b -> rown m (turn a b t q) i = rown m q i.
Proof. intros. unfold rown. apply sumR_ext. intros j _. rewrite turn_o by assumption. reflexivity. Qed.

(** Turning two rows moves their lengths to any values between. *)
Lemma rotate M m q a b x : (a < M)%nat -> (b < M)%nat -> a <> b -> frame M m q -> rown m q b <= x <= rown m q a ->
  exists q', frame M m q' /\ rown m q' a = x /\ rown m q' b = rown m q a + rown m q b - x /\ forall i, i <> a -> i <> b -> rown m q' i = rown m q i.
Proof.
  intros Ha Hb Hn F [Hx Hx'].
  set (A := rown m q a) in *. set (D := rown m q b) in *. set (P := sumR (seq 0 m) (fun j => q a j * q b j)).
  set (g := fun t => cos t * cos t * A + sin t * sin t * D + 2 * sin t * cos t * P - x).
  assert (Cg : continuity g) by (unfold g; reg).
  destruct (IVT_cor g 0 (PI / 2) Cg) as [t [Ht Et]].
  - pose proof PI_RGT_0. lra.
  - unfold g. rewrite cos_0, sin_0, cos_PI2, sin_PI2. replace (1 * 1 * A + 0 * 0 * D + 2 * 0 * 1 * P - x) with (A - x) by ring.
    replace (0 * 0 * A + 1 * 1 * D + 2 * 1 * 0 * P - x) with (- (x - D)) by ring. nra.
  - exists (turn a b t q). split; [apply turn_frame; assumption|].
    assert (E : rown m (turn a b t q) a = x) by (rewrite turn_rown_a; unfold g in Et; fold A D P; lra).
    split; [exact E|]. split; [|intros; apply turn_rown_o; assumption].
    pose proof (turn_rown_b m a b t q Hn) as S. fold A D in S. lra.
Qed.

Lemma sumR_pos_term (l : list nat) (f : nat -> R) : sumR l f = 0 -> (forall i, In i l -> 0 <= f i) -> forall i, In i l -> f i = 0.
Proof.
  intros E P i Hi. pose proof (sumR_ge_term l f i P Hi). pose proof (P i Hi). lra.
Qed.
(** If two vectors have the same sum and differ, one entry is larger and one smaller. *)
Lemma over_under M (d p : nat -> R) : sumR (seq 0 M) d = sumR (seq 0 M) p -> (exists k, (k < M)%nat /\ d k <> p k) ->
  (exists i, (i < M)%nat /\ p i < d i) /\ exists j, (j < M)%nat /\ d j < p j.
Proof.
  intros E [k [Hk Hd]].
  assert (N : forall u v : nat -> R, sumR (seq 0 M) u = sumR (seq 0 M) v -> u k <> v k -> exists i, (i < M)%nat /\ v i < u i).
  { intros u v Eu Hu. destruct (existsb (fun i => if Rlt_dec (v i) (u i) then true else false) (seq 0 M)) eqn:X.
    - apply existsb_exists in X. destruct X as [i [Hi Hlt]]. apply in_seq in Hi. exists i. split; [lia|]. destruct (Rlt_dec (v i) (u i)); [assumption|discriminate].
    - exfalso. apply Hu. apply eq_sym, Rminus_diag_uniq. apply (sumR_pos_term (seq 0 M) (fun i => v i - u i)).
      + rewrite sumR_minus, Eu. ring.
      + intros i Hi. destruct (Rlt_dec (v i) (u i)) as [Hlt|]; [|lra]. exfalso.
        assert (Y : existsb (fun i => if Rlt_dec (v i) (u i) then true else false) (seq 0 M) = true).
        { apply existsb_exists. exists i. split; [exact Hi|]. destruct (Rlt_dec (v i) (u i)); [reflexivity|contradiction]. }
        congruence.
      + apply in_seq. lia. }
  split; [apply (N d p E Hd)|]. apply (N p d (eq_sym E)). congruence.
Qed.

Lemma frame_trace M m q : frame M m q -> sumR (seq 0 M) (rown m q) = INR m.
Proof. intros F. apply (Pm_trace M m q). exact F. Qed.

Lemma adjust M m (p : nat -> R) : (forall i, (i < M)%nat -> 0 <= p i <= 1) -> sumR (seq 0 M) p = INR m ->
  forall n L q act, (length L <= n)%nat -> frame M m q -> (forall k, (k < M)%nat -> rown m q k <> p k -> In k L) ->
  (forall k, (k < M)%nat -> rown m q k <> p k -> k = act \/ rown m q k = 0 \/ rown m q k = 1) ->
  exists q', frame M m q' /\ forall i, (i < M)%nat -> rown m q' i = p i.
Proof.
  intros Hp Sp. induction n as [|n IH]; intros L q act HL F HI Hact.
  - exists q. split; [exact F|]. intros i Hi. destruct (Req_dec (rown m q i) (p i)) as [|Hne]; [assumption|].
    specialize (HI i Hi Hne). destruct L; [destruct HI|cbn in HL; lia].
  - destruct (existsb (fun k => if Req_EM_T (rown m q k) (p k) then false else true) (seq 0 M)) eqn:X.
    2:{ exists q. split; [exact F|]. intros i Hi. destruct (Req_EM_T (rown m q i) (p i)) as [|Hne]; [assumption|].
        assert (Y : existsb (fun k => if Req_EM_T (rown m q k) (p k) then false else true) (seq 0 M) = true).
        { apply existsb_exists. exists i. split; [apply in_seq; lia|]. destruct (Req_EM_T (rown m q i) (p i)); [contradiction|reflexivity]. }
        congruence. }
    apply existsb_exists in X. destruct X as [k0 [Hk0 Hd0]]. apply in_seq in Hk0.
    assert (Dif : exists k, (k < M)%nat /\ rown m q k <> p k).
    { exists k0. split; [lia|]. destruct (Req_EM_T (rown m q k0) (p k0)); [discriminate|assumption]. }
    destruct (over_under M (rown m q) p) as [[i1 [Hi1 Ho1]] [j1 [Hj1 Hu1]]]; [rewrite frame_trace by exact F; symmetry; exact Sp|exact Dif|].
    assert (Z1 : forall k, (k < M)%nat -> p k < rown m q k -> k <> act -> rown m q k = 1).
    { intros k Hk Ho Hka. destruct (Hact k Hk) as [?|[?|?]]; [lra|contradiction|pose proof (Hp k Hk); lra|assumption]. }
    assert (Z0 : forall k, (k < M)%nat -> rown m q k < p k -> k <> act -> rown m q k = 0).
    { intros k Hk Ho Hka. destruct (Hact k Hk) as [?|[?|?]]; [lra|contradiction|assumption|pose proof (Hp k Hk); lra]. }
    assert (CH : exists i j, (i < M)%nat /\ (j < M)%nat /\ p i < rown m q i /\ rown m q j < p j /\ (rown m q i = 1 \/ rown m q j = 0) /\
                 forall k, (k < M)%nat -> rown m q k <> p k -> k <> i -> k <> j -> rown m q k = 0 \/ rown m q k = 1).
    { destruct (lt_dec act M) as [Ham|Ham].
      - destruct (Rtotal_order (rown m q act) (p act)) as [Hlt|[Heq|Hgt]].
        + exists i1, act. assert (i1 <> act) by (intros ->; lra). repeat split; try assumption; [left; apply Z1; assumption|].
          intros k Hk Hne _ Hka. destruct (Hact k Hk Hne) as [?|?]; [contradiction|assumption].
        + exists i1, j1. assert (i1 <> act) by (intros ->; lra). repeat split; try assumption; [left; apply Z1; assumption|].
          intros k Hk Hne _ _. destruct (Hact k Hk Hne) as [->|?]; [contradiction|assumption].
        + exists act, j1. assert (j1 <> act) by (intros ->; lra). repeat split; try assumption; [right; apply Z0; assumption|].
          intros k Hk Hne Hka _. destruct (Hact k Hk Hne) as [?|?]; [contradiction|assumption].
      - exists i1, j1. repeat split; try assumption; [left; apply Z1; [assumption|assumption|lia]|].
        intros k Hk Hne _ _. destruct (Hact k Hk Hne) as [?|?]; [lia|assumption]. }
    destruct CH as (i & j & Hi & Hj & Ho & Hu & Hor & Hrest).
    assert (Hij : i <> j) by (intros ->; lra).
    pose proof (Hp i Hi) as Pi. pose proof (Hp j Hj) as Pj.
    destruct (Rle_dec (rown m q i - p i) (p j - rown m q j)) as [Hle|Hgt].
    + destruct (rotate M m q i j (p i) Hi Hj Hij F) as (q' & F' & Ei & Ej & Eo).
      { split; [|lra]. destruct Hor as [E|E]; lra. }
      apply (IH (remove Nat.eq_dec i L) q' j); [|exact F'| |].
      * pose proof (remove_length_lt Nat.eq_dec L i (HI i Hi (Rgt_not_eq _ _ Ho))). lia.
      * intros k Hk Hne. apply in_in_remove; [intros ->; contradiction|]. destruct (Nat.eq_dec k j) as [->|Hkj]; [apply HI; [assumption|lra]|].
        apply HI; [assumption|]. rewrite <- Eo; [assumption|intros ->; contradiction|assumption].
      * intros k Hk Hne. destruct (Nat.eq_dec k j) as [->|Hkj]; [left; reflexivity|right].
        assert (Hki : k <> i) by (intros ->; contradiction). rewrite Eo in Hne |- * by assumption. apply Hrest; assumption.
    + destruct (rotate M m q i j (rown m q i - (p j - rown m q j)) Hi Hj Hij F) as (q' & F' & Ei & Ej & Eo).
      { split; [|lra]. destruct Hor as [E|E]; lra. }
      apply (IH (remove Nat.eq_dec j L) q' i); [|exact F'| |].
      * pose proof (remove_length_lt Nat.eq_dec L j (HI j Hj (Rlt_not_eq _ _ Hu))). lia.
      * intros k Hk Hne. apply in_in_remove; [intros ->; apply Hne; lra|]. destruct (Nat.eq_dec k i) as [->|Hki]; [apply HI; [assumption|lra]|].
        apply HI; [assumption|]. rewrite <- Eo; [assumption|assumption|intros ->; apply Hne; lra].
      * intros k Hk Hne. destruct (Nat.eq_dec k i) as [->|Hki]; [left; reflexivity|right].
        assert (Hkj : k <> j) by (intros ->; apply Hne; lra). rewrite Eo in Hne |- * by assumption. apply Hrest; assumption.
Qed.

(** The diagonals of projections. *)
Lemma diagonal_exists M m (p : nat -> R) : (m <= M)%nat -> (forall i, (i < M)%nat -> 0 <= p i <= 1) -> sumR (seq 0 M) p = INR m ->
  exists q, frame M m q /\ forall i, (i < M)%nat -> rown m q i = p i.
Proof.
  intros Hm Hp Sp. set (q0 := fun i j : nat => if Nat.eqb i j then 1 else 0).
  assert (R0 : forall i, rown m q0 i = if (i <? m)%nat then 1 else 0).
  { intros i. unfold rown, q0. destruct (Nat.ltb_spec i m).
    - rewrite (sumR_single (seq 0 m) i); [rewrite Nat.eqb_refl; ring|apply seq_NoDup|apply in_seq; lia|].
      intros j _ Hj. destruct (Nat.eqb_spec i j); [congruence|ring].
    - apply sumR_zero. intros j Hj. apply in_seq in Hj. destruct (Nat.eqb_spec i j); [lia|ring]. }
  apply (adjust M m p Hp Sp M (seq 0 M) q0 M).
  - rewrite seq_length. lia.
  - intros j l Hj Hl. unfold q0. rewrite (sumR_single (seq 0 M) j); [rewrite Nat.eqb_refl; ring|apply seq_NoDup|apply in_seq; lia|].
    intros i _ Hi. destruct (Nat.eqb_spec i j); [congruence|ring].
  - intros k Hk _. apply in_seq. lia.
  - intros k Hk _. right. rewrite R0. destruct (k <? m)%nat; [right|left]; reflexivity.
Qed.

(** Bessel's inequality for orthonormal columns. *)
Lemma bessel n m (r : nat -> nat -> R) (x : nat -> R) : frame n m r ->
  sumR (seq 0 m) (fun j => sumR (seq 0 n) (fun l => x l * r l j) * sumR (seq 0 n) (fun l => x l * r l j)) <= sumR (seq 0 n) (fun l => x l * x l).
Proof.
  intros F. set (c := fun j => sumR (seq 0 n) (fun l => x l * r l j)). change (sumR (seq 0 m) (fun j => c j * c j) <= sumR (seq 0 n) (fun l => x l * x l)).
  set (y := fun l => sumR (seq 0 m) (fun j => c j * r l j)).
  assert (XY : sumR (seq 0 n) (fun l => x l * y l) = sumR (seq 0 m) (fun j => c j * c j)).
  { unfold y. rewrite (sumR_ext _ _ (fun l => sumR (seq 0 m) (fun j => x l * (c j * r l j)))) by (intros l _; rewrite sumR_scal; reflexivity).
    rewrite sumR_swap. apply sumR_ext. intros j _. unfold c at 3. rewrite <- sumR_scal. apply sumR_ext. intros l _. ring. }
  assert (YY : sumR (seq 0 n) (fun l => y l * y l) = sumR (seq 0 m) (fun j => c j * c j)).
  { rewrite (sumR_ext _ _ (fun l => sumR (seq 0 m) (fun j => sumR (seq 0 m) (fun k => (c j * c k) * (r l j * r l k))))).
    - rewrite sumR_swap. apply sumR_ext. intros j Hj. rewrite sumR_swap.
      rewrite (sumR_single (seq 0 m) j); [|apply seq_NoDup|exact Hj|].
      + rewrite sumR_scal. apply in_seq in Hj. rewrite F by lia. rewrite Nat.eqb_refl. ring.
      + intros k Hk Hne. rewrite sumR_scal. apply in_seq in Hj, Hk. rewrite F by lia. destruct (Nat.eqb_spec j k); [congruence|ring].
    - intros l _. unfold y. rewrite <- sumR_scal_r. apply sumR_ext. intros j _. rewrite <- sumR_scal. apply sumR_ext. intros k _. ring. }
  assert (P : 0 <= sumR (seq 0 n) (fun l => (x l - y l) * (x l - y l))) by (apply sumR_nonneg; intros l _; apply Rle_0_sqr).
  rewrite (sumR_ext _ _ (fun l => x l * x l - 2 * (x l * y l) + y l * y l)) in P by (intros l _; ring).
  rewrite sumR_plus, sumR_minus, sumR_scal, XY, YY in P. lra.
Qed.

(** Q of a matrix that has orthonormal columns already has rows of the same lengths. *)
Lemma occ_of_frame qr w M m : reduced_qr qr -> qr_product qr -> (m <= M)%nat -> tshape w = [M; m] -> frame M m (fun i j => tget w [i; j]) ->
  forall i, (i < M)%nat -> nth i (occ_of qr w) 0 = rown m (fun i j => tget w [i; j]) i.
Proof.
  intros Hq Hr Hm Hw Fw. destruct (Hq w M m Hw) as (Hsh & Ho). destruct (Hr w M m Hw) as [r Er]. rewrite Nat.min_r in Hsh, Ho, Er by exact Hm.
  set (q := fun i j => tget (qr w) [i; j]) in *.
  assert (Fq : frame M m q) by exact Ho.
  assert (Fr : frame m m r).
  { intros j l Hj Hl. rewrite <- (Fw j l Hj Hl).
    rewrite (sumR_ext (seq 0 M) _ (fun i => sumR (seq 0 m) (fun a => sumR (seq 0 m) (fun b => (r a j * r b l) * (q i a * q i b))))).
    - rewrite sumR_swap. apply sumR_ext. intros a Ha. rewrite sumR_swap.
      rewrite (sumR_single (seq 0 m) a); [|apply seq_NoDup|exact Ha|].
      + rewrite sumR_scal. apply in_seq in Ha. rewrite Fq by lia. rewrite Nat.eqb_refl. ring.
      + intros b Hb Hne. rewrite sumR_scal. apply in_seq in Ha, Hb. rewrite Fq by lia. destruct (Nat.eqb_spec a b); [congruence|ring].
    - intros i Hi. apply in_seq in Hi. rewrite !Er by lia. fold (q i). rewrite <- sumR_scal_r. apply sumR_ext. intros a _.
      rewrite <- sumR_scal. apply sumR_ext. intros b _. unfold q. ring. }
  assert (Le : forall i, (i < M)%nat -> rown m (fun i j => tget w [i; j]) i <= rown m q i).
  { intros i Hi. unfold rown at 2. eapply Rle_trans; [|exact (bessel m m r (q i) Fr)]. apply Req_le. unfold rown. apply sumR_ext. intros j Hj. apply in_seq in Hj.
    rewrite !Er by lia. reflexivity. }
  intros i Hi. unfold occ_of. rewrite Hsh. cbn [nth]. rewrite nth_map_seq by exact Hi. change (rown m q i = rown m (fun i j => tget w [i; j]) i).
  apply Rminus_diag_uniq. apply (sumR_pos_term (seq 0 M) (fun i => rown m q i - rown m (fun i j => tget w [i; j]) i)).
  - rewrite sumR_minus, !frame_trace by assumption. ring.
  - intros k Hk. apply in_seq in Hk. pose proof (Le k). assert ((k < M)%nat) by lia. specialize (H H0). lra.
  - apply in_seq. lia.
Qed.

(** Every diagonal is reached by some parameters. *)
Lemma occ_of_onto qr M m (p : nat -> R) : reduced_qr qr -> qr_product qr -> (m <= M)%nat -> (forall i, (i < M)%nat -> 0 <= p i <= 1) -> sumR (seq 0 M) p = INR m ->
  exists w, tshape w = [M; m] /\ forall i, (i < M)%nat -> nth i (occ_of qr w) 0 = p i.
Proof.
  intros Hq Hr Hm Hp Sp. destruct (diagonal_exists M m p Hm Hp Sp) as [q [Fq Rq]].
  set (w := mkT [M; m] (fun i => q (nth 0 i 0%nat) (nth 1 i 0%nat))).
  exists w. split; [reflexivity|]. intros i Hi.
  rewrite (occ_of_frame qr w M m Hq Hr Hm eq_refl Fq i Hi). exact (Rq i Hi).
Qed.

Lemma channel_of (o : tensor R) K B i : tshape o = [2; K; B]%nat -> channel o i = sumR (seq 0 K) (fun k => sumR (seq 0 B) (fun b => tget o [i; k; b])).
Proof. intros H. destruct o as [sh f]. cbn in H. subst sh. apply channel_2KB. Qed.
Lemma channel_teq (o o' : tensor R) K B i : (i < 2)%nat -> tshape o' = [2; K; B]%nat -> teq o o' -> channel o i = channel o' i.
Proof.
  intros Hi H [Es Ev]. rewrite !(channel_of _ K B) by congruence. apply sumR_ext. intros k Hk. apply sumR_ext. intros b Hb. apply in_seq in Hk, Hb.
  apply Ev. rewrite Es, H. repeat (apply Forall2_cons; [lia|]); apply Forall2_nil.
Qed.
Lemma within_teq lo hi (o o' : tensor R) : teq o o' -> within lo hi o -> within lo hi o'.
Proof. intros [Es Ev] W i Hi. rewrite <- Es in Hi. rewrite <- (Ev i Hi). exact (W i Hi). Qed.

(** Parameters for one spin channel. *)
Lemma channel_onto qr K B n (f : nat -> nat -> R) : reduced_qr qr -> qr_product qr -> (1 <= K)%nat -> (n <= B)%nat ->
  (forall k b, (k < K)%nat -> (b < B)%nat -> 0 <= f k b <= 1 / INR K) -> sumR (seq 0 K) (fun k => sumR (seq 0 B) (f k)) = INR n ->
  exists w, tshape w = [B * K; n * K]%nat /\ forall k b, (k < K)%nat -> (b < B)%nat -> nth (k * B + b) (occ_of qr w) 0 / INR K = f k b.
Proof.
  intros Hq Hr HK Hn Hf Sf. assert (KP : 0 < INR K) by (apply lt_0_INR; lia).
  assert (DM : forall k b, (b < B)%nat -> ((k * B + b) / B = k /\ (k * B + b) mod B = b)%nat).
  { intros k b Hb. split; symmetry; [apply (Nat.div_unique _ _ _ b)|apply (Nat.mod_unique _ _ k)]; lia. }
  destruct (occ_of_onto qr (B * K) (n * K) (fun i => INR K * f (i / B)%nat (i mod B)%nat) Hq Hr) as [w [Sw Ew]].
  - apply Nat.mul_le_mono_r. exact Hn.
  - intros i Hi. assert (HB : B <> 0%nat) by (intros ->; lia).
    assert (H1 : (i / B < K)%nat) by (apply Nat.div_lt_upper_bound; [exact HB|lia]).
    pose proof (Hf _ _ H1 (Nat.mod_upper_bound i B HB)) as [L U]. split; [apply Rmult_le_pos; lra|].
    apply (Rmult_le_compat_l (INR K)) in U; [|lra]. replace (INR K * (1 / INR K)) with 1 in U by (field; lra). exact U.
  - replace (B * K)%nat with (K * B)%nat by lia. rewrite <- (sumR_blocks K B (fun i => INR K * f (i / B)%nat (i mod B)%nat)).
    rewrite mult_INR, <- Sf, Rmult_comm, <- sumR_scal. apply sumR_ext. intros k _. rewrite <- sumR_scal. apply sumR_ext. intros b Hb. apply in_seq in Hb.
    destruct (DM k b) as [-> ->]; [lia|reflexivity].
  - exists w. split; [exact Sw|]. intros k b Hk Hb. rewrite Ew by (rewrite (Nat.mul_comm B K); apply block_lt; assumption).
    destruct (DM k b Hb) as [-> ->]. field. lra.
Qed.

Lemma idempotent_value qr up down K B m m' r : reduced_qr qr -> (1 <= K)%nat -> tshape up = [B * K; m]%nat -> tshape down = [B * K; m']%nat ->
  idempotent qr up down K r = Ok (if r
        then mkT [1; K; B]%nat (fun i => (nth (nth 1 i 0 * B + nth 2 i 0)%nat (occ_of qr up) 0 + nth (nth 1 i 0 * B + nth 2 i 0)%nat (occ_of qr down) 0) / INR K)
        else mkT [2; K; B]%nat (fun i => nth (nth 1 i 0 * B + nth 2 i 0)%nat (if (nth 0 i 0 =? 0)%nat then occ_of qr up else occ_of qr down) 0 / INR K)).
Proof.
  intros Hq HK Hu Hd. unfold idempotent. destruct (Nat.eqb_spec K 0); [lia|].
  destruct (occ_of_spec qr up _ m Hq Hu) as (Lu & _). destruct (occ_of_spec qr down _ m' Hq Hd) as (Ld & _).
  rewrite Lu, Ld, Hu. cbn [nth]. rewrite Nat.div_mul by lia. rewrite (Nat.mul_comm B K), Nat.eqb_refl. reflexivity.
Qed.

Lemma idem_reach qr occ nu nd K B : reduced_qr qr -> qr_product qr -> (1 <= K)%nat -> (nu <= B)%nat -> (nd <= B)%nat -> tshape occ = [2; K; B]%nat ->
  (exists up down o, tshape up = [B * K; nu * K]%nat /\ tshape down = [B * K; nd * K]%nat /\ idempotent qr up down K false = Ok o /\ teq o occ) <->
  within 0 (1 / INR K) occ /\ channel occ 0 = INR nu /\ channel occ 1 = INR nd.
Proof.
  intros Hq Hr HK Hu Hd Hs. assert (KP : 0 < INR K) by (apply lt_0_INR; lia). split.
  - intros (up & down & o & Su & Sd & E & T).
    destruct (idempotent_spec qr up down K false o _ _ _ Hq Su Sd E) as (_ & W & _ & C). destruct (C eq_refl) as [C0 C1].
    split; [exact (within_teq _ _ _ _ T W)|]. rewrite <- (channel_teq o occ K B 0), <- (channel_teq o occ K B 1) by (try lia; assumption).
    rewrite C0, C1. rewrite !Nat.min_r by (apply Nat.mul_le_mono_r; assumption). rewrite !mult_INR. split; field; lra.
  - intros (W & C0 & C1). rewrite (channel_of occ K B) in C0, C1 by exact Hs.
    destruct (channel_onto qr K B nu (fun k b => tget occ [0%nat; k; b]) Hq Hr HK Hu) as [up [Su Eu]]; [|exact C0|].
    { intros k b Hk Hb. apply W. rewrite Hs. repeat (apply Forall2_cons; [lia|]); apply Forall2_nil. }
    destruct (channel_onto qr K B nd (fun k b => tget occ [1%nat; k; b]) Hq Hr HK Hd) as [down [Sd Ed]]; [|exact C1|].
    { intros k b Hk Hb. apply W. rewrite Hs. repeat (apply Forall2_cons; [lia|]); apply Forall2_nil. }
    pose proof (idempotent_value qr up down K B _ _ false Hq HK Su Sd) as E. cbv iota in E.
    eexists up, down, _. split; [exact Su|]. split; [exact Sd|]. split; [exact E|]. split; [symmetry; exact Hs|].
    intros i Hi. cbn [tshape] in Hi. apply inb3' in Hi. destruct Hi as (a & k & b & -> & Ha & Hk & Hb). cbn [tget nth].
    destruct a as [|[|a]]; [cbn [Nat.eqb]; apply Eu; assumption|cbn [Nat.eqb]; apply Ed; assumption|lia].
Qed.

Lemma total_of (o : tensor R) K B : tshape o = [1; K; B]%nat -> total o = sumR (seq 0 K) (fun k => sumR (seq 0 B) (fun b => tget o [0%nat; k; b])).
Proof. intros H. destruct o as [sh f]. cbn in H. subst sh. apply total_1KB. Qed.
Lemma idem_reach_restricted qr occ n K B : reduced_qr qr -> qr_product qr -> (1 <= K)%nat -> (n <= B)%nat -> tshape occ = [1; K; B]%nat ->
  (exists up down o, tshape up = [B * K; n * K]%nat /\ tshape down = [B * K; n * K]%nat /\ idempotent qr up down K true = Ok o /\ teq o occ) <->
  within 0 (2 / INR K) occ /\ total occ = 2 * INR n.
Proof.
  intros Hq Hr HK Hn Hs. assert (KP : 0 < INR K) by (apply lt_0_INR; lia). split.
  - intros (up & down & o & Su & Sd & E & T).
    destruct (idempotent_spec qr up down K true o _ _ _ Hq Su Sd E) as (_ & W & C & _).
    split; [exact (within_teq _ _ _ _ T W)|]. assert (So : tshape o = [1; K; B]%nat) by (destruct T as [-> _]; exact Hs).
    replace (total occ) with (total o).
    + rewrite C, !Nat.min_r by (apply Nat.mul_le_mono_r; assumption). rewrite !mult_INR. field. lra.
    + rewrite !(total_of _ K B) by assumption. apply sumR_ext. intros k Hk. apply sumR_ext. intros b Hb. apply in_seq in Hk, Hb.
      apply T. rewrite So. repeat (apply Forall2_cons; [lia|]); apply Forall2_nil.
  - intros (W & C). rewrite (total_of occ K B) in C by exact Hs.
    destruct (channel_onto qr K B n (fun k b => / 2 * tget occ [0%nat; k; b]) Hq Hr HK Hn) as [up [Su Eu]].
    { intros k b Hk Hb. assert (I : inb [0%nat; k; b] (tshape occ)) by (rewrite Hs; repeat (apply Forall2_cons; [lia|]); apply Forall2_nil). pose proof (W _ I) as [L U].
      split; [lra|]. unfold Rdiv in *. lra. }
    { rewrite (sumR_ext _ _ (fun k => / 2 * sumR (seq 0 B) (fun b => tget occ [0%nat; k; b]))) by (intros k _; apply sumR_scal). rewrite sumR_scal, C. lra. }
    pose proof (idempotent_value qr up up K B _ _ true Hq HK Su Su) as E. cbv iota in E.
    eexists up, up, _. split; [exact Su|]. split; [exact Su|]. split; [exact E|]. split; [symmetry; exact Hs|].
    intros i Hi. cbn [tshape] in Hi. apply inb3' in Hi. destruct Hi as (a & k & b & -> & Ha & Hk & Hb). cbn [tget nth].
    assert (a = 0)%nat by lia. subst a. unfold Rdiv. rewrite Rmult_plus_distr_r. fold (nth (k * B + b) (occ_of qr up) 0 / INR K). rewrite Eu by assumption. lra.
Qed.
