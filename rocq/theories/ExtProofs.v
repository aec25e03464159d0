(** Proofs about the external and effective potentials and their energies. *)
From Coq Require Import List Arith ZArith Reals Bool Lra Lia ZifyBool Permutation.
From Coquelicot Require Import Complex.
From Verif Require Import Base Sums Tensor DFT GridModel GridProofs Lin3 VecModel VecProofs OccModel OccSpec OccProofs PwModel PwSpec PwProofs BraketModel BraketSpec BraketProofs EnergyModel EnergySpec EnergyProofs.
Import ListNotations.
Local Open Scope C_scope.

(** ** structure factor *)
Lemma combine_nth_seq {X Y} (l : list X) (m : list Y) dx dy : length l = length m ->
  combine l m = map (fun a => (nth a l dx, nth a m dy)) (seq 0 (length l)).
Proof.
  revert m. induction l as [|x l IH]; intros [|y m] H; try discriminate; [reflexivity|].
  injection H as H. cbn [combine length seq map nth]. f_equal. rewrite (IH m H), <- seq_shift, map_map. reflexivity.
Qed.

Lemma sf_perm ch pos ch' pos' q : Permutation (combine ch pos) (combine ch' pos') -> structure_factor ch pos q = structure_factor ch' pos' q.
Proof. intros H. unfold structure_factor. apply sumC_perm, H. Qed.

Lemma sf_linear ch1 ch2 ch pos a b q : length ch1 = length pos -> length ch2 = length pos ->
  ch = map (fun p => a * fst p + b * snd p)%R (combine ch1 ch2) ->
  structure_factor ch pos q = RtoC a * structure_factor ch1 pos q + RtoC b * structure_factor ch2 pos q.
Proof.
  intros H1 H2 ->. revert ch1 ch2 H1 H2. unfold structure_factor. induction pos as [|p pos IH]; intros [|c1 ch1] [|c2 ch2] H1 H2; try discriminate.
  - cbn. ring.
  - injection H1 as H1. injection H2 as H2. cbn [combine map fst snd sumC]. rewrite (IH ch1 ch2 H1 H2). cbn [fst snd]. rewrite RtoC_plus, !RtoC_mult. ring.
Qed.

Lemma sf_shift ch pos t q : structure_factor ch (map (fun p => vadd p t) pos) q = cis (- dot q t) * structure_factor ch pos q.
Proof.
  revert ch. unfold structure_factor. induction pos as [|p pos IH]; intros [|c ch]; cbn [combine map sumC]; try ring.
  rewrite IH. cbn [fst snd]. replace (- dot q (vadd p t))%R with (- dot q p + - dot q t)%R by (rewrite dot_add_r; ring). rewrite cis_plus. ring.
Qed.

Lemma cis_2piZ z : cis (2 * PI * IZR z) = RtoC 1.
Proof. apply cis_2PI_Z. Qed.

Lemma sf_lattice ch pos pos' q (H : forall p p', In (p, p') (combine pos pos') -> cis (- dot q p') = cis (- dot q p)) :
  length pos = length pos' -> structure_factor ch pos' q = structure_factor ch pos q.
Proof.
  revert pos' ch H. unfold structure_factor. induction pos as [|p pos IH]; intros [|p' pos'] [|c ch] H Hl; try discriminate; try reflexivity.
  cbn [combine sumC fst snd]. injection Hl as Hl. rewrite (IH pos' ch); [|intros; apply H; right; assumption|exact Hl].
  rewrite (H p p'); [reflexivity|left; reflexivity].
Qed.

Lemma g_lattice A n1 n2 n3 G x v : m3det A <> 0%R -> g_vectors A [n1; n2; n3] = Ok G -> inb x [n1; n2; n3] -> in_lattice A v ->
  exists z, dot (tget G x) v = (2 * PI * IZR z)%R.
Proof.
  intros HA HG Hx (a & b & c & ->). destruct (g_vectors_dual A n1 n2 n3 G HA HG) as (_ & _ & _ & Hd).
  destruct (inb3 _ _ _ _ Hx) as (i & j & k & -> & Hi & Hj & Hk). destruct (Hd i j k Hi Hj Hk) as (D0 & D1 & D2).
  exists (a * fftfreq (Z.of_nat n1) (Z.of_nat i) + b * fftfreq (Z.of_nat n2) (Z.of_nat j) + c * fftfreq (Z.of_nat n3) (Z.of_nat k))%Z.
  rewrite !dot_add_r, !dot_scale_r, D0, D1, D2, !plus_IZR, !mult_IZR. ring.
Qed.
Lemma g_lattice_cis A n1 n2 n3 G x v p : m3det A <> 0%R -> g_vectors A [n1; n2; n3] = Ok G -> inb x [n1; n2; n3] -> in_lattice A v ->
  cis (- dot (tget G x) (vadd p v)) = cis (- dot (tget G x) p).
Proof.
  intros HA HG Hx Hv. destruct (g_lattice A n1 n2 n3 G x v HA HG Hx Hv) as (z & E).
  rewrite dot_add_r, E. replace (- (dot (tget G x) p + 2 * PI * IZR z))%R with (- dot (tget G x) p + 2 * PI * IZR (- z))%R by (rewrite opp_IZR; ring).
  rewrite cis_plus, cis_2piZ. ring.
Qed.

(** ** external potential *)
Definition ext_coef (N vol : R) (g : v3) : R := (- (4 * PI * N / vol) / (norm2 g + / 10 ^ 10))%R.

Lemma external_eq pos ch G vol n1 n2 n3 : let ns := [n1; n2; n3] in tshape G = ns -> length ch = length pos ->
  exists v, external_reciprocal pos ch G vol = Ok v /\ tshape v = ns /\
    forall x, tget v x = if is_origin x then RtoC 0 else RtoC (ext_coef (INR (nprod ns)) vol (tget G x)) * structure_factor ch pos (tget G x).
Proof.
  intros ns SG Hl. unfold external_reciprocal, ndim. rewrite SG. cbn [length ns Nat.eqb negb].
  rewrite Hl, bshape_refl. eexists. split; [reflexivity|]. split; [reflexivity|]. fold ns. intros x. cbn [tget].
  destruct (is_origin x).
  - rewrite (sumC_zero (seq 0 (length pos))); [ring|]. intros a _. ring.
  - unfold structure_factor. rewrite (combine_nth_seq ch pos 0%R vzero Hl), sumC_map, <- sumC_opp, <- sumC_scal_r, <- sumC_scal, Hl.
    apply sumC_ext. intros a Ha. apply in_seq in Ha. rewrite clip1_inb by (repeat constructor; lia). cbn [hd fst snd].
    set (e := cis _). unfold ext_coef. change (dot (tget G x) (tget G x)) with (norm2 (tget G x)).
    assert (Hq : (norm2 (tget G x) + / 10 ^ 10)%R <> 0%R).
    { pose proof (norm2_ge0 (tget G x)). assert (0 < / 10 ^ 10)%R by (apply Rinv_0_lt_compat, pow_lt; lra). lra. }
    set (w := (norm2 (tget G x) + / 10 ^ 10)%R) in *.
    replace (- (4 * PI * INR (nprod ns) / vol) / w)%R with (- (4 * PI * / w) * (INR (nprod ns) / vol))%R by (unfold Rdiv; ring).
    replace (4 * PI * (nth a ch 0 / w))%R with (4 * PI * / w * nth a ch 0)%R by (unfold Rdiv; ring).
    rewrite !RtoC_mult, !RtoC_opp, !RtoC_mult. ring.
Qed.

Lemma external_mismatch pos ch G vol : (3 = length (tshape G))%nat -> length ch <> length pos -> length ch <> 1%nat -> length pos <> 1%nat ->
  external_reciprocal pos ch G vol = Err ValueErr.
Proof.
  intros SG H1 H2 H3. unfold external_reciprocal, ndim. rewrite <- SG. cbn [Nat.eqb negb]. unfold bshape. cbn [rev app bshape_rev].
  rewrite (proj2 (Nat.eqb_neq _ _) H1), (proj2 (Nat.eqb_neq _ _) H2), (proj2 (Nat.eqb_neq _ _) H3). reflexivity.
Qed.

Lemma e_external_eq D pos ch G vol sp n1 n2 n3 : let ns := [n1; n2; n3] in let N := INR (nprod ns) in
  tshape D = sp :: ns -> tshape G = ns -> length ch = length pos -> vol <> 0%R -> (0 < N)%R ->
  e_external D pos ch G vol =
  Ok (- (4 * PI / N) * Re (sumC (indices ns) (fun x => if is_origin x then RtoC 0 else
        Cconj (structure_factor ch pos (tget G x)) * spin_sum D x * RtoC (/ (norm2 (tget G x) + / 10 ^ 10)))%C))%R.
Proof.
  intros ns N SD SG Hl Hv HN. unfold e_external, ndim. rewrite SD. cbn [length ns Nat.eqb negb].
  destruct (external_eq pos ch G vol n1 n2 n3 SG Hl) as (v & -> & Sv & Gv). cbn [bind].
  rewrite (braket_lead1 v D vol sp n1 n2 n3 Sv SD). f_equal. fold ns. fold N. rewrite !Re_sumC.
  rewrite <- !sumR_scal. apply sumR_ext. intros x Hx. apply in_indices in Hx. rewrite Gv. destruct (is_origin x).
  - unfold Re, Cconj, Cmult, RtoC. cbn. ring.
  - fold ns. fold N. unfold ext_coef, Re, Cconj, Cmult, RtoC. cbn [fst snd].
    set (w := (norm2 (tget G x) + / 10 ^ 10)%R). destruct (structure_factor ch pos (tget G x)) as [p q]. destruct (spin_sum D x) as [r s]. cbn [fst snd].
    unfold Rdiv. rewrite Rinv_mult.
    replace (vol * (/ N * / N) * ((- (4 * PI * N * / vol) * / w * p - 0 * q) * r - - (- (4 * PI * N * / vol) * / w * q + 0 * p) * s))%R
      with ((vol * / vol) * (N * / N) * (- (4 * PI * / N) * (/ w * (p * r + q * s))))%R by ring.
    rewrite !Rinv_r by lra. ring.
Qed.

(** C43 *)
Definition agree {X} (a b : tensor X) : Prop := tshape a = tshape b /\ forall i, inb i (tshape a) -> tget a i = tget b i.

Lemma external_formula A n1 n2 n3 G pos ch : let ns := [n1; n2; n3] in
  m3det A <> 0%R -> g_vectors A ns = Ok G -> length ch = length pos ->
  exists v, external_reciprocal pos ch G (volume A) = Ok v /\ tshape v = ns /\ tget v [0; 0; 0]%nat = RtoC 0 /\
    forall x, inb x ns -> ~ at_origin x ->
      tget v x = RtoC (- (4 * PI * INR (nprod ns) / volume A) / (norm2 (tget G x) + / 10 ^ 10))%R * structure_factor ch pos (tget G x).
Proof.
  intros ns HA HG Hl. destruct (g_vectors_dual A n1 n2 n3 G HA HG) as (SG & _).
  destruct (external_eq pos ch G (volume A) n1 n2 n3 SG Hl) as (v & E & Sv & Gv). exists v. repeat split; auto.
  - rewrite Gv. reflexivity.
  - intros x Hx Hn. rewrite Gv, (is_origin_nz x Hn). reflexivity.
Qed.

(** relative error of the regulariser: |v_reg - v| = |v| * 1e-10/(|G|^2+1e-10) *)
Lemma external_regulariser A n1 n2 n3 G x : let ns := [n1; n2; n3] in
  m3det A <> 0%R -> g_vectors A ns = Ok G -> inb x ns -> ~ at_origin x ->
  let g2 := norm2 (tget G x) in (1 / g2 - 1 / (g2 + / 10 ^ 10) = (1 / g2) * (/ 10 ^ 10 / (g2 + / 10 ^ 10)))%R /\ (0 < g2)%R.
Proof.
  intros ns HA HG Hx Hn g2. pose proof (norm2_gt0 _ (g_nonzero A n1 n2 n3 G x HA HG Hx (is_origin_nz x Hn))) as H. fold g2 in H.
  assert (H10 : (0 < / 10 ^ 10)%R) by (apply Rinv_0_lt_compat, pow_lt; lra). split; [|exact H].
  generalize dependent (/ 10 ^ 10)%R. intros e He. field. lra.
Qed.

Definition same_res {X} (a b : res (tensor X)) : Prop := exists u v, a = Ok u /\ b = Ok v /\ teq u v.

Lemma external_ext pos ch pos' ch' G vol n1 n2 n3 : let ns := [n1; n2; n3] in tshape G = ns -> length ch = length pos -> length ch' = length pos' ->
  (forall x, inb x ns -> structure_factor ch pos (tget G x) = structure_factor ch' pos' (tget G x)) ->
  exists u v, external_reciprocal pos ch G vol = Ok u /\ external_reciprocal pos' ch' G vol = Ok v /\ teq u v.
Proof.
  intros ns SG Hl Hl' H. destruct (external_eq pos ch G vol n1 n2 n3 SG Hl) as (u & Eu & Su & Gu).
  destruct (external_eq pos' ch' G vol n1 n2 n3 SG Hl') as (v & Ev & Sv & Gv). exists u, v. repeat split; auto.
  - rewrite Su, Sv. reflexivity.
  - intros x Hx. rewrite Su in Hx. rewrite Gu, Gv, H by exact Hx. reflexivity.
Qed.

Lemma external_perm A n1 n2 n3 G pos ch pos' ch' vol : m3det A <> 0%R -> g_vectors A [n1; n2; n3] = Ok G ->
  length ch = length pos -> length ch' = length pos' -> Permutation (combine ch pos) (combine ch' pos') ->
  exists u v, external_reciprocal pos ch G vol = Ok u /\ external_reciprocal pos' ch' G vol = Ok v /\ teq u v.
Proof.
  intros HA HG Hl Hl' HP. destruct (g_vectors_dual A n1 n2 n3 G HA HG) as (SG & _).
  apply (external_ext pos ch pos' ch' G vol n1 n2 n3 SG Hl Hl'). intros x _. apply sf_perm, HP.
Qed.
Lemma external_lattice A n1 n2 n3 G pos ch shifts vol : m3det A <> 0%R -> g_vectors A [n1; n2; n3] = Ok G ->
  length ch = length pos -> length shifts = length pos -> Forall (in_lattice A) shifts ->
  exists u v, external_reciprocal pos ch G vol = Ok u /\
    external_reciprocal (map (fun p => vadd (fst p) (snd p)) (combine pos shifts)) ch G vol = Ok v /\ teq u v.
Proof.
  intros HA HG Hl Hl' HP. destruct (g_vectors_dual A n1 n2 n3 G HA HG) as (SG & _).
  assert (L : length (map (fun p => vadd (fst p) (snd p)) (combine pos shifts)) = length pos) by (rewrite map_length, combine_length; lia).
  apply (external_ext pos ch _ ch G vol n1 n2 n3 SG Hl); [lia|]. intros x Hx. symmetry. apply sf_lattice; [|lia].
  intros p p' Hin. clear L Hl. revert shifts HP Hl' Hin. induction pos as [|a pos IH]; intros [|s shifts] HP Hl' Hin; try discriminate; [contradiction|].
  inversion HP as [|? ? Hs HP']; subst. cbn [combine map fst snd] in Hin. destruct Hin as [Hin|Hin].
  - injection Hin as <- <-. apply (g_lattice_cis A n1 n2 n3 G x s a HA HG Hx Hs).
  - injection Hl' as Hl'. apply (IH shifts HP' Hl' Hin).
Qed.
Lemma external_shift A n1 n2 n3 G pos ch t vol : m3det A <> 0%R -> g_vectors A [n1; n2; n3] = Ok G -> length ch = length pos ->
  exists u v, external_reciprocal pos ch G vol = Ok u /\ external_reciprocal (map (fun p => vadd p t) pos) ch G vol = Ok v /\
    tshape u = tshape v /\ forall x, inb x [n1; n2; n3] -> tget v x = cis (- dot (tget G x) t) * tget u x.
Proof.
  intros HA HG Hl. destruct (g_vectors_dual A n1 n2 n3 G HA HG) as (SG & _).
  destruct (external_eq pos ch G vol n1 n2 n3 SG Hl) as (u & Eu & Su & Gu).
  destruct (external_eq (map (fun p => vadd p t) pos) ch G vol n1 n2 n3 SG) as (v & Ev & Sv & Gv); [rewrite map_length; exact Hl|].
  exists u, v. repeat split; auto; [congruence|]. intros x _. rewrite Gu, Gv. destruct (is_origin x); [ring|]. rewrite sf_shift. ring.
Qed.
Lemma external_linear A n1 n2 n3 G pos ch1 ch2 a b vol : m3det A <> 0%R -> g_vectors A [n1; n2; n3] = Ok G ->
  length ch1 = length pos -> length ch2 = length pos ->
  exists u1 u2 v, external_reciprocal pos ch1 G vol = Ok u1 /\ external_reciprocal pos ch2 G vol = Ok u2 /\
    external_reciprocal pos (map (fun p => a * fst p + b * snd p)%R (combine ch1 ch2)) G vol = Ok v /\
    tshape v = [n1; n2; n3] /\ forall x, inb x [n1; n2; n3] -> tget v x = RtoC a * tget u1 x + RtoC b * tget u2 x.
Proof.
  intros HA HG H1 H2. destruct (g_vectors_dual A n1 n2 n3 G HA HG) as (SG & _).
  destruct (external_eq pos ch1 G vol n1 n2 n3 SG H1) as (u1 & E1 & S1 & G1).
  destruct (external_eq pos ch2 G vol n1 n2 n3 SG H2) as (u2 & E2 & S2 & G2).
  destruct (external_eq pos (map (fun p => a * fst p + b * snd p)%R (combine ch1 ch2)) G vol n1 n2 n3 SG) as (v & Ev & Sv & Gv); [rewrite map_length, combine_length; lia|].
  exists u1, u2, v. repeat split; auto. intros x _. rewrite G1, G2, Gv. destruct (is_origin x); [ring|].
  rewrite (sf_linear ch1 ch2 _ pos a b (tget G x) H1 H2 eq_refl). ring.
Qed.

(** C44 *)
Lemma e_external_shift A n1 n2 n3 G pos ch t D D' sp vol : let ns := [n1; n2; n3] in
  m3det A <> 0%R -> g_vectors A ns = Ok G -> length ch = length pos -> vol <> 0%R -> tshape D = sp :: ns -> tshape D' = sp :: ns ->
  (forall s x, (s < sp)%nat -> inb x ns -> tget D' (s :: x) = tget D (s :: x) * cis (- dot (tget G x) t)) ->
  exists e, e_external D pos ch G vol = Ok e /\ e_external D' (map (fun p => vadd p t) pos) ch G vol = Ok e.
Proof.
  intros ns HA HG Hl Hv SD SD' H. destruct (g_vectors_dual A n1 n2 n3 G HA HG) as (SG & _).
  assert (HN : (0 < INR (nprod ns))%R).
  { destruct (proj1 (g_vectors_ok A n1 n2 n3) (ex_intro _ G HG)) as (?&?&?). apply lt_0_INR, nprod_pos. repeat constructor; lia. }
  eexists. split; [apply (e_external_eq D pos ch G vol sp n1 n2 n3); assumption|].
  rewrite (e_external_eq D' _ ch G vol sp n1 n2 n3); try assumption; [|rewrite map_length; exact Hl]. f_equal. f_equal. f_equal.
  apply sumC_ext. intros x Hx. apply in_indices in Hx. destruct (is_origin x); [reflexivity|]. rewrite sf_shift.
  assert (Es : spin_sum D' x = spin_sum D x * cis (- dot (tget G x) t)).
  { unfold spin_sum. rewrite SD, SD'. cbn [hd]. rewrite <- sumC_scal_r. apply sumC_ext. intros s Hs. apply in_seq in Hs. apply H; [lia|exact Hx]. }
  rewrite Es, Cconj_mult, cis_conj.
  replace (cis (- - dot (tget G x) t) * Cconj (structure_factor ch pos (tget G x)) * (spin_sum D x * cis (- dot (tget G x) t)))
    with (cis (- - dot (tget G x) t) * cis (- dot (tget G x) t) * (Cconj (structure_factor ch pos (tget G x)) * spin_sum D x)) by ring.
  rewrite <- cis_plus. replace (- - dot (tget G x) t + - dot (tget G x) t)%R with 0%R by ring. rewrite cis_0. ring.
Qed.
