(** Orbitals of lowest energy solve the Kohn-Sham equations, and the lowest levels are filled (C151). *)
From Coq Require Import Reals Lra Lia FunctionalExtensionality.
From Coquelicot Require Import Coquelicot.
From Coq Require Import Ascii String List Arith ZArith Bool.
From Verif Require Import Base Sums Tensor DFT GridModel PadModel Lin3 VecModel VecProofs OccModel OccSpec PwModel PwSpec PwProofs BraketModel XcModel XcSpec EnergyModel HamModel HamSpec XcProofs XcProofs3 HamProofs3 DerProofs ReachSpec KsProofs KsProofs2.
Import ListNotations.
Local Open Scope R_scope.

Lemma sum_two B b1 b2 (f : nat -> R) : (b1 < B)%nat -> (b2 < B)%nat -> b1 <> b2 -> (forall b, (b < B)%nat -> b <> b1 -> b <> b2 -> f b = 0) -> sumR (seq 0 B) f = f b1 + f b2.
Proof.
  intros H1 H2 N Z. rewrite (sumR_ext (seq 0 B) f (fun b => (if Nat.eqb b b1 then f b1 else 0) + (if Nat.eqb b b2 then f b2 else 0))).
  - rewrite sumR_plus. f_equal.
    + rewrite (sumR_single (seq 0 B) b1) by (try apply seq_NoDup; try (apply in_seq; lia); intros x _ Hx; apply Nat.eqb_neq in Hx; rewrite Hx; reflexivity). rewrite Nat.eqb_refl. reflexivity.
    + rewrite (sumR_single (seq 0 B) b2) by (try apply seq_NoDup; try (apply in_seq; lia); intros x _ Hx; apply Nat.eqb_neq in Hx; rewrite Hx; reflexivity). rewrite Nat.eqb_refl. reflexivity.
  - intros b Hb. apply in_seq in Hb. destruct (Nat.eqb_spec b b1) as [E1|E1]; destruct (Nat.eqb_spec b b2) as [E2|E2]; [exfalso; congruence|rewrite E1; ring|rewrite E2; ring|]. rewrite Z by (try lia; assumption). ring.
Qed.

Lemma turn_zero h c e : turn h c e 0 = c.
Proof.
  destruct c as [sh f]. unfold turn. cbn [tshape tget]. f_equal. apply functional_extensionality. intros i. destruct (h _ _); [|reflexivity]. rewrite cos_0, sin_0. ring.
Qed.

Section Lowest.
Context (lib : xclib) (vg : list string -> tensor R -> tensor R -> tensor v3 -> res (tensor C)) (xt : string) (A : m3) (c : tensor C) (pos : list v3) (ch : list R) (G : tensor v3) (kpts : list v3) (vol : R) (occ d : tensor R) (B n1 n2 n3 : nat) (mask : tensor bool) (e0 : R).
Let ns := [n1; n2; n3].
Let K := length kpts.
Let ts := split_on "+" xt.
Context (Hg : contains "gga" xt = false) (Hl : forall t b, In t ts -> lib t b <> None) (HA : m3det A <> 0) (Hv : 0 < vol) (HG : g_vectors A ns = Ok G) (Hp : length ch = length pos)
  (Sm : tshape mask = ns) (Hc : basis_orbitals 1 K B mask c) (So : tshape occ = [1%nat; K; B]) (Hd : density_grid c vol (Some occ) = Ok d)
  (Hex : forall x, inb x ns -> ex_derive (fun r : R => lda_sum_at lib ts [r]) (tget d (0%nat :: x))).
Let Sc : tshape c = [1%nat; K; B] ++ ns.
Proof. destruct Hc as (S & _). rewrite Sm in S. exact S. Qed.
Let SG : tshape G = ns.
Proof. exact (proj1 (g_vectors_dual A n1 n2 n3 G HA HG)). Qed.

Lemma potential_exists : exists v, effective_sum (xc_density lib vg) d pos ch G vol xt true = Ok v /\ tshape v = 1%nat :: ns.
Proof.
  destruct (density_eq c vol occ 1 K B n1 n2 n3 Sc So) as (d' & Ed' & Sd & _). rewrite Hd in Ed'. injection Ed' as <-.
  destruct (energy_path lib vg xt A pos ch G vol d n1 n2 n3 (fun _ => 0) (fun _ => 0) Hg Hl HA Hv HG Hp Sd Hex) as (v & Ev & Sv & _). exists v. split; assumption.
Qed.

Context (v : tensor C) (Ev : effective_sum (xc_density lib vg) d pos ch G vol xt true = Ok v) (Sv : tshape v = 1%nat :: ns).
Let H k := hv ns vol (fun x => Re (tget v (0%nat :: x))) G (nth k kpts vzero).

Section Orbitals.
Context (He0 : total_energy (xc_density lib vg) c pos ch G kpts vol (Some occ) false xt = Ok e0)
  (Hmin : forall c', basis_orbitals 1 K B mask c' -> exists e', total_energy (xc_density lib vg) c' pos ch G kpts vol (Some occ) false xt = Ok e' /\ e0 <= e').

Lemma min_turn h e : turnable ns K B h c e ->
  (forall k b g, (k < K)%nat -> (b < B)%nat -> h k b = true -> inb g ns -> tget mask g = false -> orb e k b g = RtoC 0) ->
  sumR (seq 0 K) (fun k => sumR (seq 0 B) (fun b => picked h occ k b * (2 * Re (H k (orb e k b) (orb c k b))))) = 0.
Proof.
  intros Ht Hm. destruct (turn_derivative lib vg xt A c e h pos ch G kpts vol occ d B n1 n2 n3 Hg Hl HA Hv HG Hp Sc So Hd Hex) as (M & E & HM & HE & DE). fold K in DE.
  rewrite <- (slope_zero E _ DE).
  - apply sumR_ext. intros k Hk. apply sumR_ext. intros b Hb. apply in_seq in Hk, Hb. do 3 f_equal.
    symmetry. apply (stack_hv (xc_density lib vg) c e pos ch d G kpts vol xt B n1 n2 n3 v M Sc SG Ev Sv HM k b b); unfold K in *; lia.
  - intros t. pose proof (HE 0) as E0. rewrite turn_zero, He0 in E0. injection E0 as E0. rewrite <- E0.
    assert (Hb : basis_orbitals 1 K B mask (turn h c e t)) by (apply turn_basis; [exact Hc| |]; rewrite Sm; assumption).
    destruct (Hmin _ Hb) as (e' & He' & Hle). rewrite HE in He'. injection He' as ->. exact Hle.
Qed.

(** Directions orthogonal to all orbitals of the k-point. *)
Lemma outward_unit k0 b0 (a : list nat -> C) : (k0 < K)%nat -> (b0 < B)%nat -> tget occ [0%nat; k0; b0] <> 0 ->
  (forall g, inb g ns -> tget mask g = false -> a g = RtoC 0) -> (forall b, (b < B)%nat -> vdot ns a (orb c k0 b) = RtoC 0) -> vdot ns a a = RtoC 1 -> Re (H k0 a (orb c k0 b0)) = 0.
Proof.
  intros Hk Hb Ho Ha Hoa Hn. set (h := fun k b => (Nat.eqb k k0 && Nat.eqb b b0)%bool). set (e := mkT (tshape c) (fun i => a (skipn 3 i))).
  assert (Oe : forall k b, orb e k b = a) by reflexivity.
  assert (Hh : forall k b, h k b = true <-> k = k0 /\ b = b0) by (intros k b; unfold h; rewrite andb_true_iff, !Nat.eqb_eq; reflexivity).
  assert (Ht : turnable ns K B h c e).
  { intros k b b' Hk1 Hb1 Hb1' E1. apply Hh in E1. destruct E1 as [-> ->]. rewrite !Oe. split.
    - intros E2. apply Hh in E2. destruct E2 as [_ ->]. rewrite Nat.eqb_refl, Hn. split; [reflexivity|]. rewrite <- (vdot_conj ns a), Hoa, Cconj_R by assumption. ring.
    - intros _. apply Hoa. assumption. }
  pose proof (min_turn h e Ht ltac:(intros k b g _ _ _ Hg1 Hm1; rewrite Oe; apply Ha; assumption)) as S.
  rewrite (sumR_single (seq 0 K) k0) in S; [|apply seq_NoDup|apply in_seq; lia|].
  - rewrite (sumR_single (seq 0 B) b0) in S; [|apply seq_NoDup|apply in_seq; lia|].
    + unfold picked in S. rewrite (proj2 (Hh k0 b0)) in S by auto. rewrite Oe in S. apply Rmult_integral in S. destruct S as [S|S]; [contradiction|lra].
    + intros b _ Nb. unfold picked. destruct (h k0 b) eqn:E; [apply Hh in E; tauto|ring].
  - intros k _ Nk. apply sumR_zero. intros b _. unfold picked. destruct (h k b) eqn:E; [apply Hh in E; tauto|ring].
Qed.

Lemma outward_re k0 b0 (a : list nat -> C) : (k0 < K)%nat -> (b0 < B)%nat -> tget occ [0%nat; k0; b0] <> 0 ->
  (forall g, inb g ns -> tget mask g = false -> a g = RtoC 0) -> (forall b, (b < B)%nat -> vdot ns a (orb c k0 b) = RtoC 0) -> Re (H k0 a (orb c k0 b0)) = 0.
Proof.
  intros Hk Hb Ho Ha Hoa. set (n := sumR (indices ns) (fun g => Cnorm2 (a g))). assert (Hn : 0 <= n) by (apply sumR_nonneg; intros; apply Cnorm2_nonneg).
  destruct (Req_dec n 0) as [Z|NZ].
  - assert (Za : forall g, inb g ns -> a g = RtoC 0) by (apply vdot_zero; rewrite vdot_self; fold n; rewrite Z; reflexivity).
    assert (E : H k0 a (orb c k0 b0) = RtoC 0).
    { unfold H. rewrite (hv_extl ns _ _ _ _ a (fun g => RtoC 0 * a g)%C) by (intros g Hg1; rewrite Za by exact Hg1; ring). rewrite hv_scall, Cconj_R. ring. }
    rewrite E. reflexivity.
  - assert (Pn : 0 < sqrt n) by (apply sqrt_lt_R0; lra).
    assert (U : Re (H k0 (fun g => RtoC (/ sqrt n) * a g)%C (orb c k0 b0)) = 0).
    { apply outward_unit; try assumption.
      - intros g Hg1 Hm1. rewrite Ha by assumption. ring.
      - intros b Hb1. rewrite vdot_scall, Hoa by assumption. ring.
      - rewrite vdot_scall, vdot_scal, vdot_self, Cconj_R. fold n. rewrite <- !RtoC_mult. f_equal. rewrite <- (sqrt_sqrt n Hn) at 3. field. lra. }
    unfold H in U |- *. rewrite hv_scall, Cconj_R, Re_scal_R in U. apply Rmult_integral in U. destruct U as [U|U]; [|exact U].
    exfalso. pose proof (Rinv_0_lt_compat _ Pn). lra.
Qed.

Lemma outward_zero k0 b0 (a : list nat -> C) : (k0 < K)%nat -> (b0 < B)%nat -> tget occ [0%nat; k0; b0] <> 0 ->
  (forall g, inb g ns -> tget mask g = false -> a g = RtoC 0) -> (forall b, (b < B)%nat -> vdot ns a (orb c k0 b) = RtoC 0) -> H k0 a (orb c k0 b0) = RtoC 0.
Proof.
  intros Hk Hb Ho Ha Hoa. pose proof (outward_re k0 b0 a Hk Hb Ho Ha Hoa) as R1.
  assert (R2 : Re (H k0 (fun g => Ci * a g)%C (orb c k0 b0)) = 0).
  { apply outward_re; try assumption; [intros g Hg1 Hm1; rewrite Ha by assumption; ring|intros b Hb1; rewrite vdot_scall, Hoa by assumption; ring]. }
  unfold H in *. rewrite hv_scall in R2. set (z := hv _ _ _ _ _ _ _) in *. destruct z as [p q]. unfold Re, Cconj, Ci, Cmult in *. cbn [fst snd] in *. unfold RtoC. f_equal; lra.
Qed.

(** Two orbitals of one k-point with different occupations. *)
Lemma pair_re k0 b1 b2 (z : C) : (k0 < K)%nat -> (b1 < B)%nat -> (b2 < B)%nat -> tget occ [0%nat; k0; b1] <> tget occ [0%nat; k0; b2] -> Cnorm2 z = 1 ->
  H k0 (orb c k0 b1) (orb c k0 b2) = Cconj (H k0 (orb c k0 b2) (orb c k0 b1)) -> Re (Cconj z * H k0 (orb c k0 b2) (orb c k0 b1))%C = 0.
Proof.
  intros Hk H1 H2 No Hz Hh. assert (N : b1 <> b2) by congruence.
  destruct Hc as (_ & Oc & Mc). rewrite Sm in Oc, Mc.
  assert (O : forall b b', (b < B)%nat -> (b' < B)%nat -> vdot ns (orb c k0 b) (orb c k0 b') = RtoC (if Nat.eqb b b' then 1 else 0)).
  { intros b b' Hb Hb'. apply (Oc [0%nat; k0] b b'); [repeat constructor; lia|assumption|assumption]. }
  set (h := fun k b => (Nat.eqb k k0 && (Nat.eqb b b1 || Nat.eqb b b2))%bool).
  set (e := mkT (tshape c) (fun i => if Nat.eqb (nth 2 i 0%nat) b1 then z * orb c k0 b2 (skipn 3 i) else - Cconj z * orb c k0 b1 (skipn 3 i))%C).
  assert (Hh' : forall k b, h k b = true <-> k = k0 /\ (b = b1 \/ b = b2)) by (intros k b; unfold h; rewrite andb_true_iff, orb_true_iff, !Nat.eqb_eq; reflexivity).
  assert (E1 : forall g, orb e k0 b1 g = (z * orb c k0 b2 g)%C) by (intros g; unfold orb, e; cbn [tget app nth skipn]; rewrite Nat.eqb_refl; reflexivity).
  assert (E2 : forall g, orb e k0 b2 g = (- Cconj z * orb c k0 b1 g)%C) by (intros g; unfold orb, e; cbn [tget app nth skipn]; rewrite (proj2 (Nat.eqb_neq b2 b1)) by congruence; reflexivity).
  assert (D1 : forall b, (b < B)%nat -> vdot ns (orb e k0 b1) (orb c k0 b) = (Cconj z * RtoC (if Nat.eqb b2 b then 1 else 0))%C).
  { intros b Hb. rewrite (vdot_ext ns _ (fun g => z * orb c k0 b2 g)%C _ (orb c k0 b)) by (intros; rewrite ?E1; reflexivity). rewrite vdot_scall, O by assumption. reflexivity. }
  assert (D2 : forall b, (b < B)%nat -> vdot ns (orb e k0 b2) (orb c k0 b) = (- z * RtoC (if Nat.eqb b1 b then 1 else 0))%C).
  { intros b Hb. rewrite (vdot_ext ns _ (fun g => - Cconj z * orb c k0 b1 g)%C _ (orb c k0 b)) by (intros; rewrite ?E2; reflexivity). rewrite vdot_scall, O by assumption. rewrite Cconj_opp, Cconj_conj. reflexivity. }
  assert (Zz : (Cconj z * z)%C = RtoC 1) by (rewrite Cconj_mult_self, Hz; reflexivity).
  assert (F1 : forall u, vdot ns u (orb e k0 b1) = (z * vdot ns u (orb c k0 b2))%C) by (intros u; rewrite (vdot_ext ns u u _ (fun g => z * orb c k0 b2 g)%C) by (intros; rewrite ?E1; reflexivity); apply vdot_scal).
  assert (F2 : forall u, vdot ns u (orb e k0 b2) = (- Cconj z * vdot ns u (orb c k0 b1))%C) by (intros u; rewrite (vdot_ext ns u u _ (fun g => - Cconj z * orb c k0 b1 g)%C) by (intros; rewrite ?E2; reflexivity); apply vdot_scal).
  assert (N12 : Nat.eqb b1 b2 = false) by (apply Nat.eqb_neq; exact N). assert (N21 : Nat.eqb b2 b1 = false) by (apply Nat.eqb_neq; congruence).
  assert (Ht : turnable ns K B h c e).
  { intros k b b' Hk1 Hb1 Hb1' X1. apply Hh' in X1. destruct X1 as [-> X1]. split.
    - intros X2. apply Hh' in X2. destruct X2 as [_ X2]. destruct X1 as [->| ->], X2 as [->| ->].
      + rewrite F1, F1, D1, O, Nat.eqb_refl, N12, Nat.eqb_refl, D1, N21 by assumption. split; [|ring]. transitivity ((Cconj z * z) * RtoC 1)%C; [ring|]. rewrite Zz. ring.
      + rewrite F2, F2, D1, O, N21, Nat.eqb_refl, N12, D1, Nat.eqb_refl by assumption. split; [ring|ring].
      + rewrite F1, F1, D2, O, N21, N12, Nat.eqb_refl, D2, Nat.eqb_refl by assumption. split; [ring|ring].
      + rewrite F2, F2, D2, O, !Nat.eqb_refl, N21, D2, N12 by assumption. split; [|ring]. transitivity ((Cconj z * z) * RtoC 1)%C; [ring|]. rewrite Zz. ring.
    - intros X2. assert (Nb : b' <> b1 /\ b' <> b2) by (split; intros ->; rewrite (proj2 (Hh' k0 _)) in X2 by auto; discriminate).
      destruct X1 as [->| ->]; [rewrite D1 by assumption|rewrite D2 by assumption]; [rewrite (proj2 (Nat.eqb_neq b2 b')) by (intros <-; tauto)|rewrite (proj2 (Nat.eqb_neq b1 b')) by (intros <-; tauto)]; ring. }
  assert (Hm : forall k b g, (k < K)%nat -> (b < B)%nat -> h k b = true -> inb g ns -> tget mask g = false -> orb e k b g = RtoC 0).
  { intros k b g Hk1 Hb1 X1 Hg1 Hm1. apply Hh' in X1. destruct X1 as [-> X1].
    destruct X1 as [->| ->]; [rewrite E1|rewrite E2]; unfold orb; rewrite (Mc [0%nat; k0; _] g) by (try assumption; repeat constructor; lia); ring. }
  pose proof (min_turn h e Ht Hm) as S.
  rewrite (sumR_single (seq 0 K) k0) in S; [|apply seq_NoDup|apply in_seq; lia|].
  - rewrite (sum_two B b1 b2) in S; [|assumption|assumption|assumption|].
    + unfold picked in S. rewrite (proj2 (Hh' k0 b1)), (proj2 (Hh' k0 b2)) in S by auto.
      unfold H in S, Hh |- *.
      rewrite (hv_extl ns _ _ _ _ (orb e k0 b1) (fun g => z * orb c k0 b2 g)%C), (hv_extl ns _ _ _ _ (orb e k0 b2) (fun g => - Cconj z * orb c k0 b1 g)%C) in S by (intros; first [apply E1|apply E2]).
      rewrite !hv_scall, Hh, Cconj_opp, Cconj_conj in S. clear Hh. set (X := hv _ _ _ _ _ (orb c k0 b2) (orb c k0 b1)) in S |- *.
      replace (Re (- z * Cconj X)%C) with (- Re (Cconj z * X)%C) in S by (destruct z, X; unfold Re, Cconj, Copp, Cmult; cbn [fst snd]; ring).
      assert (S' : (tget occ [0%nat; k0; b1] - tget occ [0%nat; k0; b2]) * Re (Cconj z * X)%C = 0) by lra.
      apply Rmult_integral in S'. destruct S' as [S'|S']; [exfalso; apply No; lra|exact S'].
    + intros b _ Nb1 Nb2. unfold picked. destruct (h k0 b) eqn:X; [apply Hh' in X; tauto|ring].
  - intros k _ Nk. apply sumR_zero. intros b _. unfold picked. destruct (h k b) eqn:X; [apply Hh' in X; tauto|ring].
Qed.

Lemma lowest_orbitals_in : exists M, hamiltonian_matrix (xc_density lib vg) c pos ch d G kpts vol xt true = Ok M /\
  (forall k b b', (k < K)%nat -> (b < B)%nat -> (b' < B)%nat -> tget occ [0%nat; k; b] <> tget occ [0%nat; k; b'] -> tget M [0%nat; k; b'; b] = RtoC 0) /\
  forall f M', (forall k b g, (k < K)%nat -> (b < B)%nat -> inb g ns -> tget mask g = false -> orb f k b g = RtoC 0) ->
    hamiltonian_matrix (xc_density lib vg) (stack_bands B c f) pos ch d G kpts vol xt true = Ok M' ->
    forall k b, (k < K)%nat -> (b < B)%nat -> tget occ [0%nat; k; b] <> 0 ->
      tget M' [0%nat; k; (B + b)%nat; b] = sumC (seq 0 B) (fun b' => vdot ns (orb f k b) (orb c k b') * tget M [0%nat; k; b'; b])%C.
Proof.
  destruct (wave_grid_eq c vol [1%nat; K; B] ns eq_refl Sc) as (w & Ew & _).
  destruct (one_channel (xc_density lib vg) c pos ch d G kpts vol xt true 1 B n1 n2 n3 v w Sc SG Ev Sv Ew) as (M & HM & _).
  exists M. split; [exact HM|].
  pose proof (matrix_hv (xc_density lib vg) c pos ch d G kpts vol xt B n1 n2 n3 v M Sc SG Ev Sv HM) as VM. fold ns K in VM. change (forall k i j, (k < K)%nat -> (i < B)%nat -> (j < B)%nat ->
    tget M [0%nat; k; i; j] = H k (orb c k i) (orb c k j) /\ tget M [0%nat; k; j; i] = Cconj (tget M [0%nat; k; i; j])) in VM.
  split.
  - intros k b b' Hk Hb Hb' No. destruct (VM k b' b Hk Hb' Hb) as (-> & E2). destruct (VM k b b' Hk Hb Hb') as (E3 & _).
    rewrite E3 in E2.
    assert (C1 : Cnorm2 (RtoC 1) = 1) by (unfold Cnorm2, RtoC; cbn; ring). assert (C2 : Cnorm2 Ci = 1) by (unfold Cnorm2, Ci; cbn; ring).
    pose proof (pair_re k b b' (RtoC 1) Hk Hb Hb' No C1 E2) as R1. pose proof (pair_re k b b' Ci Hk Hb Hb' No C2 E2) as R2.
    set (X := H k (orb c k b') (orb c k b)) in *. destruct X as [p q]. unfold Re, Cconj, Ci, Cmult, RtoC in *. cbn [fst snd] in *. f_equal; lra.
  - intros f M' Hf HM' k b Hk Hb Ho. rewrite (stack_hv (xc_density lib vg) c f pos ch d G kpts vol xt B n1 n2 n3 v M' Sc SG Ev Sv HM' k b b Hk Hb Hb). fold ns. change (hv ns vol (fun x => Re (tget v (0%nat :: x))) G (nth k kpts vzero)) with (H k).
    destruct Hc as (_ & Oc & Mc). rewrite Sm in Oc, Mc.
    assert (O : forall i j, (i < B)%nat -> (j < B)%nat -> vdot ns (orb c k i) (orb c k j) = RtoC (if Nat.eqb i j then 1 else 0)).
    { intros i j Hi Hj. apply (Oc [0%nat; k] i j); [repeat constructor; lia|assumption|assumption]. }
    set (w0 := fun j => vdot ns (orb c k j) (orb f k b)).
    set (p := fun g => sumC (seq 0 B) (fun j => w0 j * orb c k j g)%C). set (a := fun g => (RtoC 1 * orb f k b g + RtoC (-1) * p g)%C).
    assert (Za : H k a (orb c k b) = RtoC 0).
    { apply outward_zero; try assumption.
      - intros g Hg1 Hm1. unfold a. rewrite Hf by assumption. unfold p. rewrite sumC_zero; [ring|]. intros j Hj. apply in_seq in Hj. unfold orb. rewrite (Mc [0%nat; k; j] g) by (try assumption; repeat constructor; lia). ring.
      - intros j Hj. unfold a. rewrite vdot_linl, !Cconj_R. rewrite <- (vdot_conj ns (orb c k j) p). unfold p. rewrite vdot_sum.
        rewrite (sumC_single (seq 0 B) j); [|apply seq_NoDup|apply in_seq; lia|].
        + rewrite O, Nat.eqb_refl by assumption. unfold w0. rewrite Cconj_mult, vdot_conj, Cconj_R.
          replace (RtoC (-1)) with (- RtoC 1)%C by (unfold Copp, RtoC; cbn; f_equal; ring). ring.
        + intros i Hi Ni. apply in_seq in Hi. rewrite O by lia. rewrite (proj2 (Nat.eqb_neq j i)) by congruence. ring. }
    unfold H in *. unfold a in Za. rewrite hv_linl, !Cconj_R in Za. unfold p in Za. rewrite hv_sum in Za.
    transitivity (sumC (seq 0 B) (fun j => Cconj (w0 j) * hv ns vol (fun x => Re (tget v (0%nat :: x))) G (nth k kpts vzero) (orb c k j) (orb c k b))%C).
    + set (X := hv _ _ _ _ _ (orb f k b) _) in *. set (Y := sumC _ _) in *. replace (RtoC (-1)) with (- RtoC 1)%C in Za by (unfold Copp, RtoC; cbn; f_equal; ring).
      transitivity ((RtoC 1 * X + - RtoC 1 * Y) + Y)%C; [ring|rewrite Za; ring].
    + apply sumC_ext. intros j Hj. apply in_seq in Hj. destruct (VM k j b Hk ltac:(lia) Hb) as (-> & _). unfold w0. rewrite vdot_conj. reflexivity.
Qed.
End Orbitals.
End Lowest.
