(** Stationary points of the energy and the free energy. *)
From Coq Require Import Reals Lra Lia.
From Coquelicot Require Import Coquelicot.
From Coq Require Import Ascii String List Arith ZArith Bool.
From Verif Require Import Base Sums Tensor DFT GridModel GridProofs PadModel PadProofs Lin3 VecModel VecProofs OccModel OccProofs PwModel PwSpec PwProofs PwGrad BraketModel BraketSpec BraketProofs XcModel XcSpec EnergyModel EnergySpec EnergyProofs ExtProofs TotalProofs RespProofs HamModel HamSpec XcProofs XcProofs2 XcProofs3 HamProofs HamProofs2 HamProofs3 DerProofs StatSpec.
Import ListNotations.
Local Open Scope R_scope.

Lemma sum_states K B (f : list nat -> R) : sumR (indices [1%nat; K; B]) f = sumR (seq 0 K) (fun k => sumR (seq 0 B) (fun b => f [0%nat; k; b])).
Proof.
  rewrite sumR_indices_cons. cbn [seq sumR fold_right]. rewrite Rplus_0_r, sumR_indices_cons. apply sumR_ext. intros k _. rewrite sumR_indices_cons. apply sumR_ext. intros b _. cbn. apply Rplus_0_r.
Qed.

(** A sum that vanishes for all weights of sum zero has constant entries. *)
Lemma constant_entries (l : list (list nat)) (a : list nat -> R) : NoDup l ->
  ((forall o : list nat -> R, sumR l o = 0 -> sumR l (fun i => o i * a i) = 0) <-> exists mu, forall i, In i l -> a i = mu).
Proof.
  intros Hn. split.
  - intros H. destruct l as [|x0 l]; [exists 0; intros i []|]. exists (a x0). intros i Hi.
    destruct (list_eq_dec Nat.eq_dec i x0) as [->|Ne]; [reflexivity|].
    set (d := fun (y i : list nat) => if list_eq_dec Nat.eq_dec i y then 1 else 0).
    assert (D : forall y (f : list nat -> R), In y (x0 :: l) -> sumR (x0 :: l) (fun i => d y i * f i) = f y).
    { intros y f Hy. rewrite (sumR_single (x0 :: l) y _ Hn Hy); unfold d.
      - destruct (list_eq_dec Nat.eq_dec y y); [ring|congruence].
      - intros x _ Nx. destruct (list_eq_dec Nat.eq_dec x y); [contradiction|ring]. }
    assert (H1 : sumR (x0 :: l) (fun j => d i j - d x0 j) = 0).
    { rewrite sumR_minus. rewrite (sumR_ext _ (d i) (fun j => d i j * 1)), (sumR_ext _ (d x0) (fun j => d x0 j * 1)) by (intros; ring).
      rewrite (D i (fun _ => 1)) by exact Hi. rewrite (D x0 (fun _ => 1)) by (left; reflexivity). ring. }
    specialize (H _ H1). rewrite (sumR_ext _ _ (fun j => d i j * a j - d x0 j * a j)) in H by (intros; ring).
    rewrite sumR_minus, (D i a Hi), (D x0 a) in H by (left; reflexivity). lra.
  - intros [mu H] o Ho. rewrite (sumR_ext _ _ (fun i => mu * o i)) by (intros i Hi; rewrite (H i Hi); ring). rewrite sumR_scal, Ho. ring.
Qed.

(** Derivative of one term of the entropy. *)
Definition slope (eps w p : R) : R := ln (eps + p) + p / (eps + p) - ln (eps + w - p) - (w - p) / (eps + w - p).
Lemma term_derive eps w p o : 0 < eps + p -> 0 < eps + w - p ->
  is_derive (fun t : R => (p + t * o) * ln (eps + (p + t * o)) + (w - (p + t * o)) * ln (eps + w - (p + t * o))) 0 (o * slope eps w p).
Proof.
  intros H1 H2. auto_derive.
  - rewrite !Rmult_0_l, !Rplus_0_r. split; [exact H1|]. split; [|exact I]. replace (eps + w + - p) with (eps + w - p) by ring. exact H2.
  - rewrite !Rmult_0_l, !Rplus_0_r. unfold slope. replace (eps + w + - p) with (eps + w - p) by ring. field. split; lra.
Qed.
Lemma entropy_derivative occ o eps S K B : tshape occ = [S; K; B] -> let w := (3 - INR S) / INR K in
  (forall i, inb i [S; K; B] -> 0 < eps + tget occ i /\ 0 < eps + w - tget occ i) ->
  exists H : R -> R, (forall t, fermi_dirac (mkT (tshape occ) (fun i => tget occ i + t * tget o i)) eps = Ok (H t)) /\
    is_derive H 0 (- sumR (indices [S; K; B]) (fun i => tget o i * slope eps w (tget occ i))).
Proof.
  intros Sh w Hw. exists (fun t => - sumR (indices [S; K; B]) (fun i => (tget occ i + t * tget o i) * ln (eps + (tget occ i + t * tget o i)) + (w - (tget occ i + t * tget o i)) * ln (eps + w - (tget occ i + t * tget o i)))).
  split; [intros t; unfold fermi_dirac; cbn [tshape tget]; rewrite Sh; reflexivity|].
  apply (is_derive_opp (fun t : R => sumR (indices [S; K; B]) _)). apply (is_derive_sumR (indices [S; K; B]) (fun i t => (tget occ i + t * tget o i) * ln (eps + (tget occ i + t * tget o i)) + (w - (tget occ i + t * tget o i)) * ln (eps + w - (tget occ i + t * tget o i)))).
  intros i Hi. apply in_indices in Hi. apply term_derive; apply Hw; exact Hi.
Qed.

Lemma slope_fermi w T mu h p : 0 < T -> 0 < p -> p < w -> (h + T * slope 0 w p = mu <-> p = w * fermi T mu h).
Proof.
  intros HT Hp Hw. unfold slope, fermi. rewrite !Rplus_0_l. replace (p / p) with 1 by (field; lra). replace ((w - p) / (w - p)) with 1 by (field; lra).
  pose proof (exp_pos ((h - mu) / T)) as He. split.
  - intros E. assert (L : ln (w - p) - ln p = (h - mu) / T) by (apply (Rmult_eq_reg_l T); [|lra]; replace (T * ((h - mu) / T)) with (h - mu) by (field; lra); lra).
    rewrite <- L. unfold Rminus at 1. rewrite exp_plus, exp_Ropp, !exp_ln by lra. field. split; lra.
  - intros E. set (x := exp ((h - mu) / T)) in *. assert (Ex : (w - p) / p = x). { rewrite E. field. split; [lra|]. apply Rgt_not_eq. lra. }
    assert (L : ln ((w - p) / p) = (h - mu) / T) by (rewrite Ex; unfold x; apply ln_exp). unfold Rdiv in L at 1. rewrite ln_mult, ln_Rinv in L; [|lra|lra|apply Rinv_0_lt_compat; lra].
    replace (ln p + 1 - ln (w - p) - 1) with (- ((h - mu) / T)) by lra. field. lra.
Qed.

Lemma stationary_occupations lib vg xt A c pos ch G kpts vol occ d eps T B n1 n2 n3 : let ns := [n1; n2; n3] in let K := length kpts in let ts := split_on "+" xt in
  contains "gga" xt = false -> (forall t b, In t ts -> lib t b <> None) ->
  m3det A <> 0 -> 0 < vol -> g_vectors A ns = Ok G -> length ch = length pos -> tshape c = [1%nat; K; B] ++ ns -> tshape occ = [1%nat; K; B] ->
  density_grid c vol (Some occ) = Ok d ->
  (forall x, inb x ns -> ex_derive (local_particle lib ts) (tget d (0%nat :: x))) ->
  (forall i, inb i [1%nat; K; B] -> 0 < eps + tget occ i /\ 0 < eps + 2 / INR K - tget occ i) ->
  exists M : tensor C, hamiltonian_matrix (xc_density lib vg) c pos ch d G kpts vol xt true = Ok M /\
    (occupations_stationary (xc_density lib vg) c pos ch G kpts vol occ xt eps T <->
     exists mu, forall k b, (k < K)%nat -> (b < B)%nat -> Re (tget M [0%nat; k; b; b]) + T * slope eps (2 / INR K) (tget occ [0%nat; k; b]) = mu).
Proof.
  intros ns K ts Hg Hl HA Hv HG Hp Sc So Hd Hex Hocc.
  assert (Hw : (3 - INR 1) / INR K = 2 / INR K) by (f_equal; cbn; ring).
  destruct (occupation_derivative lib vg xt A c pos ch G kpts vol occ (mkT [] (fun _ => 0)) d B n1 n2 n3 Hg Hl HA Hv HG Hp Sc So Hd Hex) as (M & _ & HM & _).
  exists M. split; [exact HM|].
  set (a := fun i : list nat => Re (tget M [0%nat; nth 1 i 0%nat; nth 2 i 0%nat; nth 2 i 0%nat]) + T * slope eps (2 / INR K) (tget occ i)).
  assert (D : forall o : tensor R, exists E S : R -> R,
    (forall t, total_energy (xc_density lib vg) c pos ch G kpts vol (Some (mkT (tshape occ) (fun i => tget occ i + t * tget o i))) false xt = Ok (E t)) /\
    (forall t, fermi_dirac (mkT (tshape occ) (fun i => tget occ i + t * tget o i)) eps = Ok (S t)) /\
    is_derive (fun t : R => E t - T * S t) 0 (sumR (indices [1%nat; K; B]) (fun i => tget o i * a i))).
  { intros o. destruct (occupation_derivative lib vg xt A c pos ch G kpts vol occ o d B n1 n2 n3 Hg Hl HA Hv HG Hp Sc So Hd Hex) as (M' & E & HM' & HE & DE).
    fold ns K in HM', DE. rewrite HM in HM'. injection HM' as <-.
    destruct (entropy_derivative occ o eps 1 K B So) as (S & HS & DS). { rewrite Hw. exact Hocc. }
    exists E, S. split; [exact HE|]. split; [exact HS|]. rewrite Hw in DS.
    pose proof (is_derive_minus E (fun t => T * S t) 0 _ _ DE (is_derive_scal S 0 T _ DS)) as DT.
    match type of DT with is_derive _ _ ?z => match goal with |- is_derive _ _ ?y => replace y with z; [exact DT|] end end.
    rewrite !sum_states. match goal with |- minus ?x ?u = ?z => change (x + - u = z) end.
    replace (- (T * - sumR (seq 0 K) (fun k => sumR (seq 0 B) (fun b => tget o [0%nat; k; b] * slope eps (2 / INR K) (tget occ [0%nat; k; b])))))
      with (T * sumR (seq 0 K) (fun k => sumR (seq 0 B) (fun b => tget o [0%nat; k; b] * slope eps (2 / INR K) (tget occ [0%nat; k; b])))) by ring.
    rewrite <- sumR_scal, <- sumR_plus. apply sumR_ext. intros k _. rewrite <- sumR_scal, <- sumR_plus. apply sumR_ext. intros b _. unfold a. cbn [nth]. ring. }
  assert (Q : occupations_stationary (xc_density lib vg) c pos ch G kpts vol occ xt eps T <-> forall o : list nat -> R, sumR (indices [1%nat; K; B]) o = 0 -> sumR (indices [1%nat; K; B]) (fun i => o i * a i) = 0).
  { unfold occupations_stationary. rewrite So. split.
    - intros H o Ho. destruct (H (mkT [] o) Ho) as (E & S & HE & HS & D0). destruct (D (mkT [] o)) as (E' & S' & HE' & HS' & D1). rewrite So in HE', HS'. cbn [tget] in D1.
      apply is_derive_unique in D0, D1. rewrite <- D1. refine (eq_trans _ D0). apply Derive_ext. intros t. specialize (HE t). specialize (HS t). rewrite HE' in HE. rewrite HS' in HS. injection HE as ->. injection HS as ->. reflexivity.
    - intros H o Ho. destruct (D o) as (E & S & HE & HS & D1). rewrite So in HE, HS. exists E, S. split; [exact HE|]. split; [exact HS|]. rewrite (H (tget o) Ho) in D1. exact D1. }
  rewrite Q, (constant_entries _ a (NoDup_indices _)). split; intros [mu H]; exists mu.
  - intros k b Hk Hb. specialize (H [0%nat; k; b]). unfold a in H. cbn [nth] in H. apply H. apply in_indices. repeat constructor; lia.
  - intros i Hi. apply in_indices in Hi. inversion Hi as [|i0 ? i' ? Hi0 Hi']; subst. inversion Hi' as [|k ? i'' ? Hk Hi'']; subst. inversion Hi'' as [|b ? i3 ? Hb Hi3]; subst. inversion Hi3; subst.
    assert (i0 = 0%nat) by lia. subst i0. apply H; assumption.
Qed.

Lemma stationary_fermi lib vg xt A c pos ch G kpts vol occ d T B n1 n2 n3 : let ns := [n1; n2; n3] in let K := length kpts in let ts := split_on "+" xt in
  contains "gga" xt = false -> (forall t b, In t ts -> lib t b <> None) ->
  m3det A <> 0 -> 0 < vol -> g_vectors A ns = Ok G -> length ch = length pos -> tshape c = [1%nat; K; B] ++ ns -> tshape occ = [1%nat; K; B] ->
  density_grid c vol (Some occ) = Ok d ->
  (forall x, inb x ns -> ex_derive (local_particle lib ts) (tget d (0%nat :: x))) ->
  (forall i, inb i [1%nat; K; B] -> 0 < tget occ i < 2 / INR K) -> 0 < T ->
  exists M : tensor C, hamiltonian_matrix (xc_density lib vg) c pos ch d G kpts vol xt true = Ok M /\
    (occupations_stationary (xc_density lib vg) c pos ch G kpts vol occ xt 0 T <->
     exists mu, forall k b, (k < K)%nat -> (b < B)%nat -> tget occ [0%nat; k; b] = 2 / INR K * fermi T mu (Re (tget M [0%nat; k; b; b]))).
Proof.
  intros ns K ts Hg Hl HA Hv HG Hp Sc So Hd Hex Hocc HT.
  destruct (stationary_occupations lib vg xt A c pos ch G kpts vol occ d 0 T B n1 n2 n3 Hg Hl HA Hv HG Hp Sc So Hd Hex) as (M & HM & HQ).
  { intros i Hi. specialize (Hocc i Hi). fold K. lra. }
  exists M. split; [exact HM|]. rewrite HQ. fold K. split; intros [mu H]; exists mu; intros k b Hk Hb; specialize (H k b Hk Hb);
    (assert (Ho : 0 < tget occ [0%nat; k; b] < 2 / INR K) by (apply Hocc; repeat constructor; lia)).
  - apply slope_fermi; [exact HT|apply Ho|apply Ho|exact H].
  - apply slope_fermi; [exact HT|apply Ho|apply Ho|exact H].
Qed.

(** ** Orbitals *)
(** <e_kb|H|c_kb> in terms of the coefficients. *)
Definition cross (ns : list nat) (vol : R) (V : list nat -> R) (G : tensor v3) (q : v3) (c e : tensor C) (b : list nat) : C :=
  (sumC (indices ns) (fun g => Cconj (tget e (b ++ g)) * RtoC (let p := vadd (tget G g) q in dot p p / 2) * tget c (b ++ g)) +
   RtoC (vol / INR (nprod ns)) * sumC (indices ns) (fun x => Cconj (psi ns vol e b x) * RtoC (V x) * psi ns vol c b x))%C.
Lemma cross_scal ns vol V G q c e e' b z : (forall g, tget e' (b ++ g) = z * tget e (b ++ g))%C -> cross ns vol V G q c e' b = (Cconj z * cross ns vol V G q c e b)%C.
Proof.
  intros H. unfold cross. rewrite Cmult_plus_distr_l. f_equal.
  - rewrite <- sumC_scal. apply sumC_ext. intros g _. rewrite H, Cconj_mult. ring.
  - rewrite Cmult_assoc, (Cmult_comm (Cconj z)), <- Cmult_assoc. f_equal. rewrite <- sumC_scal. apply sumC_ext. intros x _.
    assert (P : psi ns vol e' b x = (z * psi ns vol e b x)%C). { unfold psi. rewrite (idft_ext ns _ (fun g => z * tget e (b ++ g))%C) by (intros g _; apply H). rewrite idft_scal. ring. }
    rewrite P, Cconj_mult. ring.
Qed.

Section Orb.
Variables (lib : xclib) (vg : list string -> tensor R -> tensor R -> tensor v3 -> res (tensor C)) (xt : string) (A : m3) (c : tensor C) (pos : list v3) (ch : list R) (G : tensor v3) (kpts : list v3) (vol : R) (occ d : tensor R) (B n1 n2 n3 : nat).
Let ns := [n1; n2; n3].
Let K := length kpts.
Let ts := split_on "+" xt.
Hypothesis Hg : contains "gga" xt = false.
Hypothesis Hl : forall t b, In t ts -> lib t b <> None.
Hypothesis HA : m3det A <> 0.
Hypothesis Hv : 0 < vol.
Hypothesis HG : g_vectors A ns = Ok G.
Hypothesis Hp : length ch = length pos.
Hypothesis Sc : tshape c = [1%nat; K; B] ++ ns.
Hypothesis So : tshape occ = [1%nat; K; B].
Hypothesis Hd : density_grid c vol (Some occ) = Ok d.
Hypothesis Hex : forall x, inb x ns -> ex_derive (local_particle lib ts) (tget d (0%nat :: x)).

Lemma cross_matrix : exists V, forall e, exists M, hamiltonian_matrix (xc_density lib vg) (stack_bands B c e) pos ch d G kpts vol xt true = Ok M /\
  forall k b, (k < K)%nat -> (b < B)%nat -> tget M [0%nat; k; (B + b)%nat; b] = cross ns vol V G (nth k kpts vzero) c e [0%nat; k; b].
Proof.
  destruct (g_vectors_dual A n1 n2 n3 G HA HG) as (SG & _). fold ns in SG.
  destruct (density_eq c vol occ 1 K B n1 n2 n3 Sc So) as (d' & Ed' & Sd & Gd). rewrite Hd in Ed'. injection Ed' as <-. fold ns in Sd, Gd.
  destruct (energy_path lib vg xt A pos ch G vol d n1 n2 n3 (fun _ => 0) (fun _ => 0) Hg Hl HA Hv HG Hp Sd Hex) as (v & Ev & Sv & _).
  exists (fun x => Re (tget v (0%nat :: x))). intros e. pose proof (stack_shape B c e 1 K B ns Sc) as Ss.
  destruct (wave_grid_eq (stack_bands B c e) vol [1%nat; K; (B + B)%nat] ns eq_refl Ss) as (w & Ew & _ & Gw).
  destruct (one_channel (xc_density lib vg) (stack_bands B c e) pos ch d G kpts vol xt true 1 (B + B) n1 n2 n3 v w Ss SG Ev Sv Ew) as (M & HM & _ & VM). fold ns K in VM.
  exists M. split; [exact HM|]. intros k b Hk Hb. destruct (VM 0%nat k (B + b)%nat b) as [-> _]; [lia|lia|lia|lia|]. unfold h_element, kinetic_element, potential_element, cross. f_equal; [|f_equal].
  - apply sumC_ext. intros g _. rewrite stack_second, stack_first by lia. reflexivity.
  - apply sumC_ext. intros x _. rewrite !Gw by reflexivity.
    rewrite (psi_same ns vol (stack_bands B c e) e [0%nat; k; (B + b)%nat] [0%nat; k; b] x) by (intros g; apply stack_second).
    rewrite (psi_same ns vol (stack_bands B c e) c [0%nat; k; b] [0%nat; k; b] x) by (intros g; apply stack_first; lia). reflexivity.
Qed.

(** The direction [e] at one k-point and band, times [z], and nothing elsewhere. *)
Definition only (e : tensor C) (k b : nat) (z : C) : tensor C :=
  mkT [] (fun i => if list_eq_dec Nat.eq_dec (firstn 3 i) [0%nat; k; b] then z * tget e i else RtoC 0)%C.
Lemma only_here e k b z g : tget (only e k b z) ([0%nat; k; b] ++ g) = (z * tget e ([0%nat; k; b] ++ g))%C.
Proof. unfold only. cbn [tget app firstn]. destruct (list_eq_dec Nat.eq_dec [0%nat; k; b] [0%nat; k; b]); [reflexivity|congruence]. Qed.
Lemma only_there e k b z k' b' g : (k', b') <> (k, b) -> tget (only e k b z) ([0%nat; k'; b'] ++ g) = RtoC 0.
Proof. intros N. unfold only. cbn [tget app firstn]. destruct (list_eq_dec Nat.eq_dec [0%nat; k'; b'] [0%nat; k; b]) as [E|]; [|reflexivity]. exfalso. apply N. congruence. Qed.
Lemma only_outward e k b z : outward ns K B c e -> outward ns K B c (only e k b z).
Proof.
  intros H k' b' b'' Hk Hb Hb'. destruct (Nat.eq_dec k' k) as [->|Nk]; [destruct (Nat.eq_dec b' b) as [->|Nb]|].
  - rewrite (sumC_ext _ _ (fun g => Cconj z * (Cconj (tget e ([0%nat; k; b] ++ g)) * tget c ([0%nat; k; b''] ++ g)))%C) by (intros g _; rewrite only_here, Cconj_mult; ring).
    rewrite sumC_scal, H by assumption. apply Cmult_0_r.
  - apply sumC_zero. intros g _. rewrite only_there by congruence. rewrite Cconj_R. apply Cmult_0_l.
  - apply sumC_zero. intros g _. rewrite only_there by congruence. rewrite Cconj_R. apply Cmult_0_l.
Qed.

Lemma stationary_orbitals : orbitals_stationary (xc_density lib vg) c pos ch G kpts vol occ xt ns B <->
  forall e M, outward ns K B c e -> hamiltonian_matrix (xc_density lib vg) (stack_bands B c e) pos ch d G kpts vol xt true = Ok M ->
    forall k b, (k < K)%nat -> (b < B)%nat -> tget occ [0%nat; k; b] <> 0 -> tget M [0%nat; k; (B + b)%nat; b] = RtoC 0.
Proof.
  destruct cross_matrix as [V HV]. split.
  - intros H e M He HM k b Hk Hb Ho. destruct (HV e) as (M' & HM' & XM). rewrite HM in HM'. injection HM' as <-. rewrite XM by assumption.
    assert (P : forall z, Re (Cconj z * cross ns vol V G (nth k kpts vzero) c e [0%nat; k; b])%C = 0).
    { intros z. destruct (H (only e k b z) (only_outward e k b z He)) as (E & HE & D0).
      destruct (orbital_derivative lib vg xt A c (only e k b z) pos ch G kpts vol occ d B n1 n2 n3 Hg Hl HA Hv HG Hp Sc So Hd Hex) as (M1 & E1 & HM1 & HE1 & D1). fold K in D1.
      destruct (HV (only e k b z)) as (M2 & HM2 & XM2). rewrite HM1 in HM2. injection HM2 as <-.
      assert (Z : sumR (seq 0 K) (fun k' => sumR (seq 0 B) (fun b' => tget occ [0%nat; k'; b'] * (2 * Re (tget M1 [0%nat; k'; (B + b')%nat; b'])))) = 0).
      { apply is_derive_unique in D0, D1. rewrite <- D1. refine (eq_trans _ D0). apply Derive_ext. intros t. specialize (HE t). rewrite HE1 in HE. injection HE as ->. reflexivity. }
      assert (N : forall k' b', (k' < K)%nat -> (b' < B)%nat -> (k', b') <> (k, b) -> Re (tget M1 [0%nat; k'; (B + b')%nat; b']) = 0).
      { intros k' b' Hk' Hb' Ne. rewrite XM2 by assumption. rewrite (cross_scal ns vol V G _ c e _ _ (RtoC 0)); [rewrite Cconj_R, Cmult_0_l; reflexivity|]. intros g. rewrite only_there by exact Ne. rewrite Cmult_0_l. reflexivity. }
      rewrite (sumR_single (seq 0 K) k) in Z; [|apply seq_NoDup|apply in_seq; lia|].
      2: { intros k' Hk' Ne. apply in_seq in Hk'. apply sumR_zero. intros b' Hb'. apply in_seq in Hb'. rewrite N by (try lia; congruence). ring. }
      rewrite (sumR_single (seq 0 B) b) in Z; [|apply seq_NoDup|apply in_seq; lia|].
      2: { intros b' Hb' Ne. apply in_seq in Hb'. rewrite N by (try lia; congruence). ring. }
      rewrite XM2 in Z by assumption. rewrite (cross_scal ns vol V G _ c e _ _ z) in Z by (intros g; apply only_here).
      apply Rmult_integral in Z. destruct Z as [Z|Z]; [contradiction|lra]. }
    pose proof (P (RtoC 1)) as P1. pose proof (P Ci) as P2. destruct (cross ns vol V G (nth k kpts vzero) c e [0%nat; k; b]) as [x y].
    unfold Re, Cconj, Cmult, Ci, RtoC in P1, P2. cbn in P1, P2. apply injective_projections; cbn; lra.
  - intros H e He. destruct (orbital_derivative lib vg xt A c e pos ch G kpts vol occ d B n1 n2 n3 Hg Hl HA Hv HG Hp Sc So Hd Hex) as (M1 & E1 & HM1 & HE1 & D1). fold K in D1.
    exists E1. split; [exact HE1|]. match type of D1 with is_derive _ _ ?z => replace z with 0 in D1; [exact D1|] end. symmetry. apply sumR_zero. intros k Hk. apply sumR_zero. intros b Hb. apply in_seq in Hk, Hb.
    destruct (Req_EM_T (tget occ [0%nat; k; b]) 0) as [->|Ho]; [ring|]. rewrite (H e M1 He HM1 k b) by (try lia; exact Ho). cbn. ring.
Qed.
End Orb.
