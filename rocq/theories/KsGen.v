(** Orbitals of lowest energy and occupations of lowest energy, for any energy with a Hermitian form as
    its slope (used for C152). *)
From Coq Require Import Reals Lra Lia FunctionalExtensionality.
From Coquelicot Require Import Coquelicot.
From Coq Require Import Ascii String List Arith ZArith Bool.
From Verif Require Import Base Sums Tensor DFT GridModel PadModel Lin3 VecModel VecProofs OccModel OccSpec PwModel PwSpec PwProofs BraketModel XcModel XcSpec EnergyModel HamModel HamSpec XcProofs XcProofs3 HamProofs3 DerProofs ReachSpec KsSpec KsProofs KsProofs2 KsProofs3 KsProofs4.
Import ListNotations.
Local Open Scope R_scope.

Section Orbitals.
Context (ns : list nat) (K B : nat) (mask : tensor bool) (c : tensor C) (occ : tensor R) (H : nat -> (list nat -> C) -> (list nat -> C) -> C) (matrix : tensor C -> res (tensor C)) (M : tensor C).
Context (Sm : tshape mask = ns) (Hc : basis_orbitals 1 K B mask c)
  (H_linl : forall k a a' b s s', H k (fun g => s * a g + s' * a' g)%C b = (Cconj s * H k a b + Cconj s' * H k a' b)%C)
  (H_extl : forall k a a' b, (forall g, inb g ns -> a g = a' g) -> H k a b = H k a' b)
  (HM : matrix c = Ok M)
  (VM : forall k i j, (k < K)%nat -> (i < B)%nat -> (j < B)%nat -> tget M [0%nat; k; i; j] = H k (orb c k i) (orb c k j) /\ tget M [0%nat; k; j; i] = Cconj (tget M [0%nat; k; i; j]))
  (VS : forall f M', matrix (stack_bands B c f) = Ok M' -> forall k b b', (k < K)%nat -> (b < B)%nat -> (b' < B)%nat -> tget M' [0%nat; k; (B + b)%nat; b'] = H k (orb f k b) (orb c k b'))
  (min_turn : forall h e, turnable ns K B h c e -> (forall k b g, (k < K)%nat -> (b < B)%nat -> h k b = true -> inb g ns -> tget mask g = false -> orb e k b g = RtoC 0) ->
    sumR (seq 0 K) (fun k => sumR (seq 0 B) (fun b => picked h occ k b * (2 * Re (H k (orb e k b) (orb c k b))))) = 0).

Lemma form_scall k a b s : H k (fun g => s * a g)%C b = (Cconj s * H k a b)%C.
Proof.
  transitivity (H k (fun g => s * a g + RtoC 0 * a g)%C b); [apply H_extl; intros; ring|]. rewrite H_linl, Cconj_R. ring.
Qed.
Lemma form_sum k m (w : nat -> C) (a : nat -> list nat -> C) b : H k (fun g => sumC (seq 0 m) (fun j => w j * a j g))%C b = sumC (seq 0 m) (fun j => Cconj (w j) * H k (a j) b)%C.
Proof.
  generalize (seq 0 m). intros l. induction l as [|j l IH]; cbn [sumC].
  - transitivity (H k (fun g => RtoC 0 * RtoC 0)%C b); [apply H_extl; intros; ring|]. rewrite (form_scall k (fun _ => RtoC 0)), Cconj_R. ring.
  - transitivity (H k (fun g => w j * a j g + RtoC 1 * sumC l (fun j0 => w j0 * a j0 g))%C b); [apply H_extl; intros; ring|]. rewrite H_linl, IH, Cconj_R. ring.
Qed.

(** Directions orthogonal to all orbitals of the k-point. *)
Lemma outward_unit k0 b0 (a : list nat -> C) : (k0 < K)%nat -> (b0 < B)%nat -> tget occ [0%nat; k0; b0] <> 0 ->
  (forall g, inb g ns -> tget mask g = false -> a g = RtoC 0) -> (forall b, (b < B)%nat -> vdot ns a (orb c k0 b) = RtoC 0) -> vdot ns a a = RtoC 1 -> Re (H k0 a (orb c k0 b0)) = 0.
Proof.
  intros Hk Hb Ho Ha Hoa Hn. set (h := fun k b => (Nat.eqb k k0 && Nat.eqb b b0)%bool). set (e := mkT (tshape c) (fun i => a (skipn 3 i))).
  assert (Oe : forall k b, orb e k b = a) by reflexivity.
  assert (Hh : forall k b, h k b = true <-> k = k0 /\ b = b0) by (intros k b; unfold h; rewrite andb_true_iff, !Nat.eqb_eq; reflexivity).
  assert (Ht : turnable ns K B h c e).
  { intros k b b' Hk1 Hb1 Hb1' E1. apply Hh in E1. destruct E1 as [-> ->]. rewrite !Oe. split.
    - intros E2. apply Hh in E2. destruct E2 as [_ ->]. rewrite Nat.eqb_refl, Hn. split; [reflexivity|]. rewrite <- (vdot_conj ns a), Hoa, Cconj_R by assumption. ring.
    - intros _. apply Hoa. assumption. }
  pose proof (min_turn h e Ht ltac:(intros k b g _ _ _ Hg1 Hm1; rewrite Oe; apply Ha; assumption)) as S.
  rewrite (sumR_single (seq 0 K) k0) in S; [|apply seq_NoDup|apply in_seq; lia|].
  - rewrite (sumR_single (seq 0 B) b0) in S; [|apply seq_NoDup|apply in_seq; lia|].
    + unfold picked in S. rewrite (proj2 (Hh k0 b0)) in S by auto. rewrite Oe in S. apply Rmult_integral in S. destruct S as [S|S]; [contradiction|lra].
    + intros b _ Nb. unfold picked. destruct (h k0 b) eqn:E; [apply Hh in E; tauto|ring].
  - intros k _ Nk. apply sumR_zero. intros b _. unfold picked. destruct (h k b) eqn:E; [apply Hh in E; tauto|ring].
Qed.

Lemma outward_re k0 b0 (a : list nat -> C) : (k0 < K)%nat -> (b0 < B)%nat -> tget occ [0%nat; k0; b0] <> 0 ->
  (forall g, inb g ns -> tget mask g = false -> a g = RtoC 0) -> (forall b, (b < B)%nat -> vdot ns a (orb c k0 b) = RtoC 0) -> Re (H k0 a (orb c k0 b0)) = 0.
Proof.
  intros Hk Hb Ho Ha Hoa. set (n := sumR (indices ns) (fun g => Cnorm2 (a g))). assert (Hn : 0 <= n) by (apply sumR_nonneg; intros; apply Cnorm2_nonneg).
  destruct (Req_dec n 0) as [Z|NZ].
  - assert (Za : forall g, inb g ns -> a g = RtoC 0) by (apply vdot_zero; rewrite vdot_self; fold n; rewrite Z; reflexivity).
    assert (E : H k0 a (orb c k0 b0) = RtoC 0).
    { rewrite (H_extl _ a (fun g => RtoC 0 * a g)%C) by (intros g Hg1; rewrite Za by exact Hg1; ring). rewrite form_scall, Cconj_R. ring. }
    rewrite E. reflexivity.
  - assert (Pn : 0 < sqrt n) by (apply sqrt_lt_R0; lra).
    assert (U : Re (H k0 (fun g => RtoC (/ sqrt n) * a g)%C (orb c k0 b0)) = 0).
    { apply outward_unit; try assumption.
      - intros g Hg1 Hm1. rewrite Ha by assumption. ring.
      - intros b Hb1. rewrite vdot_scall, Hoa by assumption. ring.
      - rewrite vdot_scall, vdot_scal, vdot_self, Cconj_R. fold n. rewrite <- !RtoC_mult. f_equal. rewrite <- (sqrt_sqrt n Hn) at 3. field. lra. }
    rewrite form_scall, Cconj_R, Re_scal_R in U. apply Rmult_integral in U. destruct U as [U|U]; [|exact U].
    exfalso. pose proof (Rinv_0_lt_compat _ Pn). lra.
Qed.

Lemma outward_zero k0 b0 (a : list nat -> C) : (k0 < K)%nat -> (b0 < B)%nat -> tget occ [0%nat; k0; b0] <> 0 ->
  (forall g, inb g ns -> tget mask g = false -> a g = RtoC 0) -> (forall b, (b < B)%nat -> vdot ns a (orb c k0 b) = RtoC 0) -> H k0 a (orb c k0 b0) = RtoC 0.
Proof.
  intros Hk Hb Ho Ha Hoa. pose proof (outward_re k0 b0 a Hk Hb Ho Ha Hoa) as R1.
  assert (R2 : Re (H k0 (fun g => Ci * a g)%C (orb c k0 b0)) = 0).
  { apply outward_re; try assumption; [intros g Hg1 Hm1; rewrite Ha by assumption; ring|intros b Hb1; rewrite vdot_scall, Hoa by assumption; ring]. }
  rewrite form_scall in R2. set (z := H _ _ _) in *. destruct z as [p q]. unfold Re, Cconj, Ci, Cmult in *. cbn [fst snd] in *. unfold RtoC. f_equal; lra.
Qed.

(** Two orbitals of one k-point with different occupations. *)
Lemma pair_re k0 b1 b2 (z : C) : (k0 < K)%nat -> (b1 < B)%nat -> (b2 < B)%nat -> tget occ [0%nat; k0; b1] <> tget occ [0%nat; k0; b2] -> Cnorm2 z = 1 ->
  H k0 (orb c k0 b1) (orb c k0 b2) = Cconj (H k0 (orb c k0 b2) (orb c k0 b1)) -> Re (Cconj z * H k0 (orb c k0 b2) (orb c k0 b1))%C = 0.
Proof.
  intros Hk H1 H2 No Hz Hh. assert (N : b1 <> b2) by congruence.
  destruct Hc as (_ & Oc & Mc). rewrite Sm in Oc, Mc.
  assert (O : forall b b', (b < B)%nat -> (b' < B)%nat -> vdot ns (orb c k0 b) (orb c k0 b') = RtoC (if Nat.eqb b b' then 1 else 0)).
  { intros b b' Hb Hb'. apply (Oc [0%nat; k0] b b'); [repeat constructor; lia|assumption|assumption]. }
  set (h := fun k b => (Nat.eqb k k0 && (Nat.eqb b b1 || Nat.eqb b b2))%bool).
  set (e := mkT (tshape c) (fun i => if Nat.eqb (nth 2 i 0%nat) b1 then z * orb c k0 b2 (skipn 3 i) else - Cconj z * orb c k0 b1 (skipn 3 i))%C).
  assert (Hh' : forall k b, h k b = true <-> k = k0 /\ (b = b1 \/ b = b2)) by (intros k b; unfold h; rewrite andb_true_iff, orb_true_iff, !Nat.eqb_eq; reflexivity).
  assert (E1 : forall g, orb e k0 b1 g = (z * orb c k0 b2 g)%C) by (intros g; unfold orb, e; cbn [tget app nth skipn]; rewrite Nat.eqb_refl; reflexivity).
  assert (E2 : forall g, orb e k0 b2 g = (- Cconj z * orb c k0 b1 g)%C) by (intros g; unfold orb, e; cbn [tget app nth skipn]; rewrite (proj2 (Nat.eqb_neq b2 b1)) by congruence; reflexivity).
  assert (D1 : forall b, (b < B)%nat -> vdot ns (orb e k0 b1) (orb c k0 b) = (Cconj z * RtoC (if Nat.eqb b2 b then 1 else 0))%C).
  { intros b Hb. rewrite (vdot_ext ns _ (fun g => z * orb c k0 b2 g)%C _ (orb c k0 b)) by (intros; rewrite ?E1; reflexivity). rewrite vdot_scall, O by assumption. reflexivity. }
  assert (D2 : forall b, (b < B)%nat -> vdot ns (orb e k0 b2) (orb c k0 b) = (- z * RtoC (if Nat.eqb b1 b then 1 else 0))%C).
  { intros b Hb. rewrite (vdot_ext ns _ (fun g => - Cconj z * orb c k0 b1 g)%C _ (orb c k0 b)) by (intros; rewrite ?E2; reflexivity). rewrite vdot_scall, O by assumption. rewrite Cconj_opp, Cconj_conj. reflexivity. }
  assert (Zz : (Cconj z * z)%C = RtoC 1) by (rewrite Cconj_mult_self, Hz; reflexivity).
  assert (F1 : forall u, vdot ns u (orb e k0 b1) = (z * vdot ns u (orb c k0 b2))%C) by (intros u; rewrite (vdot_ext ns u u _ (fun g => z * orb c k0 b2 g)%C) by (intros; rewrite ?E1; reflexivity); apply vdot_scal).
  assert (F2 : forall u, vdot ns u (orb e k0 b2) = (- Cconj z * vdot ns u (orb c k0 b1))%C) by (intros u; rewrite (vdot_ext ns u u _ (fun g => - Cconj z * orb c k0 b1 g)%C) by (intros; rewrite ?E2; reflexivity); apply vdot_scal).
  assert (N12 : Nat.eqb b1 b2 = false) by (apply Nat.eqb_neq; exact N). assert (N21 : Nat.eqb b2 b1 = false) by (apply Nat.eqb_neq; congruence).
  assert (Ht : turnable ns K B h c e).
  { intros k b b' Hk1 Hb1 Hb1' X1. apply Hh' in X1. destruct X1 as [-> X1]. split.
    - intros X2. apply Hh' in X2. destruct X2 as [_ X2]. destruct X1 as [->| ->], X2 as [->| ->].
      + rewrite F1, F1, D1, O, Nat.eqb_refl, N12, Nat.eqb_refl, D1, N21 by assumption. split; [|ring]. transitivity ((Cconj z * z) * RtoC 1)%C; [ring|]. rewrite Zz. ring.
      + rewrite F2, F2, D1, O, N21, Nat.eqb_refl, N12, D1, Nat.eqb_refl by assumption. split; [ring|ring].
      + rewrite F1, F1, D2, O, N21, N12, Nat.eqb_refl, D2, Nat.eqb_refl by assumption. split; [ring|ring].
      + rewrite F2, F2, D2, O, !Nat.eqb_refl, N21, D2, N12 by assumption. split; [|ring]. transitivity ((Cconj z * z) * RtoC 1)%C; [ring|]. rewrite Zz. ring.
    - intros X2. assert (Nb : b' <> b1 /\ b' <> b2) by (split; intros ->; rewrite (proj2 (Hh' k0 _)) in X2 by auto; discriminate).
      destruct X1 as [->| ->]; [rewrite D1 by assumption|rewrite D2 by assumption]; [rewrite (proj2 (Nat.eqb_neq b2 b')) by (intros <-; tauto)|rewrite (proj2 (Nat.eqb_neq b1 b')) by (intros <-; tauto)]; ring. }
  assert (Hm : forall k b g, (k < K)%nat -> (b < B)%nat -> h k b = true -> inb g ns -> tget mask g = false -> orb e k b g = RtoC 0).
  { intros k b g Hk1 Hb1 X1 Hg1 Hm1. apply Hh' in X1. destruct X1 as [-> X1].
    destruct X1 as [->| ->]; [rewrite E1|rewrite E2]; unfold orb; rewrite (Mc [0%nat; k0; _] g) by (try assumption; repeat constructor; lia); ring. }
  pose proof (min_turn h e Ht Hm) as S.
  rewrite (sumR_single (seq 0 K) k0) in S; [|apply seq_NoDup|apply in_seq; lia|].
  - rewrite (sum_two B b1 b2) in S; [|assumption|assumption|assumption|].
    + unfold picked in S. rewrite (proj2 (Hh' k0 b1)), (proj2 (Hh' k0 b2)) in S by auto.
      
      rewrite (H_extl _ (orb e k0 b1) (fun g => z * orb c k0 b2 g)%C), (H_extl _ (orb e k0 b2) (fun g => - Cconj z * orb c k0 b1 g)%C) in S by (intros; first [apply E1|apply E2]).
      rewrite !form_scall, Hh, Cconj_opp, Cconj_conj in S. clear Hh. set (X := H _ (orb c k0 b2) (orb c k0 b1)) in S |- *.
      replace (Re (- z * Cconj X)%C) with (- Re (Cconj z * X)%C) in S by (destruct z, X; unfold Re, Cconj, Copp, Cmult; cbn [fst snd]; ring).
      assert (S' : (tget occ [0%nat; k0; b1] - tget occ [0%nat; k0; b2]) * Re (Cconj z * X)%C = 0) by lra.
      apply Rmult_integral in S'. destruct S' as [S'|S']; [exfalso; apply No; lra|exact S'].
    + intros b _ Nb1 Nb2. unfold picked. destruct (h k0 b) eqn:X; [apply Hh' in X; tauto|ring].
  - intros k _ Nk. apply sumR_zero. intros b _. unfold picked. destruct (h k b) eqn:X; [apply Hh' in X; tauto|ring].
Qed.

Lemma stationary_orbitals : kohn_sham_orbitals matrix ns K B mask c occ.
Proof.
  exists M. split; [exact HM|].
  split.
  - intros k b b' Hk Hb Hb' No. destruct (VM k b' b Hk Hb' Hb) as (-> & E2). destruct (VM k b b' Hk Hb Hb') as (E3 & _).
    rewrite E3 in E2.
    assert (C1 : Cnorm2 (RtoC 1) = 1) by (unfold Cnorm2, RtoC; cbn; ring). assert (C2 : Cnorm2 Ci = 1) by (unfold Cnorm2, Ci; cbn; ring).
    pose proof (pair_re k b b' (RtoC 1) Hk Hb Hb' No C1 E2) as R1. pose proof (pair_re k b b' Ci Hk Hb Hb' No C2 E2) as R2.
    set (X := H k (orb c k b') (orb c k b)) in *. destruct X as [p q]. unfold Re, Cconj, Ci, Cmult, RtoC in *. cbn [fst snd] in *. f_equal; lra.
  - intros f M' Hf HM' k b Hk Hb Ho. rewrite (VS f M' HM' k b b Hk Hb Hb).
    destruct Hc as (_ & Oc & Mc). rewrite Sm in Oc, Mc.
    assert (O : forall i j, (i < B)%nat -> (j < B)%nat -> vdot ns (orb c k i) (orb c k j) = RtoC (if Nat.eqb i j then 1 else 0)).
    { intros i j Hi Hj. apply (Oc [0%nat; k] i j); [repeat constructor; lia|assumption|assumption]. }
    set (w0 := fun j => vdot ns (orb c k j) (orb f k b)).
    set (p := fun g => sumC (seq 0 B) (fun j => w0 j * orb c k j g)%C). set (a := fun g => (RtoC 1 * orb f k b g + RtoC (-1) * p g)%C).
    assert (Za : H k a (orb c k b) = RtoC 0).
    { apply outward_zero; try assumption.
      - intros g Hg1 Hm1. unfold a, orb at 1. rewrite (Hf k b g Hk Hb Hg1 Hm1). unfold p. rewrite sumC_zero; [ring|]. intros j Hj. apply in_seq in Hj. unfold orb. rewrite (Mc [0%nat; k; j] g) by (try assumption; repeat constructor; lia). ring.
      - intros j Hj. unfold a. rewrite vdot_linl, !Cconj_R. rewrite <- (vdot_conj ns (orb c k j) p). unfold p. rewrite vdot_sum.
        rewrite (sumC_single (seq 0 B) j); [|apply seq_NoDup|apply in_seq; lia|].
        + rewrite O, Nat.eqb_refl by assumption. unfold w0. rewrite Cconj_mult, vdot_conj, Cconj_R.
          replace (RtoC (-1)) with (- RtoC 1)%C by (unfold Copp, RtoC; cbn; f_equal; ring). ring.
        + intros i Hi Ni. apply in_seq in Hi. rewrite O by lia. rewrite (proj2 (Nat.eqb_neq j i)) by congruence. ring. }
    unfold a in Za. rewrite H_linl, !Cconj_R in Za. unfold p in Za. rewrite form_sum in Za.
    transitivity (sumC (seq 0 B) (fun j => Cconj (w0 j) * H k (orb c k j) (orb c k b))%C).
    + set (X := H _ (orb f k b) _) in *. set (Y := sumC _ _) in *. replace (RtoC (-1)) with (- RtoC 1)%C in Za by (unfold Copp, RtoC; cbn; f_equal; ring).
      transitivity ((RtoC 1 * X + - RtoC 1 * Y) + Y)%C; [ring|rewrite Za; ring].
    + apply sumC_ext. intros j Hj. apply in_seq in Hj. destruct (VM k j b Hk ltac:(lia) Hb) as (-> & _). unfold w0. rewrite vdot_conj. reflexivity.
Qed.
End Orbitals.

Lemma place_sum K B k b : (k < K)%nat -> (b < B)%nat -> sumR (indices [1%nat; K; B]) (one_at k b) = 1.
Proof.
  intros Hk Hb. rewrite (sumR_single _ [0%nat; k; b]); [unfold one_at; destruct (list_eq_dec _ _ _); [reflexivity|congruence]|apply NoDup_indices|apply in_indices; repeat constructor; lia|].
  intros i _ Hi. unfold one_at. destruct (list_eq_dec _ _ _); [congruence|reflexivity].
Qed.
Lemma place_pick K B k b (f : nat -> nat -> R) : (k < K)%nat -> (b < B)%nat -> sumR (seq 0 K) (fun k' => sumR (seq 0 B) (fun b' => one_at k b [0%nat; k'; b'] * f k' b')) = f k b.
Proof.
  intros Hk Hb. rewrite (sumR_single (seq 0 K) k); [|apply seq_NoDup|apply in_seq; lia|].
  - rewrite (sumR_single (seq 0 B) b); [|apply seq_NoDup|apply in_seq; lia|].
    + unfold one_at. destruct (list_eq_dec _ _ _); [ring|congruence].
    + intros b' _ N. unfold one_at. destruct (list_eq_dec _ _ _) as [E|]; [injection E as E; congruence|ring].
  - intros k' _ N. apply sumR_zero. intros b' _. unfold one_at. destruct (list_eq_dec _ _ _) as [E|]; [injection E as E1 E2; congruence|ring].
Qed.

Section Filling.
Context (c : tensor C) (occ : tensor R) (K B : nat) (w : R) (M : tensor C) (matrix : tensor C -> res (tensor C)) (F : tensor R -> R).
Context (So : tshape occ = [1%nat; K; B]) (Hw : within 0 w occ) (HM : matrix c = Ok M)
  (HE : forall o : tensor R, is_derive (fun t : R => F (mkT (tshape occ) (fun i => tget occ i + t * tget o i))) 0 (sumR (seq 0 K) (fun k => sumR (seq 0 B) (fun b => tget o [0%nat; k; b] * Re (tget M [0%nat; k; b; b])))))
  (Hmin : forall occ', tshape occ' = [1%nat; K; B] -> within 0 w occ' -> total occ' = total occ -> F occ <= F occ').

Lemma lower_levels : forall k b k' b', (k < K)%nat -> (b < B)%nat -> (k' < K)%nat -> (b' < B)%nat -> 0 < tget occ [0%nat; k; b] -> tget occ [0%nat; k'; b'] < w ->
  Re (tget M [0%nat; k; b; b]) <= Re (tget M [0%nat; k'; b'; b']).
Proof.
  intros k b k' b' Hk Hb Hk' Hb' Po Lo.
  destruct (list_eq_dec Nat.eq_dec [0%nat; k; b] [0%nat; k'; b']) as [E|Ne]; [injection E as -> ->; lra|].
  set (o := mkT [1%nat; K; B] (fun i => one_at k' b' i - one_at k b i)).
  pose proof (HE o) as DE. set (E := fun t : R => F (mkT (tshape occ) (fun i => tget occ i + t * tget o i))) in DE.
  assert (V : sumR (seq 0 K) (fun k0 => sumR (seq 0 B) (fun b0 => tget o [0%nat; k0; b0] * Re (tget M [0%nat; k0; b0; b0]))) = Re (tget M [0%nat; k'; b'; b']) - Re (tget M [0%nat; k; b; b])).
  { rewrite <- (place_pick K B k' b' (fun k0 b0 => Re (tget M [0%nat; k0; b0; b0])) Hk' Hb'), <- (place_pick K B k b (fun k0 b0 => Re (tget M [0%nat; k0; b0; b0])) Hk Hb).
    unfold Rminus. rewrite <- sumR_opp, <- sumR_plus. apply sumR_ext. intros k0 _. rewrite <- sumR_opp, <- sumR_plus. apply sumR_ext. intros b0 _. unfold o. cbn [tget]. ring. }
  rewrite V in DE.
  set (h := Rmin (tget occ [0%nat; k; b]) (w - tget occ [0%nat; k'; b'])). assert (Hh : 0 < h) by (unfold h; apply Rmin_glb_lt; lra).
  enough (0 <= Re (tget M [0%nat; k'; b'; b']) - Re (tget M [0%nat; k; b; b])) by lra.
  apply (slope_right E _ h DE Hh). intros t (Ht0 & Ht1).
  assert (T1 : h <= tget occ [0%nat; k; b]) by apply Rmin_l. assert (T2 : h <= w - tget occ [0%nat; k'; b']) by apply Rmin_r.
  assert (Z : E 0 = F occ).
  { unfold E. f_equal. destruct occ as [s f]. cbn [tshape tget]. f_equal. apply functional_extensionality. intros i. ring. }
  assert (Ne' : forall i, one_at k b i = 1 -> one_at k' b' i = 1 -> False).
  { intros i. unfold one_at. destruct (list_eq_dec _ i [0%nat; k; b]); destruct (list_eq_dec _ i [0%nat; k'; b']); intros; try lra. congruence. }
  rewrite Z. apply (Hmin (mkT (tshape occ) (fun i => tget occ i + t * tget o i))).
  - exact So.
  - intros i Hi. cbn [tshape tget] in *. pose proof (Hw i Hi) as Wi. unfold o. cbn [tget]. unfold one_at.
    destruct (list_eq_dec _ i [0%nat; k; b]) as [E1|E1]; destruct (list_eq_dec _ i [0%nat; k'; b']) as [E2|E2].
    + exfalso. congruence.
    + rewrite E1 in *. lra.
    + rewrite E2 in *. lra.
    + lra.
  - apply (total_shift occ o K B t So). unfold o. cbn [tget]. unfold Rminus. rewrite sumR_plus, sumR_opp, !place_sum by assumption. ring.
Qed.

Lemma lower_filling : filled_from_below matrix K B w c occ.
Proof.
  pose proof lower_levels as HL.
  destruct (separate (list_prod (seq 0 K) (seq 0 B)) (fun p => Re (tget M [0%nat; fst p; snd p; snd p])) (fun p => 0 < tget occ [0%nat; fst p; snd p]) (fun p => tget occ [0%nat; fst p; snd p] < w)) as (mu & Hmu).
  - intros x. apply Rlt_dec.
  - intros [k b] [k' b'] H1 H2 P Q. apply in_prod_iff in H1, H2. destruct H1 as [H1 H3], H2 as [H2 H4]. apply in_seq in H1, H2, H3, H4. cbn [fst snd] in *. apply HL; try assumption; lia.
  - exists M, mu. split; [exact HM|]. intros k b Hk Hb. destruct (Hmu (k, b)) as (H1 & H2); [apply in_prod_iff; split; apply in_seq; lia|]. cbn [fst snd] in *.
    assert (W : 0 <= tget occ [0%nat; k; b] <= w) by (apply Hw; rewrite So; repeat constructor; lia). split; intros L.
    + destruct (Req_dec (tget occ [0%nat; k; b]) w) as [|N]; [assumption|]. assert (mu <= Re (tget M [0%nat; k; b; b])) by (apply H2; lra). lra.
    + destruct (Req_dec (tget occ [0%nat; k; b]) 0) as [|N]; [assumption|]. assert (Re (tget M [0%nat; k; b; b]) <= mu) by (apply H1; lra). lra.
Qed.
End Filling.
