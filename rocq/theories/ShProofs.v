(** The standard spherical harmonics satisfy the conjugation symmetry and the addition theorem, for
    every l.  The derivatives of the Legendre polynomials are computed by a recursion on the order
    of the derivative; the sum over m then satisfies Bonnet's recursion. *)
From Coq Require Import Reals Lra Lia.
From Coquelicot Require Import Coquelicot.
From Coq Require Import List Arith ZArith Bool.
From Verif Require Import Base Sums SphModel SphSpec SphProofs.
Import ListNotations.
Local Open Scope R_scope.

(** ** Derivatives of the Legendre polynomials *)
Lemma legendre_snd l x : snd (legendre_pair l x) = legendre (S l) x.
Proof. unfold legendre. cbn [legendre_pair]. destruct (legendre_pair l x) as [p q]. reflexivity. Qed.
Lemma legendre_bonnet l x : (INR l + 2) * legendre (S (S l)) x = (2 * INR l + 3) * x * legendre (S l) x - (INR l + 1) * legendre l x.
Proof.
  rewrite <- (legendre_snd (S l)). cbn [legendre_pair]. rewrite <- (legendre_snd l). unfold legendre. destruct (legendre_pair l x) as [p q]. cbn [fst snd].
  pose proof (pos_INR l). field. lra.
Qed.
(** The pair (D (S m) l, D (S m) (S l)) from D m: D (S m) (l+2) = D (S m) l + (2l+3) D m (l+1). *)
Fixpoint up_pair (f : nat -> R -> R) (l : nat) (x : R) : R * R :=
  match l with
  | O => (0, f 0%nat x)
  | S l' => let '(p, q) := up_pair f l' x in (q, p + (2 * INR l' + 3) * f (S l') x)
  end.
Fixpoint D (m : nat) : nat -> R -> R :=
  match m with O => legendre | S m' => fun l x => fst (up_pair (D m') l x) end.
Lemma up_snd f l x : snd (up_pair f l x) = fst (up_pair f (S l) x).
Proof. cbn [up_pair]. destruct (up_pair f l x). reflexivity. Qed.
Lemma D_0 m x : D (S m) 0 x = 0.
Proof. reflexivity. Qed.
Lemma D_1 m x : D (S m) 1 x = D m 0 x.
Proof. reflexivity. Qed.
Lemma D_SS m l x : D (S m) (S (S l)) x = D (S m) l x + (2 * INR l + 3) * D m (S l) x.
Proof.
  change (fst (up_pair (D m) (S (S l)) x) = fst (up_pair (D m) l x) + (2 * INR l + 3) * D m (S l) x).
  rewrite <- up_snd. cbn [up_pair]. destruct (up_pair (D m) l x) as [p q]. reflexivity.
Qed.
Lemma two_step (P : nat -> Prop) : P 0%nat -> P 1%nat -> (forall l, P l -> P (S l) -> P (S (S l))) -> forall l, P l.
Proof. intros H0 H1 H l. cut (P l /\ P (S l)); [tauto|]. induction l as [|l [A B]]; [tauto|]. split; [exact B|]. apply H; assumption. Qed.
Lemma m_D_0 m x : INR m * D m 0 x = 0.
Proof. destruct m; [cbn; ring|rewrite D_0; ring]. Qed.

Definition three_term m := forall x, x * D m 0 x = (1 - INR m) * D m 1 x /\
  forall l, (2 * INR l + 3) * x * D m (S l) x = (INR l + 2 - INR m) * D m (S (S l)) x + (INR l + 1 + INR m) * D m l x.
Lemma lower m : three_term m -> forall x l, x * D (S m) (S l) x = D (S m) l x + (INR l + 1 - INR m) * D m (S l) x.
Proof.
  intros H x. destruct (H x) as [H0 H1]. apply two_step.
  - rewrite D_1, D_0, H0. cbn [INR]. ring.
  - rewrite D_SS, D_0, D_1. pose proof (H1 0%nat) as A. pose proof (m_D_0 m x) as B. cbn [INR] in A |- *. lra.
  - intros l A _. rewrite (D_SS m (S l)). rewrite (D_SS m l). pose proof (H1 (S l)) as B. rewrite !S_INR in B. rewrite !S_INR.
    transitivity (x * D (S m) (S l) x + (2 * (INR l + 1) + 3) * x * D m (S (S l)) x); [ring|]. rewrite A, B. ring.
Qed.
Lemma three_terms m : three_term m.
Proof.
  induction m as [|m IH]; intros x.
  - split; [unfold legendre; cbn; ring|]. intros l. pose proof (legendre_bonnet l x) as B. cbn [D INR]. lra.
  - split; [rewrite D_0, D_1; pose proof (m_D_0 m x) as B; rewrite S_INR; lra|]. intros l. pose proof (lower m IH x l) as A. rewrite (D_SS m l), S_INR.
    transitivity ((2 * INR l + 3) * (x * D (S m) (S l) x)); [ring|]. rewrite A. ring.
Qed.
Lemma upper m x l : D (S m) (S l) x = x * D (S m) l x + (INR l + 1 + INR m) * D m l x.
Proof.
  destruct l as [|l].
  - rewrite D_1, D_0. pose proof (m_D_0 m x). cbn [INR]. lra.
  - rewrite D_SS, (lower m (three_terms m)). rewrite S_INR. ring.
Qed.
(** (2l+3) (1 - x^2) D_(m+1) (l+1) *)
Lemma raise_m m x l : (2 * INR l + 3) * (1 - x ^ 2) * D (S m) (S l) x =
  (INR l + 1 + INR m) * (INR l + 2 + INR m) * D m l x - (INR l + 1 - INR m) * (INR l + 2 - INR m) * D m (S (S l)) x.
Proof.
  destruct (three_terms m x) as [_ T]. specialize (T l). pose proof (lower m (three_terms m) x l) as A. pose proof (upper m x l) as B.
  assert (E : (1 - x ^ 2) * D (S m) (S l) x = (INR l + 1 + INR m) * D m l x - (INR l + 1 - INR m) * (x * D m (S l) x)).
  { transitivity (D (S m) (S l) x - x * (x * D (S m) (S l) x)); [ring|]. rewrite A. rewrite B at 1. ring. }
  transitivity ((2 * INR l + 3) * ((1 - x ^ 2) * D (S m) (S l) x)); [ring|]. rewrite E.
  transitivity ((2 * INR l + 3) * (INR l + 1 + INR m) * D m l x - (INR l + 1 - INR m) * ((2 * INR l + 3) * x * D m (S l) x)); [ring|]. rewrite T. ring.
Qed.
Lemma D_above m : forall l x, (l < m)%nat -> D m l x = 0.
Proof.
  induction m as [|m IH]; [lia|]. intros l x. revert l. refine (two_step _ _ _ _).
  - intros _. apply D_0.
  - intros H. rewrite D_1. apply IH. lia.
  - intros l A _ H. rewrite D_SS, A by lia. rewrite IH by lia. ring.
Qed.
Lemma bonnet_derive a b c (f g : R -> R) x f' g' : c <> 0 -> is_derive f x f' -> is_derive g x g' ->
  is_derive (fun t => (a * t * f t - b * g t) / c) x ((a * f x + a * x * f' - b * g') / c).
Proof.
  intros Hc F G. auto_derive.
  - repeat split; eexists; eassumption.
  - replace (Derive (fun t : R => f t) x) with f' by (symmetry; apply is_derive_unique; exact F).
    replace (Derive (fun t : R => g t) x) with g' by (symmetry; apply is_derive_unique; exact G). field. exact Hc.
Qed.
Lemma D_derive m : forall l x, is_derive (D m l) x (D (S m) l x).
Proof.
  induction m as [|m IH]; refine (two_step _ _ _ _).
  - intros x. apply (is_derive_ext (fun _ => 1)); [reflexivity|]. rewrite D_0. apply (is_derive_const (V := R_NormedModule)).
  - intros x. apply (is_derive_ext (fun t => t)); [reflexivity|]. rewrite D_1. cbn [D]. unfold legendre. cbn. apply (is_derive_id (K := R_AbsRing)).
  - intros l A B x. pose proof (pos_INR l) as P.
    apply (is_derive_ext (fun t => ((2 * INR l + 3) * t * D 0 (S l) t - (INR l + 1) * D 0 l t) / (INR l + 2))).
    { intros t. cbn [D]. pose proof (legendre_bonnet l t) as E. apply (Rmult_eq_reg_l (INR l + 2)); [|lra]. rewrite E. field. lra. }
    assert (E : @eq R (((2 * INR l + 3) * D 0 (S l) x + (2 * INR l + 3) * x * D 1 (S l) x - (INR l + 1) * D 1 l x) / (INR l + 2)) (D 1 (S (S l)) x)).
    { pose proof (lower 0 (three_terms 0) x l) as L. rewrite (D_SS 0 l). cbn [INR] in L. change (R_AbsRing : Type) with R in x.
      transitivity (((2 * INR l + 3) * D 0 (S l) x + (2 * INR l + 3) * (x * D 1 (S l) x) - (INR l + 1) * D 1 l x) / (INR l + 2)); [field; lra|]. rewrite L. field. lra. }
    rewrite <- E. apply bonnet_derive; [lra|apply B|apply A].
  - intros x. apply (is_derive_ext (fun _ => 0)); [reflexivity|]. rewrite D_0. apply (is_derive_const (V := R_NormedModule)).
  - intros x. apply (is_derive_ext (D m 0)); [reflexivity|]. rewrite D_1. apply IH.
  - intros l A _ x. rewrite (D_SS (S m)). apply (is_derive_ext (fun t => D (S m) l t + (2 * INR l + 3) * D m (S l) t)); [intros t; symmetry; apply D_SS|].
    apply (is_derive_plus (V := R_NormedModule) (D (S m) l)); [apply A|]. apply (is_derive_scal (D m (S l))). apply IH.
Qed.
Lemma Derive_n_legendre l m x : Derive_n (legendre l) m x = D m l x.
Proof.
  revert x. induction m as [|m IH]; intros x; [reflexivity|]. cbn [Derive_n]. rewrite (Derive_ext _ (D m l)) by exact IH. apply is_derive_unique, D_derive.
Qed.

(** ** Bonnet's recursion for the sum over m *)
Definition cf (l m : nat) : R := INR (fact (l - m)) / INR (fact (l + m)).
(** The identity between the coefficients of cos(m delta), with A = D_m(L+1), B = D_m(L-1), X = x D_m(L), U = D_(m-1)(L), V = (1 - x^2) D_(m+1)(L). *)
Lemma algebra L m al be A B X U V A' B' X' U' V' : 0 < L - m -> 0 <= m -> 0 < L -> be <> 0 ->
  (2 * L + 1) * X = (L + 1 - m) * A + (L + m) * B -> (2 * L + 1) * X' = (L + 1 - m) * A' + (L + m) * B' ->
  (2 * L + 1) * U = A - B -> (2 * L + 1) * U' = A' - B' ->
  (2 * L + 1) * V = (L + m) * (L + 1 + m) * B - (L - m) * (L + 1 - m) * A -> (2 * L + 1) * V' = (L + m) * (L + 1 + m) * B' - (L - m) * (L + 1 - m) * A' ->
  (L + 1) * ((L - m + 1) * ((L - m) * al) / ((L + m + 1) * ((L + m) * be))) * A * A' =
  (2 * L + 1) * (((L - m) * al) / ((L + m) * be) * X * X' + / 2 * ((L - m + 1) * ((L - m) * al) / be * U * U' + al / ((L + m + 1) * ((L + m) * be)) * V * V')) - L * (al / be) * B * B'.
Proof.
  intros H1 H2 H3 H4 EX EX' EU EU' EV EV'.
  assert (N : 2 * L + 1 <> 0) by lra.
  assert (S : forall a b, (2 * L + 1) * a = b -> a = b / (2 * L + 1)) by (intros a b E; rewrite <- E; field; exact N).
  rewrite (S _ _ EX), (S _ _ EX'), (S _ _ EU), (S _ _ EU'), (S _ _ EV), (S _ _ EV'). field. repeat split; lra.
Qed.
Section Addition.
Variables x y sx sy delta : R.
Hypothesis Hx : sx ^ 2 = 1 - x ^ 2.
Hypothesis Hy : sy ^ 2 = 1 - y ^ 2.
Let s := sx * sy.
Definition am (l m : nat) : R := cf l m * D m l x * D m l y * (sx * sy) ^ m.
Lemma am_above l m : (l < m)%nat -> am l m = 0.
Proof. intros H. unfold am. rewrite D_above by exact H. ring. Qed.
Lemma fact_nz n : INR (fact n) <> 0.
Proof. apply INR_fact_neq_0. Qed.
Lemma fact_S' n : INR (fact (S n)) = (INR n + 1) * INR (fact n).
Proof. rewrite fact_simpl, mult_INR, S_INR. reflexivity. Qed.
(** m >= 1 *)
Lemma coeff_S l m : let L := S l in
  (INR L + 1) * am (S L) (S m) = (2 * INR L + 1) * (x * y * am L (S m) + / 2 * s * (am L m + am L (S (S m)))) - INR L * am l (S m).
Proof.
  intros L. destruct (lt_eq_lt_dec (S m) L) as [[H|H]|H].
  - (* S m < L *)
    assert (HL : exists n, L = (S m + S n)%nat) by (exists (L - S m - 1)%nat; lia). destruct HL as [n HL].
    pose proof (pos_INR m) as Pm. pose proof (pos_INR n) as Pn.
    assert (IL : INR L = INR (S m) + INR n + 1) by (rewrite HL, plus_INR, (S_INR n); ring).
    destruct (three_terms (S m) x) as [_ T]. destruct (three_terms (S m) y) as [_ T'].
    pose proof (raise_m (S m) x l) as V. pose proof (raise_m (S m) y l) as V'.
    pose proof (D_SS m l x) as U. pose proof (D_SS m l y) as U'. specialize (T l). specialize (T' l). 
    assert (Il : INR l = INR L - 1) by (unfold L; rewrite S_INR; ring).
    fold L in T, T', V, V', U, U'. rewrite Il in T, T', V, V', U, U'.
    unfold am, cf. replace (S L - S m)%nat with (S (S n)) by lia. replace (S L + S m)%nat with (S (S (l + S m))) by lia. replace (L - S m)%nat with (S n) by lia.
    replace (L + S m)%nat with (S (l + S m)) by lia. replace (L - m)%nat with (S (S n)) by lia. replace (L + m)%nat with (l + S m)%nat by lia. replace (L - S (S m))%nat with n by lia.
    replace (L + S (S m))%nat with (S (S (l + S m))) by lia. replace (l - S m)%nat with n by lia.
    rewrite !fact_S'. pose proof (fact_nz n) as Fn. pose proof (fact_nz (l + S m)) as Fl. set (al := INR (fact n)) in *. set (be := INR (fact (l + S m))) in *.
    replace (INR (S (l + S m))) with (INR L + INR (S m)) by (rewrite <- plus_INR; f_equal; lia).
    replace (INR (l + S m)) with (INR L + INR (S m) - 1) by (rewrite plus_INR; unfold L; rewrite (S_INR l); ring).
    replace (INR (S n)) with (INR L - INR (S m)) by (rewrite IL, (S_INR n); ring). replace (INR n) with (INR L - INR (S m) - 1) by (rewrite IL; ring).
    assert (Q := algebra (INR L) (INR (S m)) al be (D (S m) (S L) x) (D (S m) l x) (x * D (S m) L x) (D m L x) ((1 - x ^ 2) * D (S (S m)) L x)
      (D (S m) (S L) y) (D (S m) l y) (y * D (S m) L y) (D m L y) ((1 - y ^ 2) * D (S (S m)) L y)).
    rewrite <- Hx, <- Hy in *. rewrite S_INR in IL.
    specialize (Q ltac:(rewrite IL, S_INR; lra) ltac:(rewrite S_INR; lra) ltac:(rewrite IL; lra) Fl).
    specialize (Q ltac:(lra) ltac:(lra) ltac:(lra) ltac:(lra) ltac:(lra) ltac:(lra)).
    set (p := INR (S m)) in *. set (q := INR L) in *. cbn [pow]. 
    transitivity ((sx * sy) ^ m * (sx * sy) * ((q + 1) * ((q - p + 1) * ((q - p) * al) / ((q + p + 1) * ((q + p) * be))) * D (S m) (S L) x * D (S m) (S L) y)).
    { replace (q - p - 1 + 1) with (q - p) by ring. replace (q + p - 1 + 1) with (q + p) by ring. unfold Rdiv. ring. }
    rewrite Q. unfold s. replace (q - p - 1 + 1) with (q - p) by ring. replace (q + p - 1 + 1) with (q + p) by ring. unfold Rdiv. ring.
  - (* S m = L *)
    assert (Em : m = l) by (unfold L in H; lia). subst m. clear H. rewrite (am_above L (S (S l))), (am_above l (S l)) by lia.
    destruct (three_terms (S l) x) as [_ T]. destruct (three_terms (S l) y) as [_ T']. specialize (T l). specialize (T' l).
    pose proof (D_SS l l x) as U. pose proof (D_SS l l y) as U'. rewrite (D_above (S l) l) in T, T', U, U' by lia. rewrite S_INR in T, T'. fold L in T, T', U, U'.
    pose proof (pos_INR l) as P.
    assert (N : forall a b, (2 * INR l + 3) * a = b -> a = b / (2 * INR l + 3)) by (intros a b E; rewrite <- E; field; lra).
    unfold am, cf. replace (S L - S l)%nat with 1%nat by lia. replace (S L + S l)%nat with (S (S (l + L))) by lia. fold L. rewrite Nat.sub_diag.
    replace (L - l)%nat with 1%nat by lia. replace (L + L)%nat with (S (l + L)) by lia. replace (L + l)%nat with (l + L)%nat by lia.
    rewrite !fact_S'. change (INR (fact 1)) with 1. change (INR (fact 0)) with 1. pose proof (fact_nz (l + L)) as Fl. set (be := INR (fact (l + L))) in *.
    replace (INR (l + L)) with (2 * INR l + 1) by (unfold L; rewrite plus_INR, S_INR; ring). replace (INR (S (l + L))) with (2 * INR l + 2) by (unfold L; rewrite S_INR, plus_INR, S_INR; ring).
    replace (INR L) with (INR l + 1) by (unfold L; rewrite S_INR; reflexivity).
    set (A := D L (S L) x) in *. set (A' := D L (S L) y) in *.
    assert (X : x * D L L x = A / (2 * INR l + 3)) by (apply N; lra). assert (X' : y * D L L y = A' / (2 * INR l + 3)) by (apply N; lra).
    assert (V : D l L x = A / (2 * INR l + 3)) by (apply N; lra). assert (V' : D l L y = A' / (2 * INR l + 3)) by (apply N; lra).
    replace ((sx * sy) ^ L) with (s * s ^ l) by reflexivity. fold s. clearbody s. change (INR 0) with 0.
    transitivity (s * s ^ l * ((2 * (INR l + 1) + 1) * (1 / ((2 * INR l + 1 + 1) * be) * (x * D L L x) * (y * D L L y) + / 2 * (1 / be * D l L x * D l L y))));
      [|field; split; [exact Fl|lra]].
    rewrite X, X', V, V'. field. repeat split; try exact Fl; lra.
  - destruct (Nat.eq_dec (S m) (S L)) as [E|E].
    + injection E as ->. rewrite (am_above L (S L)), (am_above L (S (S L))), (am_above l (S L)) by lia.
      pose proof (D_SS L l x) as U. pose proof (D_SS L l y) as U'. rewrite (D_above (S L) l) in U, U' by lia. fold L in U, U'.
      pose proof (pos_INR l) as P. unfold am, cf. rewrite !Nat.sub_diag. replace (S L + S L)%nat with (S (S (L + L))) by lia. rewrite !fact_S'. change (INR (fact 0)) with 1.
      pose proof (fact_nz (L + L)) as Fl. set (be := INR (fact (L + L))) in *. rewrite U, U'.
      replace (INR (S (L + L))) with (2 * INR l + 3) by (rewrite S_INR, plus_INR; unfold L; rewrite S_INR; ring). replace (INR (L + L)) with (2 * INR l + 2) by (rewrite plus_INR; unfold L; rewrite S_INR; ring).
      replace (INR L) with (INR l + 1) by (unfold L; rewrite S_INR; reflexivity). cbn [pow]. fold s. field. repeat split; try exact Fl; lra.
    + rewrite (am_above (S L) (S m)), (am_above L (S m)), (am_above L m), (am_above L (S (S m))), (am_above l (S m)) by lia. ring.
Qed.
Lemma coeff_0 l : let L := S l in
  (INR L + 1) * am (S L) 0 = (2 * INR L + 1) * (x * y * am L 0 + s * am L 1) - INR L * am l 0.
Proof.
  intros L. destruct (three_terms 0 x) as [_ T]. destruct (three_terms 0 y) as [_ T']. specialize (T l). specialize (T' l).
  pose proof (raise_m 0 x l) as V. pose proof (raise_m 0 y l) as V'. fold L in T, T', V, V'. rewrite <- Hx in V. rewrite <- Hy in V'. cbn [INR] in T, T', V, V'.
  pose proof (pos_INR l) as P. unfold am, cf. rewrite !Nat.sub_0_r, !Nat.add_0_r. replace (L - 1)%nat with l by lia. replace (L + 1)%nat with (S (S l)) by lia. rewrite !fact_S'.
  pose proof (fact_nz l) as F1. pose proof (fact_nz L) as F2. pose proof (fact_nz (S L)) as F3. 
  replace (INR (fact (S L)) / INR (fact (S L))) with 1 by (field; exact F3). replace (INR (fact L) / INR (fact L)) with 1 by (field; exact F2). replace (INR (fact l) / INR (fact l)) with 1 by (field; exact F1).
  replace (INR (S l)) with (INR l + 1) by (rewrite S_INR; reflexivity). replace (INR L) with (INR l + 1) by (unfold L; rewrite S_INR; reflexivity).
  assert (N : forall a b, (2 * INR l + 3) * a = b -> a = b / (2 * INR l + 3)) by (intros a b E; rewrite <- E; field; lra).
  set (A := D 0 (S L) x) in *. set (A' := D 0 (S L) y) in *. set (B := D 0 l x) in *. set (B' := D 0 l y) in *.
  assert (X : x * D 0 L x = ((INR l + 2) * A + (INR l + 1) * B) / (2 * INR l + 3)) by (apply N; lra).
  assert (X' : y * D 0 L y = ((INR l + 2) * A' + (INR l + 1) * B') / (2 * INR l + 3)) by (apply N; lra).
  assert (W : sx ^ 2 * D 1 L x = (INR l + 1) * (INR l + 2) * (B - A) / (2 * INR l + 3)) by (apply N; lra).
  assert (W' : sy ^ 2 * D 1 L y = (INR l + 1) * (INR l + 2) * (B' - A') / (2 * INR l + 3)) by (apply N; lra).
  cbn [pow]. unfold s.
  transitivity ((2 * (INR l + 1) + 1) * ((x * D 0 L x) * (y * D 0 L y) + / ((INR l + 1 + 1) * (INR l + 1)) * (sx ^ 2 * D 1 L x) * (sy ^ 2 * D 1 L y)) - (INR l + 1) * B * B').
  - rewrite X, X', W, W'. field. repeat split; lra.
  - field. repeat split; try exact F1; lra.
Qed.

(** The sum over m >= 0, with weight 2 for m > 0, of terms a_m cos(m delta). *)
Definition ew (m : nat) : R := if (m =? 0)%nat then 1 else 2.
Definition cosum (N : nat) (a : nat -> R) : R := sumR (seq 0 N) (fun m => ew m * a m * cos (INR m * delta)).
Definition shifted (a : nat -> R) (m : nat) : R := match m with O => 2 * a 1%nat | S m' => a m' + a (S m) end.
Lemma cosum_S N a : cosum (S N) a = cosum N a + ew N * a N * cos (INR N * delta).
Proof. unfold cosum. rewrite seq_S, sumR_app. cbn [Nat.add sumR map fold_right]. unfold sumR. cbn [map fold_right]. ring. Qed.
Lemma cos_step N : 2 * cos delta * cos (INR (S N) * delta) = cos (INR (S (S N)) * delta) + cos (INR N * delta).
Proof.
  replace (INR (S (S N)) * delta) with (INR (S N) * delta + delta) by (rewrite (S_INR (S N)); ring). replace (INR N * delta) with (INR (S N) * delta - delta) by (rewrite (S_INR N); ring).
  rewrite cos_plus, cos_minus. ring.
Qed.
Lemma cosum_shift N a : 2 * cos delta * cosum (S N) a = cosum (S N) (shifted a) + 2 * a N * cos (INR (S N) * delta) - 2 * a (S N) * cos (INR N * delta).
Proof.
  induction N as [|N IH].
  - rewrite !cosum_S. unfold cosum, sumR. cbn [seq map fold_right ew Nat.eqb shifted INR]. replace (0 * delta) with 0 by ring. replace (1 * delta) with delta by ring. rewrite cos_0. ring.
  - rewrite (cosum_S (S N)), (cosum_S (S N) (shifted a)). rewrite Rmult_plus_distr_l, IH. cbn [ew Nat.eqb shifted]. pose proof (cos_step N) as E.
    transitivity (cosum (S N) (shifted a) + 2 * a N * cos (INR (S N) * delta) - 2 * a (S N) * cos (INR N * delta) + 2 * a (S N) * (2 * cos delta * cos (INR (S N) * delta))); [ring|]. rewrite E. ring.
Qed.
Lemma cosum_lin N a b p q : cosum N (fun m => p * a m + q * b m) = p * cosum N a + q * cosum N b.
Proof. unfold cosum. rewrite <- !sumR_scal, <- sumR_plus. apply sumR_ext. intros m _. ring. Qed.
Lemma cosum_ext N a b : (forall m, (m < N)%nat -> a m = b m) -> cosum N a = cosum N b.
Proof. intros H. apply sumR_ext. intros m Hm. apply in_seq in Hm. rewrite H by lia. reflexivity. Qed.
Lemma cosum_more N k a : (forall m, (N <= m)%nat -> a m = 0) -> cosum (N + k) a = cosum N a.
Proof. intros H. induction k as [|k IH]; [rewrite Nat.add_0_r; reflexivity|]. rewrite Nat.add_succ_r, cosum_S, IH, H by lia. ring. Qed.
Lemma sum_bonnet l : let F l := cosum (S l) (am l) in
  (INR l + 2) * F (S (S l)) = (2 * INR l + 3) * (x * y + s * cos delta) * F (S l) - (INR l + 1) * F l.
Proof.
  intros F. unfold F. set (N := S (S (S l))).
  rewrite <- (cosum_more (S (S l)) 1 (am (S l))) by (intros m Hm; apply am_above; lia). rewrite <- (cosum_more (S l) 2 (am l)) by (intros m Hm; apply am_above; lia).
  replace (S (S l) + 1)%nat with N by (unfold N; lia). replace (S l + 2)%nat with N by (unfold N; lia).
  pose proof (cosum_shift (S (S l)) (am (S l))) as E. fold N in E. rewrite !(am_above (S l)) in E by (unfold N; lia).
  assert (R1 : forall m, (INR l + 2) * am (S (S l)) m = (2 * INR l + 3) * (x * y * am (S l) m + / 2 * s * shifted (am (S l)) m) - (INR l + 1) * am l m).
  { intros [|m]; [pose proof (coeff_0 l) as Q|pose proof (coeff_S l m) as Q]; cbv zeta in Q; rewrite S_INR in Q; cbn [shifted]; lra. }
  transitivity (cosum N (fun m => (INR l + 2) * am (S (S l)) m + 0 * am l m)); [rewrite (cosum_lin N (am (S (S l))) (am l) (INR l + 2) 0); ring|].
  rewrite (cosum_ext N _ (fun m => (2 * INR l + 3) * (x * y * am (S l) m + / 2 * s * shifted (am (S l)) m) + - (INR l + 1) * am l m)) by (intros m _; rewrite R1; ring).
  rewrite (cosum_lin N (fun m => x * y * am (S l) m + / 2 * s * shifted (am (S l)) m) (am l) (2 * INR l + 3) (- (INR l + 1))).
  rewrite (cosum_lin N (am (S l)) (shifted (am (S l))) (x * y) (/ 2 * s)). replace (cosum N (shifted (am (S l)))) with (2 * cos delta * cosum N (am (S l))) by (rewrite E; ring). field.
Qed.
Lemma sum_legendre l : cosum (S l) (am l) = legendre l (x * y + s * cos delta).
Proof.
  revert l. refine (two_step _ _ _ _).
  - unfold cosum, sumR, am, cf, legendre. cbn. rewrite Rmult_0_l, cos_0. field.
  - unfold cosum, sumR, am, cf, ew. cbn [seq map fold_right Nat.eqb Nat.sub Nat.add fact Nat.mul INR pow D]. unfold legendre. cbn [legendre_pair fst]. replace (0 * delta) with 0 by ring. replace (1 * delta) with delta by ring. rewrite cos_0.
    cbn [up_pair legendre_pair fst]. unfold s. field.
  - intros l A B. pose proof (sum_bonnet l) as E. cbv beta zeta in E. rewrite A, B in E. pose proof (legendre_bonnet l (x * y + s * cos delta)) as Q. pose proof (pos_INR l).
    apply (Rmult_eq_reg_l (INR l + 2)); [|lra]. rewrite E, Q. ring.
Qed.
End Addition.

(** ** The standard harmonics *)
Lemma sum_ms l (f : Z -> C) : sumC (ms l) f = Cplus (f 0%Z) (sumC (seq 1 l) (fun m => Cplus (f (Z.of_nat m)) (f (- Z.of_nat m)%Z))).
Proof.
  induction l as [|l IH]; [unfold ms, sumC; cbn; ring|]. rewrite seq_S, sumC_app. cbn [Nat.add].
  assert (E : ms (S l) = (- Z.of_nat (S l))%Z :: ms l ++ [Z.of_nat (S l)]).
  { unfold ms. replace (2 * S l + 1)%nat with (S (2 * l + 1 + 1)) by lia. rewrite <- cons_seq, seq_app. cbn [map Nat.add]. rewrite map_app. f_equal. rewrite <- seq_shift, map_map. f_equal.
    - apply map_ext. intros j. lia.
    - cbn [seq map]. f_equal. lia. }
  rewrite E. replace (sumC ((- Z.of_nat (S l))%Z :: ms l ++ [Z.of_nat (S l)]) f) with (Cplus (f (- Z.of_nat (S l))%Z) (sumC (ms l ++ [Z.of_nat (S l)]) f)) by reflexivity.
  rewrite sumC_app, IH. unfold sumC at 2 4. cbn [map fold_right]. ring.
Qed.
Lemma sgn_pow m : (-1) ^ m * (-1) ^ m = 1.
Proof. rewrite <- pow_add. replace (m + m)%nat with (2 * m)%nat by lia. apply pow_1_even. Qed.
Lemma sqrt_sin p : 0 <= p <= PI -> sqrt (1 - cos p ^ 2) = sin p.
Proof.
  intros H. replace (1 - cos p ^ 2) with (Rsqr (sin p)) by (pose proof (sin2_cos2 p) as E; unfold Rsqr in *; cbn [pow]; lra). apply sqrt_Rsqr, sin_ge_0; lra.
Qed.
Definition hnorm (l m : nat) : R := (2 * INR l + 1) / (4 * PI) * (INR (fact (l - m)) / INR (fact (l + m))).
Lemma hnorm_nonneg l m : 0 <= hnorm l m.
Proof.
  pose proof PI_RGT_0. pose proof (pos_INR l). unfold hnorm, Rdiv. repeat apply Rmult_le_pos; try lra; try apply pos_INR; left; apply Rinv_0_lt_compat; [lra|]. apply INR_fact_lt_0.
Qed.
Lemma harmonic_product l m p a p' a' :
  Cmult (harmonic_nonneg l m p a) (Cconj (harmonic_nonneg l m p' a')) =
  Cmult (RtoC (hnorm l m * (assoc_legendre l m (cos p) * assoc_legendre l m (cos p')))) (cos (INR m * (a - a')), sin (INR m * (a - a'))).
Proof.
  unfold harmonic_nonneg. fold (hnorm l m). pose proof (sqrt_sqrt _ (hnorm_nonneg l m)) as Q. pose proof (sgn_pow m) as G.
  set (q := sqrt (hnorm l m)) in *. set (g := (-1) ^ m) in *. set (u := assoc_legendre l m (cos p)). set (v := assoc_legendre l m (cos p')). clearbody q g u v.
  replace (INR m * (a - a')) with (INR m * a - INR m * a') by ring. rewrite cos_minus, sin_minus.
  unfold Cmult, Cconj, RtoC. cbn [fst snd]. rewrite <- Q. apply injective_projections; cbn [fst snd].
  - transitivity ((g * g) * (q * q * (u * v)) * (cos (INR m * a) * cos (INR m * a') + sin (INR m * a) * sin (INR m * a'))); [ring|rewrite G; ring].
  - transitivity ((g * g) * (q * q * (u * v)) * (sin (INR m * a) * cos (INR m * a') - cos (INR m * a) * sin (INR m * a'))); [ring|rewrite G; ring].
Qed.
Lemma even_pow m : (0 <= m)%Z -> (if Z.even m then 1 else -1) = (-1) ^ Z.to_nat m.
Proof.
  intros H. rewrite <- (Z2Nat.id m H) at 1. generalize (Z.to_nat m). clear. intros n. induction n as [|n IH]; [reflexivity|].
  rewrite Nat2Z.inj_succ, Z.even_succ, <- Z.negb_even. cbn [pow]. rewrite <- IH. destruct (Z.even (Z.of_nat n)); cbn [negb]; ring.
Qed.
Lemma standard_symm l : conjugation_symmetry standard_harmonic l.
Proof.
  intros m p a Hm. rewrite even_pow by lia. unfold standard_harmonic. destruct (Z.leb_spec 0 m); [|lia]. destruct (Z.leb_spec 0 (- m)) as [H0|H0].
  - assert (m = 0)%Z as -> by lia. cbn [Z.opp Z.to_nat pow]. unfold harmonic_nonneg. cbn [INR]. rewrite Rmult_0_l, cos_0, sin_0. unfold Cmult, Cconj, RtoC. cbn [fst snd]. f_equal; ring.
  - rewrite Z.opp_involutive. reflexivity.
Qed.
Lemma standard_pos l m p a : standard_harmonic (Z.of_nat l) (Z.of_nat m) p a = harmonic_nonneg l m p a.
Proof. unfold standard_harmonic. destruct (Z.leb_spec 0 (Z.of_nat m)); [|lia]. rewrite !Nat2Z.id. reflexivity. Qed.
Lemma standard_neg l m p a : standard_harmonic (Z.of_nat l) (- Z.of_nat (S m)) p a = Cmult (RtoC ((-1) ^ S m)) (Cconj (harmonic_nonneg l (S m) p a)).
Proof. unfold standard_harmonic. destruct (Z.leb_spec 0 (- Z.of_nat (S m))); [lia|]. rewrite Z.opp_involutive, !Nat2Z.id. reflexivity. Qed.
Lemma standard_addition l : addition_theorem standard_harmonic l.
Proof.
  intros p a p' a' Hp Hp'. rewrite sum_ms.
  set (x := cos p). set (y := cos p'). set (sx := sqrt (1 - x ^ 2)). set (sy := sqrt (1 - y ^ 2)).
  assert (Bx : forall t, 0 <= 1 - cos t ^ 2) by (intros t; pose proof (sin2_cos2 t) as E; unfold Rsqr in E; pose proof (Rle_0_sqr (sin t)) as Q; unfold Rsqr in Q; cbn [pow]; lra).
  assert (Hx : sx ^ 2 = 1 - x ^ 2) by (transitivity (sx * sx); [ring|apply sqrt_sqrt, Bx]).
  assert (Hy : sy ^ 2 = 1 - y ^ 2) by (transitivity (sy * sy); [ring|apply sqrt_sqrt, Bx]).
  set (k := (2 * INR l + 1) / (4 * PI)).
  assert (P : forall m, Cmult (harmonic_nonneg l m p a) (Cconj (harmonic_nonneg l m p' a')) = Cmult (RtoC (k * am x y sx sy l m)) (cos (INR m * (a - a')), sin (INR m * (a - a')))).
  { intros m. rewrite harmonic_product. unfold assoc_legendre. rewrite !Derive_n_legendre. fold x y sx sy. f_equal. f_equal. unfold hnorm, am, cf. fold k. rewrite Rpow_mult_distr. ring. }
  change 0%Z with (Z.of_nat 0) at 1 2. rewrite !standard_pos, P.
  rewrite (sumC_ext _ _ (fun m => RtoC (k * (2 * am x y sx sy l m * cos (INR m * (a - a')))))).
  2:{ intros m Hm. apply in_seq in Hm. destruct m as [|m]; [lia|]. rewrite !standard_pos, P, !standard_neg. set (h := harmonic_nonneg l (S m) p a) in *.
    replace (Cmult (Cmult (RtoC ((-1) ^ S m)) (Cconj h)) (Cconj (Cmult (RtoC ((-1) ^ S m)) (Cconj (harmonic_nonneg l (S m) p' a'))))) with (Cconj (Cmult h (Cconj (harmonic_nonneg l (S m) p' a')))).
    - unfold h. rewrite P. set (w := k * am x y sx sy l (S m)). unfold Cmult, Cplus, Cconj, RtoC. cbn [fst snd]. f_equal; unfold w; ring.
    - rewrite !Cconj_mult, Cconj_R, Cconj_conj. set (g := harmonic_nonneg l (S m) p' a'). transitivity (Cmult (Cmult (RtoC ((-1) ^ S m)) (RtoC ((-1) ^ S m))) (Cmult (Cconj h) g)); [rewrite <- RtoC_mult, sgn_pow; ring|ring]. }
  rewrite sumC_RtoC, sumR_scal. cbn [INR]. rewrite Rmult_0_l, cos_0, sin_0.
  transitivity (RtoC (k * cosum (a - a') (S l) (am x y sx sy l))).
  - unfold cosum. rewrite <- cons_seq. change (sumR (0%nat :: seq 1 l)) with (fun f : nat -> R => f 0%nat + sumR (seq 1 l) f). cbv beta.
    replace (sumR (seq 1 l) (fun m => ew m * am x y sx sy l m * cos (INR m * (a - a')))) with (sumR (seq 1 l) (fun m => 2 * am x y sx sy l m * cos (INR m * (a - a')))).
    + cbn [ew Nat.eqb INR]. rewrite Rmult_0_l, cos_0. unfold Cmult, Cplus, RtoC. cbn [fst snd]. f_equal; ring.
    + apply sumR_ext. intros m Hm. apply in_seq in Hm. unfold ew. destruct (Nat.eqb_spec m 0); [lia|]. reflexivity.
  - rewrite sum_legendre by assumption. unfold k. do 3 f_equal. unfold sx, sy, x, y. rewrite !sqrt_sin by assumption. rewrite cos_minus.
    unfold dot, spherical_point, vx, vy, vz. cbn [fst snd]. ring.
Qed.
