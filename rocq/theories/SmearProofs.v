(** Fillings of lowest free energy (C156). *)
From Coq Require Import Reals Lra Lia FunctionalExtensionality.
From Coquelicot Require Import Coquelicot.
From Coq Require Import List Arith.
From Verif Require Import Base Sums Tensor DFT OccModel OccSpec HamSpec StatSpec StatProofs KsSpec KsProofs2 KsProofs4 KsGen SmearSpec.
Import ListNotations.
Local Open Scope R_scope.

Section Slide.
Context (occ : tensor R) (K B : nat) (w : R) (lev : nat -> nat -> R) (F : tensor R -> R).
Context (So : tshape occ = [1%nat; K; B]) (Hw : within 0 w occ)
  (HE : forall o : tensor R, is_derive (fun t : R => F (mkT (tshape occ) (fun i => tget occ i + t * tget o i))) 0 (sumR (seq 0 K) (fun k => sumR (seq 0 B) (fun b => tget o [0%nat; k; b] * lev k b))))
  (Hmin : forall occ', tshape occ' = [1%nat; K; B] -> within 0 w occ' -> total occ' = total occ -> no_new_ends w occ occ' -> F occ <= F occ').

Lemma slide_levels : forall k b k' b', (k < K)%nat -> (b < B)%nat -> (k' < K)%nat -> (b' < B)%nat -> 0 < tget occ [0%nat; k; b] -> tget occ [0%nat; k'; b'] < w -> lev k b <= lev k' b'.
Proof.
  intros k b k' b' Hk Hb Hk' Hb' Po Lo.
  destruct (list_eq_dec Nat.eq_dec [0%nat; k; b] [0%nat; k'; b']) as [E|Ne]; [injection E as -> ->; lra|].
  set (o := mkT [1%nat; K; B] (fun i => one_at k' b' i - one_at k b i)).
  pose proof (HE o) as DE. set (E := fun t : R => F (mkT (tshape occ) (fun i => tget occ i + t * tget o i))) in DE.
  assert (V : sumR (seq 0 K) (fun k0 => sumR (seq 0 B) (fun b0 => tget o [0%nat; k0; b0] * lev k0 b0)) = lev k' b' - lev k b).
  { rewrite <- (place_pick K B k' b' lev Hk' Hb'), <- (place_pick K B k b lev Hk Hb).
    unfold Rminus. rewrite <- sumR_opp, <- sumR_plus. apply sumR_ext. intros k0 _. rewrite <- sumR_opp, <- sumR_plus. apply sumR_ext. intros b0 _. unfold o. cbn [tget]. ring. }
  rewrite V in DE.
  set (h := Rmin (tget occ [0%nat; k; b]) (w - tget occ [0%nat; k'; b'])). assert (Hh : 0 < h) by (unfold h; apply Rmin_glb_lt; lra).
  enough (0 <= lev k' b' - lev k b) by lra.
  apply (slope_right E _ h DE Hh). intros t (Ht0 & Ht1).
  assert (T1 : h <= tget occ [0%nat; k; b]) by apply Rmin_l. assert (T2 : h <= w - tget occ [0%nat; k'; b']) by apply Rmin_r.
  assert (Z : E 0 = F occ).
  { unfold E. f_equal. destruct occ as [s f]. cbn [tshape tget]. f_equal. apply functional_extensionality. intros i. ring. }
  assert (Wi : forall i, inb i (tshape occ) -> 0 <= tget occ i + t * tget o i <= w /\ (tget occ i + t * tget o i = 0 -> tget occ i = 0) /\ (tget occ i + t * tget o i = w -> tget occ i = w)).
  { intros i Hi. pose proof (Hw i Hi) as Wi. unfold o. cbn [tget]. unfold one_at.
    destruct (list_eq_dec _ i [0%nat; k; b]) as [E1|E1]; destruct (list_eq_dec _ i [0%nat; k'; b']) as [E2|E2].
    - exfalso. congruence.
    - rewrite E1 in *. repeat split; intros; lra.
    - rewrite E2 in *. repeat split; intros; lra.
    - repeat split; intros; lra. }
  rewrite Z. apply (Hmin (mkT (tshape occ) (fun i => tget occ i + t * tget o i))).
  - exact So.
  - intros i Hi. cbn [tshape tget] in *. apply Wi, Hi.
  - apply (total_shift occ o K B t So). unfold o. cbn [tget]. unfold Rminus. rewrite sumR_plus, sumR_opp, !place_sum by assumption. ring.
  - intros i Hi. cbn [tget]. apply Wi, Hi.
Qed.

Lemma slide_common : exists mu, forall k b, (k < K)%nat -> (b < B)%nat -> (0 < tget occ [0%nat; k; b] -> lev k b <= mu) /\ (tget occ [0%nat; k; b] < w -> mu <= lev k b).
Proof.
  pose proof slide_levels as HL.
  destruct (separate (list_prod (seq 0 K) (seq 0 B)) (fun p => lev (fst p) (snd p)) (fun p => 0 < tget occ [0%nat; fst p; snd p]) (fun p => tget occ [0%nat; fst p; snd p] < w)) as (mu & Hmu).
  - intros x. apply Rlt_dec.
  - intros [k b] [k' b'] H1 H2 P Q. apply in_prod_iff in H1, H2. destruct H1 as [H1 H3], H2 as [H2 H4]. apply in_seq in H1, H2, H3, H4. cbn [fst snd] in *. apply HL; try assumption; lia.
  - exists mu. intros k b Hk Hb. apply (Hmu (k, b)). apply in_prod_iff; split; apply in_seq; lia.
Qed.
End Slide.

Definition entropy_value (eps : R) (occ : tensor R) : R := match fermi_dirac occ eps with Ok h => h | Err _ => 0 end.

Lemma smear_gen (c : tensor C) (occ : tensor R) (K B : nat) (eps T : R) (M : tensor C) (matrix : tensor C -> res (tensor C)) (F : tensor R -> R) :
  tshape occ = [1%nat; K; B] -> within 0 (2 / INR K) occ -> 0 < eps -> matrix c = Ok M ->
  (forall o : tensor R, is_derive (fun t : R => F (mkT (tshape occ) (fun i => tget occ i + t * tget o i))) 0 (sumR (seq 0 K) (fun k => sumR (seq 0 B) (fun b => tget o [0%nat; k; b] * Re (tget M [0%nat; k; b; b]))))) ->
  (forall occ', tshape occ' = [1%nat; K; B] -> within 0 (2 / INR K) occ' -> total occ' = total occ -> no_new_ends (2 / INR K) occ occ' -> F occ - T * entropy_value eps occ <= F occ' - T * entropy_value eps occ') ->
  smeared matrix K B (2 / INR K) eps T c occ.
Proof.
  intros So Hw He HM HF Hmin. assert (Hc : (3 - INR 1) / INR K = 2 / INR K) by (f_equal; cbn; ring).
  destruct (slide_common occ K B (2 / INR K) (fun k b => Re (tget M [0%nat; k; b; b]) + T * entropy_slope eps (2 / INR K) (tget occ [0%nat; k; b])) (fun o => F o - T * entropy_value eps o) So Hw) as (mu & Hmu).
  - intros o. destruct (entropy_derivative occ o eps 1 K B So) as (S & HS & DS).
    { rewrite Hc. intros i Hi. specialize (Hw i). rewrite So in Hw. specialize (Hw Hi). lra. }
    rewrite Hc in DS. pose proof (is_derive_minus _ (fun t => T * S t) 0 _ _ (HF o) (is_derive_scal S 0 T _ DS)) as DT.
    match type of DT with is_derive _ _ ?z => match goal with |- is_derive _ _ ?y => replace y with z end end.
    + apply (is_derive_ext (fun t : R => minus (F (mkT (tshape occ) (fun i => tget occ i + t * tget o i))) (T * S t))); [|exact DT]. intros t. unfold entropy_value. rewrite HS. reflexivity.
    + rewrite !sum_states. match goal with |- minus ?x ?u = ?z => change (x + - u = z) end.
      replace (- (T * - sumR (seq 0 K) (fun k => sumR (seq 0 B) (fun b => tget o [0%nat; k; b] * slope eps (2 / INR K) (tget occ [0%nat; k; b])))))
        with (T * sumR (seq 0 K) (fun k => sumR (seq 0 B) (fun b => tget o [0%nat; k; b] * slope eps (2 / INR K) (tget occ [0%nat; k; b])))) by ring.
      rewrite <- sumR_scal, <- sumR_plus. apply sumR_ext. intros k _. rewrite <- sumR_scal, <- sumR_plus. apply sumR_ext. intros b _. unfold slope, entropy_slope. ring.
  - exact Hmin.
  - exists M, mu. split; [exact HM|]. intros k b Hk Hb. split; [apply Hw; rewrite So; repeat constructor; lia|]. apply (Hmu k b Hk Hb).
Qed.

(** ** The slope as a function of the filling *)
Lemma share_mono eps p q : 0 < eps -> 0 <= p -> p < q -> p / (eps + p) < q / (eps + q).
Proof.
  intros He Hp Hq. apply (Rmult_lt_reg_r ((eps + p) * (eps + q))); [nra|]. replace (p / (eps + p) * ((eps + p) * (eps + q))) with (p * (eps + q)) by (field; lra).
  replace (q / (eps + q) * ((eps + p) * (eps + q))) with (q * (eps + p)) by (field; lra). nra.
Qed.
Lemma slope_mono eps w p q : 0 < eps -> 0 <= p -> p < q -> q <= w -> entropy_slope eps w p < entropy_slope eps w q.
Proof.
  intros He Hp Hq Hw. unfold entropy_slope. pose proof (share_mono eps p q He Hp Hq) as H1. pose proof (share_mono eps (w - q) (w - p) He ltac:(lra) ltac:(lra)) as H2.
  pose proof (ln_increasing (eps + p) (eps + q) ltac:(lra) ltac:(lra)) as H3. pose proof (ln_increasing (eps + w - q) (eps + w - p) ltac:(lra) ltac:(lra)) as H4.
  replace (eps + (w - q)) with (eps + w - q) in H2 by ring. replace (eps + (w - p)) with (eps + w - p) in H2 by ring. lra.
Qed.
Lemma slope_level eps w T mu h p : 0 < T -> 0 < eps -> 0 <= p <= w ->
  (h + T * entropy_slope eps w p = mu <-> p = (w + 2 * eps) * fermi T (mu + T * (eps / (eps + p) - eps / (eps + w - p))) h - eps).
Proof.
  intros HT He Hp. set (d := eps / (eps + p) - eps / (eps + w - p)).
  pose proof (slope_fermi (w + 2 * eps) T (mu + T * d) h (eps + p) HT ltac:(lra) ltac:(lra)) as H.
  assert (E : slope 0 (w + 2 * eps) (eps + p) = entropy_slope eps w p + d).
  { unfold slope, entropy_slope, d. rewrite !Rplus_0_l. replace (w + 2 * eps - (eps + p)) with (eps + w - p) by ring. field. split; lra. }
  rewrite E in H. split; intros Q.
  - enough (eps + p = (w + 2 * eps) * fermi T (mu + T * d) h) by lra. apply H. rewrite <- Q. ring.
  - enough (h + T * (entropy_slope eps w p + d) = mu + T * d) by lra. apply H. lra.
Qed.

Lemma smeared_order matrix K B w eps T c occ : 0 < T -> 0 < eps -> smeared matrix K B w eps T c occ -> exists M, matrix c = Ok M /\
  forall k b k' b', (k < K)%nat -> (b < B)%nat -> (k' < K)%nat -> (b' < B)%nat -> let p := tget occ [0%nat; k; b] in let p' := tget occ [0%nat; k'; b'] in
  (Re (tget M [0%nat; k; b; b]) <= Re (tget M [0%nat; k'; b'; b']) -> p' <= p) /\
  (Re (tget M [0%nat; k; b; b]) < Re (tget M [0%nat; k'; b'; b']) -> 0 < p -> p' < w -> p' < p).
Proof.
  intros HT He (M & mu & HM & H). exists M. split; [exact HM|]. intros k b k' b' Hk Hb Hk' Hb' p p'. destruct (H k b Hk Hb) as (W & H1 & H2), (H k' b' Hk' Hb') as (W' & H1' & H2'). fold p in W, H1, H2. fold p' in W', H1', H2'. cbv zeta in *. split.
  - intros L. destruct (Rle_dec p' p) as [|N]; [assumption|exfalso]. assert (Q : p < p') by lra. pose proof (slope_mono eps w p p' He ltac:(lra) Q ltac:(lra)) as S. specialize (H2 ltac:(lra)). specialize (H1' ltac:(lra)). nra.
  - intros L P1 P2. destruct (Rlt_dec p' p) as [|N]; [assumption|exfalso]. destruct (Req_dec p p') as [Q|Q].
    + rewrite <- Q in *. specialize (H2 P2). specialize (H1' P1). nra.
    + assert (Q' : p < p') by lra. pose proof (slope_mono eps w p p' He ltac:(lra) Q' ltac:(lra)) as S. specialize (H2 ltac:(lra)). specialize (H1' ltac:(lra)). nra.
Qed.
