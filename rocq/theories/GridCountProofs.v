(** The exact number of True entries of the cubic mask, and which calls return. *)
From Coq Require Import List ZArith Lia.
From Verif Require Import Base GridModel GridSpec GridProofs.
Import ListNotations.
Local Open Scope Z_scope.

Lemma cubic_mask_returns sizes : (exists m, cubic_mask sizes = Ok m) <-> length sizes = 3%nat.
Proof.
  split.
  - intros (m & H). destruct sizes as [|a [|b [|c [|d l]]]]; try discriminate H. reflexivity.
  - intros H. destruct sizes as [|a [|b [|c [|d l]]]]; try discriminate H. eexists. reflexivity.
Qed.

Lemma cubic_mask_raises sizes e : cubic_mask sizes = Err e <-> length sizes <> 3%nat /\ e = ValueErr.
Proof.
  split.
  - intros H. split.
    + intros Hl. destruct (proj2 (cubic_mask_returns sizes) Hl) as (m & Hm). rewrite Hm in H. discriminate H.
    + destruct sizes as [|a [|b [|c [|d l]]]]; cbn [cubic_mask] in H; try discriminate H;
        injection H as <-; reflexivity.
  - intros (H & ->). destruct sizes as [|a [|b [|c [|d l]]]]; try reflexivity.
    exfalso. apply H. reflexivity.
Qed.

Lemma axis_count_exact n : 1 <= n ->
  axis_count n = (let '(_, (p, q)) := half_range n in p + q) * (if n =? 2 then 2 else 1).
Proof.
  intros Hn. destruct (Z.eqb_spec n 2) as [->|E]; [reflexivity|].
  rewrite axis_count_half by assumption. lia.
Qed.

Lemma cubic_count_exact sizes m : Forall (fun n => 1 <= n) sizes -> cubic_mask sizes = Ok m ->
  count_true sizes m
  = zprod (half_frequency_shape sizes) * 2 ^ Z.of_nat (count_occ Z.eq_dec sizes 2).
Proof.
  intros Hp H.
  destruct sizes as [|n1 [|n2 [|n3 [|d l]]]]; try discriminate H.
  inversion Hp as [|? ? P1 Hp1]; subst. inversion Hp1 as [|? ? P2 Hp2]; subst.
  inversion Hp2 as [|? ? P3 Hp3]; subst.
  rewrite (cubic_mask_count n1 n2 n3 m H), !axis_count_exact by assumption.
  unfold half_frequency_shape. cbn [map zprod fold_right].
  destruct (half_range n1) as [? [? ?]], (half_range n2) as [? [? ?]], (half_range n3) as [? [? ?]].
  cbn [count_occ].
  destruct (Z.eqb_spec n1 2), (Z.eqb_spec n2 2), (Z.eqb_spec n3 2);
    destruct (Z.eq_dec n1 2), (Z.eq_dec n2 2), (Z.eq_dec n3 2); try contradiction;
    cbn [Z.of_nat Z.pow Z.pow_pos Pos.iter Pos.of_succ_nat Pos.succ]; ring.
Qed.
