From Coq Require Import Reals Lra Lia Ascii String List Arith ZArith Bool FunctionalExtensionality.
From Coquelicot Require Import Complex.
From Verif Require Import Base Sums Tensor Lin3 VecModel OccModel EwaldModel GridModel GridProofs CalcModel CalcSpec.
Import ListNotations.
Local Open Scope R_scope.

(** ** Convergence *)
Lemma total_sumR l : total_of l = sumR l (fun x => x).
Proof. induction l as [|x l IH]; simpl; [reflexivity|]. rewrite <- IH. reflexivity. Qed.
Lemma total_sq l : total_of (map (fun x => x * x) l) = sumR l (fun x => x * x).
Proof. induction l as [|x l IH]; simpl; [reflexivity|]. rewrite <- IH. reflexivity. Qed.

Lemma np_std_std l : l <> [] -> np_std l = Some (std l).
Proof.
  intros Hl. destruct l as [|a l']; [congruence|]. set (l := a :: l') in *.
  assert (Hn : INR (length l) <> 0) by (apply not_0_INR; unfold l; simpl; lia).
  change (np_std l) with (Some (sqrt (sumR l (fun x => (x - np_mean l) ^ 2) / INR (length l)))).
  f_equal. unfold std. f_equal. unfold mean. rewrite total_sq, total_sumR, map_length.
  assert (E : sumR l (fun x => (x - np_mean l) ^ 2) =
              sumR l (fun x => x * x) - 2 * np_mean l * sumR l (fun x => x) + INR (length l) * (np_mean l * np_mean l)).
  { rewrite <- (sumR_const l (np_mean l * np_mean l)), <- sumR_scal, <- sumR_minus, <- sumR_plus.
    apply sumR_ext. intros x _. ring. }
  rewrite E. unfold np_mean. field. exact Hn.
Qed.


Lemma check_state c v : fst (check c v) = Checker (window_size c) (threshold c)
  (let h := history c ++ [v] in if (window_size c <? length h)%nat then tl h else h).
Proof. unfold check. destruct (_ <? window_size c)%nat; [reflexivity|]. destruct (lt_float _ _); reflexivity. Qed.

Lemma last_n_all {A} n (l : list A) : (length l <= n)%nat -> last_n n l = l.
Proof. intros H. unfold last_n. replace (length l - n)%nat with 0%nat by lia. reflexivity. Qed.

Lemma last_n_length {A} n (l : list A) : length (last_n n l) = Nat.min n (length l).
Proof. unfold last_n. rewrite skipn_length. lia. Qed.

Lemma last_n_snoc {A} n (l : list A) v :
  last_n n (l ++ [v]) = (let h := last_n n l ++ [v] in if (n <? length h)%nat then tl h else h).
Proof.
  cbv zeta. rewrite app_length, last_n_length. cbn [length].
  destruct (Nat.ltb_spec n (Nat.min n (length l) + 1)).
  - assert (Hn : (n <= length l)%nat) by lia. unfold last_n. rewrite app_length. cbn [length].
    replace (length l + 1 - n)%nat with (S (length l - n)) by lia.
    rewrite <- (firstn_skipn (length l - n) l) at 2.
    assert (Hf : length (firstn (length l - n) l) = (length l - n)%nat) by (rewrite firstn_length; lia).
    rewrite <- app_assoc, skipn_app, Hf. rewrite skipn_all2 by lia. cbn [app].
    replace (S (length l - n) - (length l - n))%nat with 1%nat by lia.
    destruct (skipn (length l - n) l ++ [v]); reflexivity.
  - rewrite last_n_all by (rewrite app_length; cbn [length]; lia). rewrite last_n_all by lia. reflexivity.
Qed.

Lemma run_state w t evs : run (new_checker w t) evs = Checker w t (last_n w (since_reset evs)).
Proof.
  unfold run, since_reset. rewrite <- (rev_involutive evs). set (r := rev evs). clearbody r. clear evs.
  induction r as [|e r IH]; [reflexivity|]. cbn [rev]. rewrite !fold_left_app. cbn [fold_left].
  rewrite IH. destruct e as [v|]; [|reflexivity].
  rewrite check_state. cbn [window_size threshold history]. rewrite <- last_n_snoc. reflexivity.
Qed.

Lemma check_true_iff w t evs v :
  snd (check (run (new_checker w t) evs) v) = true <-> settled w t (since_reset evs ++ [v]).
Proof.
  rewrite run_state. unfold check. cbn [window_size threshold history].
  rewrite <- last_n_snoc. set (l := since_reset evs ++ [v]).
  rewrite last_n_length. unfold settled.
  destruct (Nat.ltb_spec (Nat.min w (length l)) w).
  - cbn [snd]. split; [discriminate|]. lia.
  - assert (Hl : (w <= length l)%nat) by lia.
    destruct (Nat.eq_dec w 0) as [->|Hw].
    + replace (last_n 0 l) with (@nil R); [cbn; split; [discriminate|lia]|].
      unfold last_n. rewrite skipn_all2; [reflexivity|lia].
    + rewrite np_std_std.
      * cbn [lt_float]. destruct (Rlt_dec _ _); cbn [snd]; split; try discriminate; try reflexivity.
        -- intros _. repeat split; try lia. assumption.
        -- intros (_ & _ & Hlt). contradiction.
      * intros E. apply (f_equal (@length R)) in E. rewrite last_n_length in E. cbn [length] in E. lia.
Qed.

Lemma history_bound w t evs : (length (history (run (new_checker w t) evs)) <= w)%nat.
Proof. rewrite run_state. cbn. rewrite last_n_length. lia. Qed.

(** ** Temperature *)
Lemma Rpower_le_1 x y : 0 < x <= 1 -> 0 <= y -> Rpower x y <= 1.
Proof.
  intros Hx Hy. unfold Rpower. rewrite <- exp_0. destruct (Rle_lt_or_eq_dec _ _ (proj2 Hx)) as [Hlt | ->].
  - assert (ln x < 0) by (rewrite <- ln_1; apply ln_increasing; lra).
    destruct (Rle_lt_or_eq_dec _ _ Hy) as [Hy' | <-].
    + left. apply exp_increasing. nra.
    + rewrite Rmult_0_l. lra.
  - rewrite ln_1, Rmult_0_r. lra.
Qed.
Lemma Rpower_anti x a b : 0 < x <= 1 -> a <= b -> Rpower x b <= Rpower x a.
Proof.
  intros Hx Hab. replace b with (a + (b - a)) by ring. rewrite Rpower_plus.
  assert (0 < Rpower x a) by apply exp_pos.
  assert (Rpower x (b - a) <= 1) by (apply Rpower_le_1; [exact Hx|lra]). nra.
Qed.
Lemma Rpower_mono x a b : 1 <= x -> a <= b -> Rpower x a <= Rpower x b.
Proof. intros [Hx|<-] Hab; [apply Rle_Rpower; lra|]. unfold Rpower. rewrite ln_1, !Rmult_0_r. lra. Qed.

(** with a positive number of transition steps the schedule is one formula *)
Lemma decay_formula s h i : 0 < s -> (0 < h)%nat ->
  exponential_decay 100 h (s / 100) s i =
  (let d := 100 * Rpower (s / 100) (INR i / INR h) in if Rlt_dec s 100 then Rmax d s else Rmin d s).
Proof.
  intros Hs Hh. unfold exponential_decay. destruct (Nat.eqb_spec h 0); [lia|].
  destruct (Req_EM_T (s / 100) 0); [lra|]. cbv zeta.
  assert (E : (if (i =? 0)%nat then 100 else 100 * Rpower (s / 100) (INR i / INR h)) = 100 * Rpower (s / 100) (INR i / INR h)).
  { destruct (Nat.eqb_spec i 0) as [->|]; [|reflexivity]. cbn [INR]. replace (0 / INR h) with 0 by (unfold Rdiv; ring). rewrite Rpower_O by lra. ring. }
  rewrite E. destruct (Rlt_dec (s / 100) 1), (Rlt_dec s 100); try reflexivity; lra.
Qed.

Lemma half_pos epoch : (2 <= epoch)%nat -> (0 < epoch / 2)%nat.
Proof. intros H. apply Nat.div_str_pos. lia. Qed.
Lemma half_zero epoch : (epoch < 2)%nat -> (epoch / 2 = 0)%nat.
Proof. intros H. apply Nat.div_small. exact H. Qed.
Lemma frac_le i j h : (i <= j)%nat -> (0 < h)%nat -> INR i / INR h <= INR j / INR h.
Proof.
  intros H Hh. apply le_INR in H. apply lt_0_INR in Hh.
  apply Rmult_le_compat_r; [|exact H]. left. apply Rinv_0_lt_compat. exact Hh.
Qed.
Lemma frac_ge_1 i h : (h <= i)%nat -> (0 < h)%nat -> 1 <= INR i / INR h.
Proof.
  intros H Hh. assert (0 < INR h) by (apply lt_0_INR; exact Hh).
  replace 1 with (INR h / INR h) by (field; lra). apply frac_le; assumption.
Qed.
Lemma frac_nonneg i h : (0 < h)%nat -> 0 <= INR i / INR h.
Proof.
  intros Hh. assert (0 < INR h) by (apply lt_0_INR; exact Hh). pose proof (pos_INR i).
  apply Rmult_le_pos; [assumption|]. left. apply Rinv_0_lt_compat. assumption.
Qed.

Lemma temperature_off s epoch i : s <= 0 -> temperature s epoch i = 0.
Proof. intros H. unfold temperature. destruct (Rlt_dec 0 s); [lra|reflexivity]. Qed.

Lemma temperature_short s epoch i : 0 < s -> (epoch < 2)%nat -> temperature s epoch i = 100.
Proof.
  intros Hs He. unfold temperature. destruct (Rlt_dec 0 s); [|lra].
  unfold exponential_decay. rewrite (half_zero _ He). reflexivity.
Qed.

Lemma temperature_long s epoch i : 0 < s -> (2 <= epoch)%nat ->
  temperature s epoch i = (let d := 100 * Rpower (s / 100) (INR i / INR (epoch / 2)) in if Rlt_dec s 100 then Rmax d s else Rmin d s).
Proof.
  intros Hs He. unfold temperature. destruct (Rlt_dec 0 s); [|lra]. apply decay_formula; [exact Hs|apply half_pos; exact He].
Qed.

Lemma temperature_start s epoch : 0 < s -> temperature s epoch 0 = 100.
Proof.
  intros Hs. destruct (lt_dec epoch 2) as [He|He]; [apply temperature_short; assumption|].
  rewrite temperature_long by (assumption || lia). cbv zeta. cbn [INR].
  replace (0 / INR (epoch / 2)) with 0 by (unfold Rdiv; ring). rewrite Rpower_O by lra. destruct (Rlt_dec s 100); [rewrite Rmax_left|rewrite Rmin_left]; lra.
Qed.

Lemma temperature_end s epoch i : 0 < s -> (2 <= epoch)%nat -> (epoch / 2 <= i)%nat -> temperature s epoch i = s.
Proof.
  intros Hs He Hi. rewrite temperature_long by assumption. cbv zeta.
  pose proof (frac_ge_1 i (epoch / 2) Hi (half_pos _ He)) as Hf.
  assert (H1 : Rpower (s / 100) 1 = s / 100) by (apply Rpower_1; lra).
  destruct (Rlt_dec s 100).
  - pose proof (Rpower_anti (s / 100) _ _ ltac:(lra) Hf). rewrite H1 in H. apply Rmax_right. lra.
  - pose proof (Rpower_mono (s / 100) _ _ ltac:(lra) Hf). rewrite H1 in H. apply Rmin_right. lra.
Qed.

Lemma temperature_bounds s epoch i : 0 < s <= 100 -> s <= temperature s epoch i <= 100.
Proof.
  intros Hs. destruct (lt_dec epoch 2) as [He|He]; [rewrite temperature_short by (assumption || lra); lra|].
  rewrite temperature_long by (lra || lia). cbv zeta.
  pose proof (Rpower_le_1 (s / 100) (INR i / INR (epoch / 2)) ltac:(lra) (frac_nonneg i _ (half_pos epoch ltac:(lia)))) as H.
  destruct (Rlt_dec s 100).
  - split; [apply Rmax_r|]. apply Rmax_lub; lra.
  - assert (s = 100) by lra. subst s. replace (100 / 100) with 1 in * by field.
    assert (E : Rpower 1 (INR i / INR (epoch / 2)) = 1) by (unfold Rpower; rewrite ln_1, Rmult_0_r; apply exp_0).
    rewrite E. rewrite Rmin_left; lra.
Qed.

Lemma temperature_decreasing s epoch i j : 0 <= s <= 100 -> (i <= j)%nat -> temperature s epoch j <= temperature s epoch i.
Proof.
  intros Hs Hij. destruct (Req_dec s 0) as [->|Hn]; [rewrite !temperature_off by lra; lra|].
  destruct (lt_dec epoch 2) as [He|He]; [rewrite !temperature_short by (assumption || lra); lra|].
  rewrite !temperature_long by (lra || lia). cbv zeta.
  pose proof (Rpower_anti (s / 100) _ _ ltac:(lra) (frac_le i j _ Hij (half_pos epoch ltac:(lia)))) as H.
  destruct (Rlt_dec s 100).
  - apply Rmax_lub; [|apply Rmax_r]. eapply Rle_trans; [|apply Rmax_l]. lra.
  - apply Rmin_glb; [|apply Rmin_r]. eapply Rle_trans; [apply Rmin_l|]. lra.
Qed.

Lemma temperature_strict s epoch i j : 0 < s < 100 -> (i < j <= epoch / 2)%nat -> temperature s epoch j < temperature s epoch i.
Proof.
  intros Hs Hij. assert (He : (2 <= epoch)%nat).
  { destruct (le_lt_dec 2 epoch); [assumption|]. rewrite (half_zero epoch) in Hij by lia. lia. }
  rewrite !temperature_long by (lra || lia). cbv zeta. destruct (Rlt_dec s 100); [|lra].
  assert (Hh : 0 < INR (epoch / 2)) by (apply lt_0_INR; apply half_pos; exact He).
  assert (Hlt : forall a b, a < b -> Rpower (s / 100) b < Rpower (s / 100) a).
  { intros a b Hab. unfold Rpower. apply exp_increasing.
    assert (ln (s / 100) < 0) by (rewrite <- ln_1; apply ln_increasing; lra). nra. }
  assert (Hf : INR i / INR (epoch / 2) < INR j / INR (epoch / 2)).
  { apply Rmult_lt_compat_r; [apply Rinv_0_lt_compat; exact Hh|]. apply lt_INR. lia. }
  pose proof (Hlt _ _ Hf) as H1.
  assert (Hf1 : INR i / INR (epoch / 2) < 1).
  { apply (Rmult_lt_reg_r (INR (epoch / 2))); [exact Hh|]. unfold Rdiv. rewrite Rmult_assoc, Rinv_l, Rmult_1_r, Rmult_1_l by lra.
    apply lt_INR. lia. }
  pose proof (Hlt _ _ Hf1) as H2. rewrite Rpower_1 in H2 by lra.
  apply Rmax_lub_lt; eapply Rlt_le_trans; [| apply Rmax_l | | apply Rmax_l]; lra.
Qed.

Lemma temperature_above s epoch i j : 100 < s -> (i <= j)%nat ->
  100 <= temperature s epoch i <= temperature s epoch j /\ temperature s epoch j <= s.
Proof.
  intros Hs Hij. destruct (lt_dec epoch 2) as [He|He]; [rewrite !temperature_short by (assumption || lra); lra|].
  rewrite !temperature_long by (lra || lia). cbv zeta. destruct (Rlt_dec s 100); [lra|].
  pose proof (Rpower_mono (s / 100) _ _ ltac:(lra) (frac_le i j _ Hij (half_pos epoch ltac:(lia)))) as H.
  pose proof (Rpower_mono (s / 100) 0 (INR i / INR (epoch / 2)) ltac:(lra) (frac_nonneg i _ (half_pos epoch ltac:(lia)))) as H0.
  rewrite Rpower_O in H0 by lra.
  split; [split|].
  - apply Rmin_glb; lra.
  - apply Rmin_glb; [|apply Rmin_r]. eapply Rle_trans; [apply Rmin_l|]. lra.
  - apply Rmin_r.
Qed.
