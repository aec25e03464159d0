(** Proofs about occupation.proj. *)
From Coq Require Import List Arith ZArith Reals Bool Lra Lia Permutation Sorting.Sorted.
From Verif Require Import Base Sums Tensor GridModel OccModel.
Import ListNotations.
Local Open Scope R_scope.

Lemma lsum_app a b : lsum (a ++ b) = lsum a + lsum b.
Proof. induction a as [|x a IH]; simpl; [ring|]. rewrite IH. ring. Qed.
Lemma lsum_perm a b : Permutation a b -> lsum a = lsum b.
Proof. induction 1; simpl; lra. Qed.
Lemma lsum_nonneg l : Forall (fun v => 0 <= v) l -> 0 <= lsum l.
Proof. induction 1; simpl; lra. Qed.
Lemma lsum_le l c : Forall (fun v => v <= c) l -> lsum l <= INR (length l) * c.
Proof. induction 1 as [|v l Hv H IH]; [simpl; lra|]. cbn [lsum fold_right length]. fold (lsum l). rewrite S_INR. lra. Qed.
Lemma lsum_ge l c : Forall (fun v => c <= v) l -> INR (length l) * c <= lsum l.
Proof. induction 1 as [|v l Hv H IH]; [simpl; lra|]. cbn [lsum fold_right length]. fold (lsum l). rewrite S_INR. lra. Qed.
Lemma lsum_map_sub l c : lsum (map (fun v => v - c) l) = lsum l - INR (length l) * c.
Proof. induction l as [|v l IH]; [simpl; ring|]. cbn [map lsum fold_right length]. fold (lsum l) (lsum (map (fun v => v - c) l)). rewrite IH, S_INR. ring. Qed.
Lemma lsum_one_minus l : lsum (map (fun v => 1 - v) l) = INR (length l) - lsum l.
Proof. induction l as [|v l IH]; [simpl; ring|]. cbn [map lsum fold_right length]. fold (lsum l) (lsum (map (fun v => 1 - v) l)). rewrite IH, S_INR. ring. Qed.
Lemma lsum_rev l : lsum (rev l) = lsum l.
Proof. apply lsum_perm. symmetry. apply Permutation_rev. Qed.
Lemma lsum_zero_iff l : Forall (fun v => 0 <= v) l -> lsum l = 0 -> Forall (fun v => v = 0) l.
Proof.
  induction 1 as [|v l Hv H IH]; intros E; constructor; simpl in E; pose proof (lsum_nonneg l H).
  - lra.
  - apply IH. lra.
Qed.

Lemma Rinsert_perm x l : Permutation (Rinsert x l) (x :: l).
Proof.
  induction l as [|y l IH]; simpl; [reflexivity|]. destruct (Rle_dec x y); [reflexivity|].
  rewrite IH. apply perm_swap.
Qed.
Lemma Rsort_perm l : Permutation (Rsort l) l.
Proof. induction l as [|x l IH]; simpl; [constructor|]. fold (Rsort l). rewrite Rinsert_perm, IH. reflexivity. Qed.
Lemma Rinsert_sorted x l : StronglySorted Rle l -> StronglySorted Rle (Rinsert x l).
Proof.
  induction 1 as [|y l H IH F]; simpl; [repeat constructor|]. destruct (Rle_dec x y) as [L|L].
  - constructor; [constructor; assumption|]. constructor; [exact L|]. eapply Forall_impl; [|exact F]. intros; simpl in *; lra.
  - constructor; [exact IH|]. apply Forall_forall. intros z Hz.
    apply (Permutation_in _ (Rinsert_perm x l)) in Hz. destruct Hz as [<-|Hz]; [lra|].
    rewrite Forall_forall in F. apply F, Hz.
Qed.
Lemma Rsort_sorted l : StronglySorted Rle (Rsort l).
Proof. induction l as [|x l IH]; simpl; [constructor|]. apply Rinsert_sorted, IH. Qed.
Lemma Rsort_length l : length (Rsort l) = length l.
Proof. apply Permutation_length, Rsort_perm. Qed.
Lemma Rsort_sum l : lsum (Rsort l) = lsum l.
Proof. apply lsum_perm, Rsort_perm. Qed.

Lemma sorted_nth l i j : StronglySorted Rle l -> (i <= j)%nat -> (j < length l)%nat -> nth i l 0 <= nth j l 0.
Proof.
  intros H. revert i j. induction H as [|y l H IH F]; intros i j Hij Hj; [simpl in Hj; lia|].
  destruct i as [|i], j as [|j]; simpl in *; try lia; try lra.
  - rewrite Forall_forall in F. apply F. apply nth_In. lia.
  - apply IH; lia.
Qed.

(** a sorted list is unique up to permutation *)
Lemma sorted_perm_unique a b : StronglySorted Rle a -> StronglySorted Rle b -> Permutation a b -> a = b.
Proof.
  intros Ha. revert b. induction Ha as [|x a Ha IH F]; intros b Hb P.
  - apply Permutation_nil in P. congruence.
  - destruct b as [|y b]; [symmetry in P; apply Permutation_nil in P; discriminate|].
    inversion Hb as [|? ? Hb' F']; subst.
    assert (x = y).
    { assert (Hy : In y (x :: a)) by (apply (Permutation_in _ (Permutation_sym P)); left; reflexivity).
      assert (Hx : In x (y :: b)) by (apply (Permutation_in _ P); left; reflexivity).
      rewrite Forall_forall in F, F'.
      assert (x <= y) by (destruct Hy as [->|Hy]; [lra|apply F, Hy]).
      assert (y <= x) by (destruct Hx as [->|Hx]; [lra|apply F', Hx]). lra. }
    subst y. f_equal. apply IH; [exact Hb'|]. apply (Permutation_cons_inv P).
Qed.

Lemma argmax_b_spec l : existsb (fun x => x) l = true ->
  (argmax_b l < length l)%nat /\ nth (argmax_b l) l false = true /\ forall j, (j < argmax_b l)%nat -> nth j l false = false.
Proof.
  induction l as [|b l IH]; simpl; [discriminate|]. destruct b; simpl.
  - intros _. split; [lia|]. split; [reflexivity|]. intros; lia.
  - intros H. rewrite H. destruct (IH H) as (H1 & H2 & H3). split; [lia|]. split; [exact H2|].
    intros [|j] Hj; [reflexivity|]. apply H3. lia.
Qed.
Lemma argmax_b_none l : existsb (fun x => x) l = false -> argmax_b l = 0%nat.
Proof. destruct l as [|b l]; simpl; [reflexivity|]. destruct b; simpl; [discriminate|]. intros ->. reflexivity. Qed.

Lemma nth_map_seq {A} (f : nat -> A) n i d : (i < n)%nat -> nth i (map f (seq 0 n)) d = f i.
Proof.
  intros H. rewrite (nth_indep _ d (f 0%nat)) by (rewrite map_length, seq_length; exact H).
  rewrite map_nth, seq_nth by exact H. reflexivity.
Qed.

Definition lam_down (x : list R) (sum : R) (k : nat) : R :=
  if (k =? 0)%nat then (lsum x - sum) / INR (length x)
  else (lsum x - sum - cumsum (Rsort x) (k - 1)) / (INR (length x) - INR k).
Definition cond_down (x : list R) (sum : R) (i : nat) : bool :=
  gt_div (nth i (Rsort x) 0) (lsum x - sum - cumsum (Rsort x) i) (INR (length x) - INR i - 1).
Definition k_down (x : list R) (sum : R) : nat := argmax_b (map (cond_down x sum) (seq 0 (length x))).

Lemma pushdown_unfold x sum : pushdown x sum = map (fun v => Rmax (v - lam_down x sum (k_down x sum)) 0) x.
Proof. reflexivity. Qed.

Lemma lam_down_eq x sum k : (k < length x)%nat ->
  lam_down x sum k * (INR (length x) - INR k) = lsum x - sum - lsum (firstn k (Rsort x)).
Proof.
  intros Hk. unfold lam_down, cumsum. pose proof (lt_INR _ _ Hk) as HL. destruct (Nat.eqb_spec k 0) as [->|Hne].
  - simpl. simpl in HL. field. lra.
  - replace (S (k - 1)) with k by lia. field. lra.
Qed.

Lemma firstn_S_sum l i : (i < length l)%nat -> lsum (firstn (S i) l) = lsum (firstn i l) + nth i l 0.
Proof.
  revert i. induction l as [|v l IH]; intros i Hi; [simpl in Hi; lia|]. destruct i as [|i]; [simpl; ring|].
  simpl length in Hi. change (firstn (S (S i)) (v :: l)) with (v :: firstn (S i) l).
  change (firstn (S i) (v :: l)) with (v :: firstn i l). cbn [lsum fold_right nth]. fold (lsum (firstn (S i) l)) (lsum (firstn i l)).
  rewrite IH by lia. ring.
Qed.
Lemma firstn_skipn_sum l k : lsum l = lsum (firstn k l) + lsum (skipn k l).
Proof. rewrite <- lsum_app, firstn_skipn. reflexivity. Qed.

Lemma cond_down_last x sum : (0 < length x)%nat -> cond_down x sum (length x - 1) = true <-> 0 < sum.
Proof.
  intros Hn. unfold cond_down, gt_div, cumsum. rewrite minus_INR by lia. simpl (INR 1).
  destruct (Req_EM_T _ _) as [_|Hne]; [|exfalso; apply Hne; ring].
  replace (S (length x - 1)) with (length (Rsort x)) by (rewrite Rsort_length; lia).
  rewrite firstn_all, Rsort_sum. destruct (Rlt_dec _ _); split; intros; try lra; try reflexivity; try discriminate.
Qed.

Lemma cond_down_iff x sum i : (S i < length x)%nat ->
  (cond_down x sum i = true <-> lsum x - sum - lsum (firstn i (Rsort x)) < nth i (Rsort x) 0 * (INR (length x) - INR i)).
Proof.
  intros Hi. unfold cond_down, gt_div, cumsum. rewrite firstn_S_sum by (rewrite Rsort_length; lia).
  assert (Hpos : 0 < INR (length x) - INR i - 1).
  { pose proof (lt_INR _ _ Hi) as L. rewrite S_INR in L. lra. }
  destruct (Req_EM_T _ _) as [E|_]; [lra|].
  set (y := nth i (Rsort x) 0). set (a := lsum x - sum - _) in *. set (d := INR (length x) - INR i - 1) in *.
  assert (Hiff : a / d < y <-> a < y * d).
  { split; intros H.
    - apply (Rmult_lt_compat_r d) in H; [|exact Hpos]. unfold Rdiv in H. rewrite Rmult_assoc, Rinv_l in H; lra.
    - apply (Rmult_lt_reg_r d); [exact Hpos|]. unfold Rdiv. rewrite Rmult_assoc, Rinv_l; lra. }
  destruct (Rlt_dec (a / d) y) as [L|L].
  - split; [intros _|reflexivity]. apply Hiff in L. unfold a, d, y in *. lra.
  - split; [discriminate|]. intros H. exfalso. apply L, Hiff. unfold a, d, y in *. lra.
Qed.

(** The threshold separates the sorted list. *)
Lemma down_threshold x sum : (0 < length x)%nat -> 0 < sum ->
  let k := k_down x sum in let lam := lam_down x sum k in
  (k < length x)%nat /\
  (forall j, (j < k)%nat -> nth j (Rsort x) 0 <= lam) /\
  (forall j, (k <= j < length x)%nat -> lam <= nth j (Rsort x) 0).
Proof.
  intros Hn Hs k lam.
  assert (Hex : existsb (fun b => b) (map (cond_down x sum) (seq 0 (length x))) = true).
  { apply existsb_exists. exists true. split; [|reflexivity]. apply in_map_iff. exists (length x - 1)%nat. split.
    - apply cond_down_last; assumption.
    - apply in_seq. lia. }
  destruct (argmax_b_spec _ Hex) as (H1 & H2 & H3). fold (k_down x sum) in H1, H2, H3. fold k in H1, H2, H3.
  rewrite map_length, seq_length in H1.
  rewrite nth_map_seq in H2 by exact H1.
  pose proof (lam_down_eq x sum k H1) as HL. fold lam in HL.
  pose proof (lt_INR _ _ H1) as Hk.
  split; [exact H1|]. split.
  - intros j Hj. apply Rle_trans with (nth (k - 1) (Rsort x) 0).
    { apply sorted_nth; [apply Rsort_sorted|lia|rewrite Rsort_length; lia]. }
    specialize (H3 (k - 1)%nat ltac:(lia)). rewrite nth_map_seq in H3 by lia.
    assert (Hn3 : ~ (lsum x - sum - lsum (firstn (k - 1) (Rsort x)) < nth (k - 1) (Rsort x) 0 * (INR (length x) - INR (k - 1)))).
    { intros HC. apply cond_down_iff in HC; [congruence|lia]. }
    assert (E : lsum (firstn k (Rsort x)) = lsum (firstn (k - 1) (Rsort x)) + nth (k - 1) (Rsort x) 0).
    { rewrite <- firstn_S_sum by (rewrite Rsort_length; lia). f_equal. f_equal. lia. }
    rewrite E in HL. rewrite minus_INR in Hn3 by lia. simpl (INR 1) in Hn3.
    apply Rnot_lt_le in Hn3. apply (Rmult_le_reg_r (INR (length x) - INR k)); lra.
  - intros j Hj. apply Rle_trans with (nth k (Rsort x) 0).
    2:{ apply sorted_nth; [apply Rsort_sorted|lia|rewrite Rsort_length; lia]. }
    destruct (Nat.eq_dec (S k) (length x)) as [Elast|Hne].
    + (* last index *)
      assert (Hone : INR (length x) - INR k = 1) by (rewrite <- Elast, S_INR; ring).
      rewrite Hone, Rmult_1_r in HL. rewrite HL.
      pose proof (firstn_S_sum (Rsort x) k) as E. rewrite Elast, <- (Rsort_length x), firstn_all, Rsort_sum in E.
      rewrite Rsort_length in E. specialize (E H1). lra.
    + apply cond_down_iff in H2; [|lia]. apply (Rmult_le_reg_r (INR (length x) - INR k)); lra.
Qed.

Lemma lsum_map_perm (f : R -> R) a b : Permutation a b -> lsum (map f a) = lsum (map f b).
Proof. intros P. apply lsum_perm, Permutation_map, P. Qed.

Lemma Forall_nth_firstn (P : R -> Prop) l k : (forall j, (j < k)%nat -> (j < length l)%nat -> P (nth j l 0)) -> Forall P (firstn k l).
Proof.
  revert k. induction l as [|v l IH]; intros [|k] H; simpl; constructor.
  - apply (H 0%nat); simpl; lia.
  - apply IH. intros j Hj Hl. apply (H (S j)); simpl; lia.
Qed.
Lemma Forall_nth_skipn (P : R -> Prop) l k : (forall j, (k <= j < length l)%nat -> P (nth j l 0)) -> Forall P (skipn k l).
Proof.
  revert k. induction l as [|v l IH]; intros [|k] H; try (constructor; fail).
  - rewrite skipn_O. constructor; [apply (H 0%nat); simpl; lia|]. rewrite <- (skipn_O l). apply IH. intros j Hj. apply (H (S j)); simpl; lia.
  - cbn [skipn]. apply IH. intros j Hj. apply (H (S j)); simpl; lia.
Qed.

Lemma lsum_map_max_zero l c : Forall (fun v => v <= c) l -> lsum (map (fun v => Rmax (v - c) 0) l) = 0.
Proof. induction 1 as [|v l Hv H IH]; simpl; [reflexivity|]. rewrite Rmax_right by lra. fold (lsum (map (fun v => Rmax (v - c) 0) l)). lra. Qed.
Lemma map_max_pos l c : Forall (fun v => c <= v) l -> map (fun v => Rmax (v - c) 0) l = map (fun v => v - c) l.
Proof. induction 1 as [|v l Hv H IH]; simpl; [reflexivity|]. rewrite Rmax_left by lra. rewrite IH. reflexivity. Qed.

Lemma pushdown_sum x sum : (0 < length x)%nat -> 0 < sum -> lsum (pushdown x sum) = sum.
Proof.
  intros Hn Hs. rewrite pushdown_unfold. destruct (down_threshold x sum Hn Hs) as (Hk & Hlo & Hhi).
  set (k := k_down x sum) in *. pose proof (lam_down_eq x sum k Hk) as HL. set (lam := lam_down x sum k) in *.
  rewrite (lsum_map_perm _ x (Rsort x)) by (symmetry; apply Rsort_perm).
  rewrite <- (firstn_skipn k (Rsort x)), map_app, lsum_app.
  rewrite lsum_map_max_zero, map_max_pos, lsum_map_sub.
  - rewrite skipn_length, Rsort_length, minus_INR by lia.
    pose proof (firstn_skipn_sum (Rsort x) k) as E. rewrite Rsort_sum in E. lra.
  - apply Forall_nth_skipn. intros j Hj. rewrite Rsort_length in Hj. apply Hhi, Hj.
  - apply Forall_nth_firstn. intros j Hj _. apply Hlo, Hj.
Qed.

Lemma lam_down_nonneg x sum : (0 < length x)%nat -> 0 < sum -> Forall (fun v => 0 <= v) x -> sum <= lsum x ->
  0 <= lam_down x sum (k_down x sum).
Proof.
  intros Hn Hs Hx Hle. destruct (down_threshold x sum Hn Hs) as (Hk & Hlo & _).
  destruct (k_down x sum) as [|k] eqn:E.
  - unfold lam_down. simpl. apply Rmult_le_pos; [lra|]. apply Rlt_le, Rinv_0_lt_compat, lt_0_INR. exact Hn.
  - apply Rle_trans with (nth 0 (Rsort x) 0); [|apply Hlo; lia].
    assert (F : Forall (fun v => 0 <= v) (Rsort x)).
    { apply Forall_forall. intros v Hv. rewrite Forall_forall in Hx. apply Hx. apply (Permutation_in _ (Rsort_perm x)), Hv. }
    rewrite Forall_forall in F. apply F, nth_In. rewrite Rsort_length. lia.
Qed.

(** ** pushup is the mirror image of pushdown *)
Lemma Rsort_one_minus x : map (fun v => 1 - v) (rev (Rsort x)) = Rsort (map (fun v => 1 - v) x).
Proof.
  apply sorted_perm_unique; [| apply Rsort_sorted |].
  - rewrite map_rev. generalize (Rsort_sorted x). induction 1 as [|y l H IH F]; simpl; [constructor|].
    assert (G : forall a b, StronglySorted Rle a -> Forall (fun v => v <= b) a -> StronglySorted Rle (a ++ [b])).
    { induction 1 as [|z a Ha IHa Fa]; intros Fb; simpl; [repeat constructor|]. inversion Fb; subst. constructor; [auto|].
      apply Forall_app. split; [exact Fa|]. constructor; [assumption|constructor]. }
    apply G; [exact IH|]. apply Forall_forall. intros v Hv. apply in_rev in Hv. apply in_map_iff in Hv.
    destruct Hv as (w & <- & Hw). rewrite Forall_forall in F. apply F in Hw. lra.
  - transitivity (map (fun v => 1 - v) x); [|symmetry; apply Rsort_perm].
    apply Permutation_map. rewrite <- Permutation_rev. apply Rsort_perm.
Qed.

Lemma firstn_map' {A B} (f : A -> B) n l : firstn n (map f l) = map f (firstn n l).
Proof. revert l. induction n as [|n IH]; intros [|a l]; simpl; try reflexivity. rewrite IH. reflexivity. Qed.

Lemma argmax_b_ext f g n : (forall i, (i < n)%nat -> f i = g i) -> argmax_b (map f (seq 0 n)) = argmax_b (map g (seq 0 n)).
Proof. intros H. f_equal. apply map_ext_in. intros i Hi. apply in_seq in Hi. apply H. lia. Qed.

Lemma pushup_dual x sum : (0 < length x)%nat ->
  pushup x sum = map (fun v => 1 - v) (pushdown (map (fun v => 1 - v) x) (INR (length x) - sum)).
Proof.
  intros Hn. set (n := length x). unfold pushup, pushdown. fold n. rewrite map_length. fold n.
  rewrite <- Rsort_one_minus, lsum_one_minus. fold n.
  set (z := rev (Rsort x)). assert (Hz : length z = n) by (unfold z; rewrite rev_length, Rsort_length; reflexivity).
  assert (Hc : forall i, (i < n)%nat -> cumsum (map (fun v => 1 - v) z) i = INR (S i) - cumsum z i).
  { intros i Hi. unfold cumsum. rewrite firstn_map', lsum_one_minus, firstn_length, Hz. rewrite Nat.min_l by lia. reflexivity. }
  assert (Hk : forall i, (i < n)%nat ->
     sub_div_lt1 (nth i z 0) (lsum x - sum + (INR i + 1 - cumsum z i)) (INR n - INR i - 1)
     = gt_div (nth i (map (fun v => 1 - v) z) 0) (INR n - lsum x - (INR n - sum) - cumsum (map (fun v => 1 - v) z) i) (INR n - INR i - 1)).
  { intros i Hi. rewrite Hc by exact Hi. rewrite S_INR. rewrite (nth_indep (map (fun v => 1 - v) z) 0 (1 - 0)) by (rewrite map_length; lia).
    rewrite (map_nth (fun v => 1 - v)). unfold sub_div_lt1, gt_div.
    destruct (Req_EM_T _ _) as [|Hd].
    - destruct (Rlt_dec 0 _), (Rlt_dec _ 0); try reflexivity; exfalso; lra.
    - set (a := lsum x - sum + _). set (d := INR n - INR i - 1) in *.
      replace (INR n - lsum x - (INR n - sum) - (INR i + 1 - cumsum z i)) with (- a) by (unfold a; ring).
      replace (- a / d) with (- (a / d)) by (field; exact Hd).
      destruct (Rlt_dec (nth i z 0 - a / d) 1), (Rlt_dec _ (1 - nth i z 0)); try reflexivity; exfalso; lra. }
  rewrite (argmax_b_ext _ _ n Hk). set (k := argmax_b _).
  assert (Hkn : (k < n)%nat).
  { unfold k. match goal with |- (argmax_b ?l < n)%nat => destruct (existsb (fun x => x) l) eqn:E end.
    - apply argmax_b_spec in E. destruct E as [E _]. rewrite map_length, seq_length in E. exact E.
    - rewrite argmax_b_none by exact E. exact Hn. }
  assert (Hlam : (if (k =? 0)%nat then (sum - lsum x) / INR n else (sum - lsum x - (INR k - cumsum z (k - 1))) / (INR n - INR k)) =
     (if (k =? 0)%nat then (INR n - lsum x - (INR n - sum)) / INR n
      else (INR n - lsum x - (INR n - sum) - cumsum (map (fun v => 1 - v) z) (k - 1)) / (INR n - INR k))).
  { destruct (Nat.eqb_spec k 0) as [|Hk0]; [f_equal; ring|]. rewrite Hc by lia. replace (S (k - 1)) with k by lia. f_equal. ring. }
  rewrite Hlam. set (lam := if (k =? 0)%nat then _ else _). rewrite !map_map. apply map_ext. intros v.
  unfold Rmin, Rmax. destruct (Rle_dec (v + lam) 1), (Rle_dec (1 - v - lam) 0); lra.
Qed.

Definition in_unit (x : list R) : Prop := Forall (fun v => 0 <= v <= 1) x.
Lemma in_unit_flip x : in_unit x -> in_unit (map (fun v => 1 - v) x).
Proof. intros H. apply Forall_forall. intros v Hv. apply in_map_iff in Hv. destruct Hv as (w & <- & Hw). unfold in_unit in H. rewrite Forall_forall in H. apply H in Hw. lra. Qed.

Lemma pushdown_range x sum : in_unit x -> (0 < length x)%nat -> 0 < sum -> sum <= lsum x -> in_unit (pushdown x sum).
Proof.
  intros Hx Hn Hs Hle. rewrite pushdown_unfold.
  assert (HL : 0 <= lam_down x sum (k_down x sum)).
  { apply lam_down_nonneg; auto. eapply Forall_impl; [|exact Hx]. simpl; intros; lra. }
  apply Forall_forall. intros v Hv. apply in_map_iff in Hv. destruct Hv as (w & <- & Hw).
  unfold in_unit in Hx. rewrite Forall_forall in Hx. apply Hx in Hw. split; [apply Rmax_r|]. apply Rmax_lub; lra.
Qed.
Lemma pushdown_length x sum : length (pushdown x sum) = length x.
Proof. rewrite pushdown_unfold. apply map_length. Qed.

Lemma proj_length x sum : length (proj x sum) = length x.
Proof. unfold proj. destruct (Rle_dec _ _); [unfold pushup; apply map_length|apply pushdown_length]. Qed.

Lemma length_pos (x : list R) (sum : R) : 0 < sum < INR (length x) -> (0 < length x)%nat.
Proof. intros H. destruct (length x); [simpl in H; lra|lia]. Qed.

Lemma proj_spec x sum : in_unit x -> 0 < sum < INR (length x) -> in_unit (proj x sum) /\ lsum (proj x sum) = sum.
Proof.
  intros Hx Hs. pose proof (length_pos x sum Hs) as Hn. unfold proj. destruct (Rle_dec (lsum x) sum) as [L|L].
  - rewrite pushup_dual by exact Hn.
    assert (Hn' : (0 < length (map (fun v : R => (1 - v)%R) x))%nat) by (rewrite map_length; exact Hn).
    split.
    + apply in_unit_flip, pushdown_range; try apply in_unit_flip; auto; try lra. rewrite lsum_one_minus. lra.
    + rewrite lsum_one_minus, pushdown_length, map_length, pushdown_sum; [ring|exact Hn'|lra].
  - split; [apply pushdown_range; auto; lra|apply pushdown_sum; auto; lra].
Qed.

(** ** Euclidean projection *)
Fixpoint dist2 (a b : list R) : R :=
  match a, b with x :: a', y :: b' => (x - y) * (x - y) + dist2 a' b' | _, _ => 0 end.

Lemma dist2_nonneg a b : 0 <= dist2 a b.
Proof. revert b. induction a as [|x a IH]; intros [|y b]; simpl; try lra. pose proof (IH b). pose proof (Rle_0_sqr (x - y)). unfold Rsqr in *. lra. Qed.
Lemma dist2_zero a b : length a = length b -> dist2 a b = 0 -> a = b.
Proof.
  revert b. induction a as [|x a IH]; intros [|y b] Hl H; simpl in *; try discriminate; [reflexivity|].
  pose proof (dist2_nonneg a b). pose proof (Rle_0_sqr (x - y)) as S. unfold Rsqr in S.
  assert (E : (x - y) * (x - y) = 0) by lra. apply Rmult_integral in E. f_equal; [lra|]. apply IH; [lia|lra].
Qed.
Lemma dist2_flip a b : dist2 (map (fun v => 1 - v) a) (map (fun v => 1 - v) b) = dist2 a b.
Proof. revert b. induction a as [|x a IH]; intros [|y b]; simpl; try reflexivity. rewrite IH. ring. Qed.
Lemma dist2_sym a b : dist2 a b = dist2 b a.
Proof. revert b. induction a as [|x a IH]; intros [|y b]; simpl; try reflexivity. rewrite IH. ring. Qed.

(** obtuse-angle inequality for the soft threshold *)
Lemma threshold_closest lam x q : length q = length x -> Forall (fun v => 0 <= v) q ->
  let p := map (fun v => Rmax (v - lam) 0) x in
  dist2 x p + dist2 q p + 2 * lam * (lsum p - lsum q) <= dist2 x q.
Proof.
  revert q. induction x as [|v x IH]; intros [|w q] Hl Hq; simpl in *; try discriminate; [lra|].
  inversion Hq; subst. specialize (IH q ltac:(lia) ltac:(assumption)). simpl in IH.
  fold (lsum (map (fun v => Rmax (v - lam) 0) x)) (lsum q) in *.
  set (p := map _ x) in *. unfold Rmax. destruct (Rle_dec (v - lam) 0); nra.
Qed.

Lemma pushdown_closest x sum q : (0 < length x)%nat -> 0 < sum -> length q = length x ->
  Forall (fun v => 0 <= v) q -> lsum q = sum ->
  dist2 x (pushdown x sum) + dist2 q (pushdown x sum) <= dist2 x q.
Proof.
  intros Hn Hs Hl Hq Hsum. pose proof (pushdown_sum x sum Hn Hs) as E. rewrite pushdown_unfold in *.
  pose proof (threshold_closest (lam_down x sum (k_down x sum)) x q Hl Hq) as T. cbv zeta in T. rewrite E, Hsum in T. lra.
Qed.

Lemma proj_closest x sum q : in_unit x -> 0 < sum < INR (length x) ->
  length q = length x -> in_unit q -> lsum q = sum ->
  dist2 x (proj x sum) + dist2 q (proj x sum) <= dist2 x q.
Proof.
  intros Hx Hs Hl Hq Hsum. pose proof (length_pos x sum Hs) as Hn. unfold proj. destruct (Rle_dec (lsum x) sum) as [L|L].
  - rewrite pushup_dual by exact Hn. set (f := fun v => 1 - v).
    assert (D1 : forall a b, dist2 a (map f b) = dist2 (map f a) b).
    { induction a as [|v a IH]; intros [|w b]; simpl; try reflexivity. rewrite IH. unfold f. ring. }
    rewrite !D1. rewrite <- (dist2_flip x q). fold f.
    apply pushdown_closest; try (rewrite ?map_length; auto; fail).

    + lra.
    + unfold f. apply in_unit_flip in Hq. eapply Forall_impl; [|exact Hq]. simpl. intros; lra.
    + unfold f. rewrite lsum_one_minus, Hsum, Hl. reflexivity.
  - apply pushdown_closest; auto; try lra. eapply Forall_impl; [|exact Hq]. simpl. intros; lra.
Qed.

(** ** the boundary cases *)
Lemma cond_down_zero x i : (i < length x)%nat -> cond_down x 0 i = false.
Proof.
  intros Hi. destruct (cond_down x 0 i) eqn:E; [|reflexivity]. exfalso.
  destruct (Nat.eq_dec (S i) (length x)) as [El|Hne].
  - replace i with (length x - 1)%nat in E by lia. apply cond_down_last in E; [lra|lia].
  - apply cond_down_iff in E; [|lia].
    pose proof (firstn_skipn_sum (Rsort x) i) as S0. rewrite Rsort_sum in S0.
    assert (F : Forall (fun v => nth i (Rsort x) 0 <= v) (skipn i (Rsort x))).
    { apply Forall_nth_skipn. intros j Hj. apply sorted_nth; [apply Rsort_sorted|lia|lia]. }
    apply lsum_ge in F. rewrite skipn_length, Rsort_length, minus_INR in F by lia. lra.
Qed.

Lemma pushdown_zero x : (0 < length x)%nat -> pushdown x 0 = map (fun v => Rmax (v - lsum x / INR (length x)) 0) x.
Proof.
  intros Hn. rewrite pushdown_unfold.
  assert (Hk : k_down x 0 = 0%nat).
  { unfold k_down. apply argmax_b_none. apply not_true_is_false. intros H. apply existsb_exists in H.
    destruct H as (b & Hb & Et). apply in_map_iff in Hb. destruct Hb as (i & <- & Hi). apply in_seq in Hi.
    rewrite cond_down_zero in Et by lia. discriminate. }
  rewrite Hk. unfold lam_down. simpl. apply map_ext. intros v. f_equal. f_equal. rewrite Rminus_0_r. reflexivity.
Qed.

Definition all_equal (x : list R) : Prop := forall a b, In a x -> In b x -> a = b.

Lemma all_le_mean x c : (0 < length x)%nat -> lsum x = INR (length x) * c -> Forall (fun v => v <= c) x -> Forall (fun v => v = c) x.
Proof.
  intros _ Hs F.
  assert (G : Forall (fun v => v = 0) (map (fun v => c - v) x)).
  { apply lsum_zero_iff.
    - apply Forall_forall. intros v Hv. apply in_map_iff in Hv. destruct Hv as (w & <- & Hw). rewrite Forall_forall in F. apply F in Hw. lra.
    - assert (E : forall l, lsum (map (fun v => c - v) l) = INR (length l) * c - lsum l).
      { induction l as [|v l IH]; [simpl; ring|]. cbn [map lsum fold_right length]. fold (lsum l) (lsum (map (fun v => c - v) l)). rewrite IH, S_INR. ring. }
      rewrite E. lra. }
  apply Forall_forall. intros v Hv. rewrite Forall_forall in G.
  specialize (G (c - v)). assert (c - v = 0) by (apply G, in_map_iff; exists v; auto). lra.
Qed.

Lemma pushdown_zero_sum x : (0 < length x)%nat -> (lsum (pushdown x 0) = 0 <-> all_equal x).
Proof.
  intros Hn. rewrite pushdown_zero by exact Hn. set (c := lsum x / INR (length x)).
  pose proof (lt_0_INR _ Hn) as Hp.
  assert (Hc : lsum x = INR (length x) * c) by (unfold c; field; lra).
  split.
  - intros H. assert (F : Forall (fun v => v <= c) x).
    { assert (G : Forall (fun v => v = 0) (map (fun v => Rmax (v - c) 0) x)).
      { apply lsum_zero_iff; [|exact H]. apply Forall_forall. intros v Hv. apply in_map_iff in Hv. destruct Hv as (w & <- & _). apply Rmax_r. }
      apply Forall_forall. intros v Hv. rewrite Forall_forall in G.
      assert (Rmax (v - c) 0 = 0) by (apply G, in_map_iff; exists v; auto). pose proof (Rmax_l (v - c) 0). lra. }
    pose proof (all_le_mean x c Hn Hc F) as G. rewrite Forall_forall in G. intros a b Ha Hb. rewrite (G a Ha), (G b Hb). reflexivity.
  - intros He. apply lsum_map_max_zero. destruct x as [|v0 x]; [simpl in Hn; lia|].
    assert (G : Forall (fun v => v = v0) (v0 :: x)) by (apply Forall_forall; intros v Hv; apply He; [exact Hv|left; reflexivity]).
    assert (E : lsum (v0 :: x) = INR (length (v0 :: x)) * v0).
    { apply Rle_antisym; [apply lsum_le|apply lsum_ge]; (eapply Forall_impl; [|exact G]; simpl; intros; lra). }
    assert (c = v0) by (apply (Rmult_eq_reg_l (INR (length (v0 :: x)))); lra).
    eapply Forall_impl; [|exact G]. simpl. intros; lra.
Qed.

Lemma all_equal_flip x : all_equal (map (fun v => 1 - v) x) <-> all_equal x.
Proof.
  split; intros H a b Ha Hb.
  - assert (1 - a = 1 - b) by (apply H; apply in_map_iff; eexists; split; eauto). lra.
  - apply in_map_iff in Ha. destruct Ha as (a' & <- & Ha). apply in_map_iff in Hb. destruct Hb as (b' & <- & Hb). rewrite (H a' b'); auto.
Qed.

Lemma proj_zero x : in_unit x -> (0 < length x)%nat -> (lsum (proj x 0) = 0 <-> all_equal x).
Proof.
  intros Hx Hn. unfold proj. destruct (Rle_dec (lsum x) 0) as [L|L]; [|apply pushdown_zero_sum, Hn].
  assert (Hnn : Forall (fun v => 0 <= v) x) by (eapply Forall_impl; [|exact Hx]; simpl; intros; lra).
  assert (E : lsum x = 0) by (pose proof (lsum_nonneg x Hnn); lra).
  pose proof (lsum_zero_iff x Hnn E) as Z. split.
  - intros _ a b Ha Hb. rewrite Forall_forall in Z. rewrite (Z a Ha), (Z b Hb). reflexivity.
  - intros _. rewrite pushup_dual by exact Hn. rewrite lsum_one_minus, pushdown_length, map_length, pushdown_sum.
    + ring.
    + rewrite map_length. exact Hn.
    + pose proof (lt_0_INR _ Hn). lra.
Qed.

Lemma proj_full x : in_unit x -> (0 < length x)%nat -> (lsum (proj x (INR (length x))) = INR (length x) <-> all_equal x).
Proof.
  intros Hx Hn. unfold proj.
  assert (Hle : lsum x <= INR (length x)).
  { rewrite <- (Rmult_1_r (INR (length x))). apply lsum_le. eapply Forall_impl; [|exact Hx]. simpl; intros; lra. }
  destruct (Rle_dec _ _) as [_|N]; [|contradiction].
  rewrite pushup_dual by exact Hn. rewrite Rminus_diag_eq by reflexivity. rewrite lsum_one_minus, pushdown_length, map_length.
  rewrite <- all_equal_flip, <- pushdown_zero_sum by (rewrite map_length; exact Hn). split; lra.
Qed.
