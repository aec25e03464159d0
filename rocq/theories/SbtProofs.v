From Coq Require Import Reals Lra Lia ZArith.
From Coquelicot Require Import Coquelicot.
From Coq Require Import List Arith Bool.
From Verif Require Import Base Sums SbtModel SbtSpec.
Import ListNotations.
Local Open Scope R_scope.

(** ** Simpson weights *)
Lemma fold_outside h x : forall m w j, (m < j)%nat -> fold_left (simpson_step h x) (down m) w j = w j.
Proof.
  intros m. induction m as [m IH] using lt_wf_ind. intros w j Hj. destruct m as [|[|k]]; [reflexivity|reflexivity|].
  cbn [down fold_left]. rewrite IH by lia. unfold simpson_step, upd.
  repeat match goal with |- context [(j =? ?a)%nat] => destruct (Nat.eqb_spec j a); [lia|] end. reflexivity.
Qed.
Lemma fold_ext h x : forall m w w' j, (forall i, (i <= m)%nat -> w i = w' i) -> (j <= m)%nat ->
  fold_left (simpson_step h x) (down m) w j = fold_left (simpson_step h x) (down m) w' j.
Proof.
  intros m. induction m as [m IH] using lt_wf_ind. intros w w' j H Hj. destruct m as [|[|k]]; [apply H; lia|apply H; lia|].
  cbn [down fold_left]. destruct (le_lt_dec j k) as [L|L].
  - apply IH; [lia| |exact L]. intros i Hi. unfold simpson_step, upd. destruct (Nat.eqb_spec i (S (S k) - 2)); [reflexivity|].
    destruct (Nat.eqb_spec i (S (S k) - 1)); [reflexivity|]. destruct (Nat.eqb_spec i (S (S k))); [lia|]. apply H. lia.
  - rewrite !fold_outside by exact L. unfold simpson_step, upd. destruct (Nat.eqb_spec j (S (S k) - 2)); [reflexivity|].
    destruct (Nat.eqb_spec j (S (S k) - 1)); [reflexivity|]. destruct (Nat.eqb_spec j (S (S k))) as [E|]; [rewrite (H (S (S k))) by lia; reflexivity|lia].
Qed.
Definition peak (m : nat) (c : R) (j : nat) : R := if (j =? m)%nat then c else 0.
Lemma sumR_seq_S n f : sumR (seq 0 (S n)) f = sumR (seq 0 n) f + f n.
Proof. rewrite seq_S, sumR_app. cbn [Nat.add]. unfold sumR at 2. cbn. ring. Qed.
Lemma weighted_sum h x f : forall m c,
  sumR (seq 0 (S m)) (fun j => fold_left (simpson_step h x) (down m) (peak m c) j * f j) =
  c * f m + sumR (down m) (fun ii => simpson_panel h (x (ii - 2)%nat * f (ii - 2)%nat) (x (ii - 1)%nat * f (ii - 1)%nat) (x ii * f ii)).
Proof.
  intros m. induction m as [m IH] using lt_wf_ind. intros c. destruct m as [|[|k]].
  - unfold sumR, peak. cbn. ring.
  - unfold sumR, peak. cbn. ring.
  - rewrite (sumR_seq_S (S (S k))), (sumR_seq_S (S k)). cbn [down fold_left].
    set (w := simpson_step h x (peak (S (S k)) c) (S (S k))).
    assert (Ew1 : w (S (S k)) = h * x (S (S k)) / 3 + c).
    { unfold w, simpson_step, upd, peak. repeat (match goal with |- context [(?a =? ?b)%nat] => destruct (Nat.eqb_spec a b); try lia end). reflexivity. }
    assert (Ew2 : w (S k) = h * x (S k) * 4 / 3).
    { unfold w, simpson_step, upd, peak. repeat (match goal with |- context [(?a =? ?b)%nat] => destruct (Nat.eqb_spec a b); try lia end). rewrite <- e. reflexivity. }
    assert (Ew3 : forall j, (j <= k)%nat -> w j = peak k (h * x k / 3) j).
    { intros j Hj. unfold w, simpson_step, upd, peak. replace (S (S k) - 2)%nat with k by lia. replace (S (S k) - 1)%nat with (S k) by lia.
      repeat (match goal with |- context [(?a =? ?b)%nat] => destruct (Nat.eqb_spec a b); try lia end); reflexivity. }
    rewrite (fold_outside h x k w (S (S k))), (fold_outside h x k w (S k)), Ew1, Ew2 by lia.
    rewrite (sumR_ext (seq 0 (S k)) _ (fun j => fold_left (simpson_step h x) (down k) (peak k (h * x k / 3)) j * f j)).
    2:{ intros j Hj. apply in_seq in Hj. rewrite (fold_ext h x k w (peak k (h * x k / 3))); [reflexivity|exact Ew3|lia]. }
    rewrite IH by lia. change (sumR (S (S k) :: down k) ?g) with (g (S (S k)) + sumR (down k) g). cbv beta.
    replace (S (S k) - 2)%nat with k by lia. replace (S (S k) - 1)%nat with (S k) by lia. unfold simpson_panel. field.
Qed.
Lemma down_panels (g : nat -> R) : forall p o, (o <= 1)%nat -> sumR (down (o + 2 * p)) g = sumR (seq 0 p) (fun q => g (o + 2 * q + 2)%nat).
Proof.
  induction p as [|p IH]; intros o Ho.
  - replace (o + 2 * 0)%nat with o by lia. destruct o as [|[|o]]; [reflexivity|reflexivity|lia].
  - replace (o + 2 * S p)%nat with (S (S (o + 2 * p))) by lia. cbn [down]. change (sumR (?a :: ?l) g) with (g a + sumR l g).
    rewrite IH by exact Ho. rewrite sumR_seq_S. replace (o + 2 * p + 2)%nat with (S (S (o + 2 * p))) by lia. ring.
Qed.
Lemma simpson_composite h x f o p : (o <= 1)%nat ->
  sumR (seq 0 (o + 2 * p + 1)) (fun i => simpson_weights h x (o + 2 * p + 1) i * f i) = composite h (fun i => x i * f i) o p.
Proof.
  intros Ho. unfold simpson_weights. replace (o + 2 * p + 1 - 1)%nat with (o + 2 * p)%nat by lia. replace (o + 2 * p + 1)%nat with (S (o + 2 * p)) by lia.
  rewrite (sumR_ext _ _ (fun j => fold_left (simpson_step h x) (down (o + 2 * p)) (peak (o + 2 * p) 0) j * f j)).
  2:{ intros j Hj. apply in_seq in Hj. rewrite (fold_ext h x _ _ (peak (o + 2 * p) 0)); [reflexivity| |lia].
      intros i _. unfold peak. destruct (i =? _)%nat; reflexivity. }
  rewrite weighted_sum, down_panels by exact Ho. unfold composite. rewrite Rmult_0_l, Rplus_0_l. apply sumR_ext. intros q _.
  replace (o + 2 * q + 2 - 2)%nat with (o + 2 * q)%nat by lia. replace (o + 2 * q + 2 - 1)%nat with (o + 2 * q + 1)%nat by lia. reflexivity.
Qed.
(** Even number of points: the first one is ignored. *)
Lemma fold_zero h x : forall m w, Nat.odd m = true -> fold_left (simpson_step h x) (down m) w 0%nat = w 0%nat.
Proof.
  intros m. induction m as [m IH] using lt_wf_ind. intros w Hm. destruct m as [|[|k]]; [reflexivity|reflexivity|].
  cbn [down fold_left]. change (Nat.odd (S (S k))) with (Nat.odd k) in Hm. rewrite IH by (try lia; exact Hm).
  destruct k as [|k]; [discriminate|]. unfold simpson_step, upd. replace (S (S (S k)) - 2)%nat with (S k) by lia. replace (S (S (S k)) - 1)%nat with (S (S k)) by lia. reflexivity.
Qed.
Lemma simpson_even h x nr : Nat.even nr = true -> simpson_weights h x nr 0%nat = 0.
Proof.
  intros H. unfold simpson_weights. destruct nr as [|nr]; [reflexivity|]. replace (S nr - 1)%nat with nr by lia. rewrite fold_zero; [reflexivity|].
  rewrite Nat.even_succ in H. exact H.
Qed.

(** *** Exactness on cubics *)
Definition anti (a b c d t : R) : R := a * t + b * t ^ 2 / 2 + c * t ^ 3 / 3 + d * t ^ 4 / 4.
Lemma panel_exact a b c d h t : simpson_panel h (cubic a b c d t) (cubic a b c d (t + h)) (cubic a b c d (t + 2 * h)) = anti a b c d (t + 2 * h) - anti a b c d t.
Proof. unfold simpson_panel, cubic, anti. field. Qed.
Lemma composite_exact a b c d h t0 o p : 
  composite h (fun i => cubic a b c d (t0 + INR i * h)) o p = anti a b c d (t0 + INR (o + 2 * p) * h) - anti a b c d (t0 + INR o * h).
Proof.
  unfold composite. induction p as [|p IH].
  - unfold sumR. cbn [seq fold_right map]. replace (o + 2 * 0)%nat with o by lia. unfold sumR; cbn. ring.
  - rewrite sumR_seq_S, IH. replace (t0 + INR (o + 2 * p + 1) * h) with (t0 + INR (o + 2 * p) * h + h) by (rewrite (plus_INR (o + 2 * p) 1); cbn [INR]; ring).
    replace (t0 + INR (o + 2 * p + 2) * h) with (t0 + INR (o + 2 * p) * h + 2 * h) by (rewrite (plus_INR (o + 2 * p) 2); cbn [INR]; ring).
    rewrite panel_exact. replace (o + 2 * S p)%nat with (o + 2 * p + 2)%nat by lia.
    replace (t0 + INR (o + 2 * p + 2) * h) with (t0 + INR (o + 2 * p) * h + 2 * h) by (rewrite (plus_INR (o + 2 * p) 2); cbn [INR]; ring). ring.
Qed.
Lemma anti_RInt a b c d s t : is_RInt (cubic a b c d) s t (anti a b c d t - anti a b c d s).
Proof.
  apply (is_RInt_derive (anti a b c d) (cubic a b c d)).
  - intros x _. unfold anti, cubic. auto_derive; [trivial|field].
  - intros x _. unfold cubic. apply (ex_derive_continuous (fun t => a + b * t + c * t ^ 2 + d * t ^ 3)). auto_derive. trivial.
Qed.
Lemma simpson_exact a b c d h t0 x f o p : (o <= 1)%nat ->
  (forall i, (i < o + 2 * p + 1)%nat -> x i * f i = cubic a b c d (t0 + INR i * h)) ->
  sumR (seq 0 (o + 2 * p + 1)) (fun i => simpson_weights h x (o + 2 * p + 1) i * f i) =
  RInt (cubic a b c d) (t0 + INR o * h) (t0 + INR (o + 2 * p) * h).
Proof.
  intros Ho H. rewrite simpson_composite by exact Ho. rewrite (is_RInt_unique _ _ _ _ (anti_RInt a b c d _ _)). rewrite <- composite_exact.
  unfold composite. apply sumR_ext. intros q Hq. apply in_seq in Hq. rewrite !H by lia. reflexivity.
Qed.

(** ** The numerical transform *)
Section Num.
Variable jn : Z -> R -> R.
Lemma spacing_length r : length (spacing r) = length r.
Proof. induction r as [|a [|b r] IH]; [reflexivity|reflexivity|]. cbn [spacing length]. cbn [spacing length] in IH. rewrite IH. reflexivity. Qed.
Lemma spacing_nth r : forall i, (i < length r)%nat -> nth i (spacing r) 0 = if (S i =? length r)%nat then 0 else nth (S i) r 0 - nth i r 0.
Proof.
  induction r as [|a [|b r] IH]; intros i Hi; [cbn in Hi; lia| |].
  - cbn in Hi. replace i with 0%nat by lia. reflexivity.
  - destruct i as [|i]; [reflexivity|]. change (nth (S i) (spacing (a :: b :: r)) 0) with (nth i (spacing (b :: r)) 0).
    rewrite IH by (cbn [length] in *; lia). reflexivity.
Qed.
Lemma quad_linear r delta f1 f2 f a b l g : (forall i, (i < length r)%nat -> nth i f 0 = a * nth i f1 0 + b * nth i f2 0) ->
  quad jn r delta f l g = a * quad jn r delta f1 l g + b * quad jn r delta f2 l g.
Proof.
  intros H. unfold quad. rewrite <- !sumR_scal, <- sumR_plus. apply sumR_ext. intros i Hi. apply in_seq in Hi. rewrite H by lia. ring.
Qed.
Lemma quad_last r f f' l g : (forall i, (S i < length r)%nat -> nth i f 0 = nth i f' 0) -> quad jn r (spacing r) f l g = quad jn r (spacing r) f' l g.
Proof.
  intros H. unfold quad. apply sumR_ext. intros i Hi. apply in_seq in Hi. rewrite spacing_nth by lia.
  destruct (Nat.eqb_spec (S i) (length r)); [ring|]. rewrite H by lia. reflexivity.
Qed.

Definition rows_of (f : f_arg) : list (list R) := match f with F1 v => [v] | F2 fs => fs end.
Lemma sbt_int r f l0 k delta out : sbt_numerical jn r f (LInt l0) (Some k) delta = Ok out <->
  let d := match delta with Some d => d | None => spacing r end in
  Forall (fun row => length row = length r) (rows_of f) /\ length d = length r /\
  out = (linspace (/ 10000) k (2 * length r), map (fun v => map (quad jn r d v l0) (linspace (/ 10000) k (2 * length r))) (rows_of f)).
Proof.
  unfold sbt_numerical. fold (rows_of f). set (d := match delta with Some d => d | None => spacing r end). cbv zeta.
  destruct (forallb _ (rows_of f) && _) eqn:E.
  - apply andb_true_iff in E. destruct E as [E1 E2]. apply Nat.eqb_eq in E2. rewrite forallb_forall in E1.
    assert (F : Forall (fun row => length row = length r) (rows_of f)) by (apply Forall_forall; intros x Hx; apply Nat.eqb_eq; apply E1; exact Hx).
    split; [intros H|intros (_ & _ & ->); reflexivity]. split; [exact F|]. split; [exact E2|]. congruence.
  - split; [discriminate|]. intros (F & L & _). exfalso. apply andb_false_iff in E. destruct E as [E|E]; [|apply Nat.eqb_neq in E; contradiction].
    assert (forallb (fun row : list R => (length row =? length r)%nat) (rows_of f) = true); [|congruence].
    apply forallb_forall. intros x Hx. apply Nat.eqb_eq. rewrite Forall_forall in F. apply F. exact Hx.
Qed.
Lemma sbt_list r f ls k delta out : sbt_numerical jn r f (LList ls) (Some k) delta = Ok out <->
  let d := match delta with Some d => d | None => spacing r end in
  exists fs, f = F2 fs /\ length fs = length ls /\ Forall (fun row => length row = length r) fs /\ length d = length r /\
  out = (linspace (/ 10000) k (2 * length r), map (fun fl => map (quad jn r d (fst fl) (snd fl)) (linspace (/ 10000) k (2 * length r))) (combine fs ls)).
Proof.
  unfold sbt_numerical. set (d := match delta with Some d => d | None => spacing r end). cbv zeta. destruct f as [v|fs]; [split; [discriminate|intros (fs & E & _); discriminate]|].
  destruct (Nat.eqb_spec (length fs) (length ls)) as [L|L]; [|split; [discriminate|intros (fs' & E & L' & _); congruence]].
  destruct (forallb _ fs && _) eqn:E.
  - apply andb_true_iff in E. destruct E as [E1 E2]. apply Nat.eqb_eq in E2. rewrite forallb_forall in E1.
    assert (F : Forall (fun row => length row = length r) fs) by (apply Forall_forall; intros x Hx; apply Nat.eqb_eq; apply E1; exact Hx).
    split; [intros H|intros (fs' & E & _ & _ & _ & ->); injection E as <-; reflexivity].
    exists fs. split; [reflexivity|]. split; [exact L|]. split; [exact F|]. split; [exact E2|]. congruence.
  - split; [discriminate|]. intros (fs' & Ef & _ & F & L2 & _). injection Ef as <-. exfalso. apply andb_false_iff in E. destruct E as [E|E]; [|apply Nat.eqb_neq in E; contradiction].
    assert (forallb (fun row : list R => (length row =? length r)%nat) fs = true); [|congruence].
    apply forallb_forall. intros x Hx. apply Nat.eqb_eq. rewrite Forall_forall in F. apply F. exact Hx.
Qed.
(** List l is the stack of the single-l calls. *)
Lemma sbt_stack r fs ls k delta g rows : sbt_numerical jn r (F2 fs) (LList ls) (Some k) delta = Ok (g, rows) <->
  length fs = length ls /\ length rows = length fs /\ g = linspace (/ 10000) k (2 * length r) /\ 
  length (match delta with Some d => d | None => spacing r end) = length r /\
  forall i, (i < length fs)%nat -> sbt_numerical jn r (F1 (nth i fs [])) (LInt (nth i ls 0%Z)) (Some k) delta = Ok (g, [nth i rows []]).
Proof.
  rewrite sbt_list. cbv zeta. set (d := match delta with Some d => d | None => spacing r end). split.
  - intros (fs' & E & L & F & Ld & Eo). injection E as <-. injection Eo as -> ->. rewrite map_length, combine_length, L, Nat.min_id.
    repeat (split; [first [reflexivity|assumption]|]). intros i Hi. apply sbt_int. cbv zeta. fold d. cbn [rows_of]. split; [|split; [exact Ld|]].
    + constructor; [|constructor]. rewrite Forall_forall in F. apply F. apply nth_In. lia.
    + cbn [map]. f_equal. f_equal.
      rewrite (nth_indep _ [] ((fun fl => map (quad jn r d (fst fl) (snd fl)) (linspace (/ 10000) k (2 * length r))) ([], 0%Z))) by (rewrite map_length, combine_length; lia).
      rewrite (map_nth (fun fl => map (quad jn r d (fst fl) (snd fl)) (linspace (/ 10000) k (2 * length r)))), combine_nth by exact L. reflexivity.
  - intros (L & Lr & -> & Ld & H). exists fs. split; [reflexivity|]. split; [exact L|].
    assert (H' : forall i, (i < length fs)%nat -> length (nth i fs []) = length r /\ nth i rows [] = map (quad jn r d (nth i fs []) (nth i ls 0%Z)) (linspace (/ 10000) k (2 * length r))).
    { intros i Hi. specialize (H i Hi). apply sbt_int in H. cbv zeta in H. fold d in H. destruct H as (F & _ & E). cbn [rows_of] in *.
      split; [inversion F; assumption|]. cbn [map] in E. congruence. }
    split; [|split; [exact Ld|]].
    + apply Forall_nth. intros i d0 Hi. rewrite (nth_indep _ d0 []) by exact Hi. apply H'. exact Hi.
    + f_equal. apply nth_ext with (d := []) (d' := []).
      * rewrite map_length, combine_length. lia.
      * intros i Hi. destruct (H' i ltac:(lia)) as [_ ->].
        rewrite (nth_indep (map _ (combine fs ls)) [] ((fun fl => map (quad jn r d (fst fl) (snd fl)) (linspace (/ 10000) k (2 * length r))) ([], 0%Z))) by (rewrite map_length, combine_length; lia).
        rewrite (map_nth (fun fl => map (quad jn r d (fst fl) (snd fl)) (linspace (/ 10000) k (2 * length r)))), combine_nth by exact L. reflexivity.
Qed.
End Num.

(** ** Error of the numerical transform *)
Fixpoint left_sum (F : R -> R) (r : list R) : R :=
  match r with a :: ((b :: _) as r') => F a * (b - a) + left_sum F r' | _ => 0 end.
Lemma sumR_seq_shift n f : sumR (seq 1 n) f = sumR (seq 0 n) (fun i => f (S i)).
Proof. rewrite <- seq_shift. apply sumR_map. Qed.
Lemma quad_left jn l g phi : forall r, quad jn r (spacing r) (map phi r) l g = left_sum (fun s => phi s * s ^ 2 * jn l (g * s)) r.
Proof.
  induction r as [|a [|b r] IH]; [reflexivity|unfold quad, sumR; cbn; ring|].
  unfold quad. cbn [length]. change (seq 0 (S (S (length r)))) with (0%nat :: seq 1 (S (length r))).
  change (sumR (0%nat :: ?t) ?f) with (f 0%nat + sumR t f). rewrite sumR_seq_shift.
  change (left_sum ?F (a :: b :: r)) with (F a * (b - a) + left_sum F (b :: r)). rewrite <- IH. reflexivity.
Qed.
Definition clamp (a b s : R) : R := Rmax a (Rmin b s).
Lemma clamp_in a b s : a <= b -> a <= clamp a b s <= b.
Proof. intros H. unfold clamp, Rmax, Rmin. destruct (Rle_dec b s), (Rle_dec a _); lra. Qed.
Lemma clamp_id a b s : a <= s <= b -> clamp a b s = s.
Proof. intros H. unfold clamp, Rmax, Rmin. destruct (Rle_dec b s), (Rle_dec a _); lra. Qed.
Lemma clamp_lip a b s t : a <= b -> Rabs (clamp a b s - clamp a b t) <= Rabs (s - t).
Proof.
  intros H. unfold clamp, Rmax, Rmin.
  destruct (Rle_dec b s), (Rle_dec b t); repeat (match goal with |- context [Rle_dec ?x ?y] => destruct (Rle_dec x y) end); unfold Rabs;
    repeat (match goal with |- context [Rcase_abs ?x] => destruct (Rcase_abs x) end); lra.
Qed.
Lemma lip_ex_RInt F L a b : a <= b -> 0 <= L -> (forall s t, a <= s <= b -> a <= t <= b -> Rabs (F s - F t) <= L * Rabs (s - t)) -> ex_RInt F a b.
Proof.
  intros Hab HL H. apply (ex_RInt_ext (fun s => F (clamp a b s))).
  - intros x Hx. rewrite Rmin_left, Rmax_right in Hx by exact Hab. rewrite clamp_id by lra. reflexivity.
  - apply (ex_RInt_continuous (V := R_CompleteNormedModule)). intros z _. apply continuity_pt_filterlim. intros eps He.
    exists (eps / (L + 1)). split; [apply Rdiv_lt_0_compat; lra|]. intros x [_ Hx]. cbn in Hx |- *. unfold R_dist in *.
    eapply Rle_lt_trans; [apply H; apply clamp_in; exact Hab|].
    eapply Rle_lt_trans; [apply Rmult_le_compat_l; [exact HL|apply clamp_lip; exact Hab]|].
    apply Rle_lt_trans with (L * (eps / (L + 1))).
    + apply Rmult_le_compat_l; [exact HL|lra].
    + apply Rmult_lt_reg_r with (L + 1); [lra|]. field_simplify; [|lra]. nra.
Qed.
Lemma steps_last h : forall r a, steps_upto h (a :: r) -> a <= last (a :: r) 0.
Proof.
  induction r as [|b r IH]; intros a H; [cbn; lra|]. destruct H as [H1 H2]. change (last (a :: b :: r) 0) with (last (b :: r) 0).
  specialize (IH b H2). lra.
Qed.
Lemma left_sum_error F L h : 0 <= L -> forall r a, steps_upto h (a :: r) ->
  (forall s t, a <= s <= last (a :: r) 0 -> a <= t <= last (a :: r) 0 -> Rabs (F s - F t) <= L * Rabs (s - t)) ->
  Rabs (left_sum F (a :: r) - RInt F a (last (a :: r) 0)) <= L * h * (last (a :: r) 0 - a).
Proof.
  intros HL. induction r as [|b r IH]; intros a Hs HF.
  - cbn [left_sum last]. rewrite RInt_point. change (zero : R) with 0. rewrite Rminus_0_r, Rabs_R0. lra.
  - destruct Hs as [H1 H2]. pose proof (steps_last h r b H2) as Hl. change (last (a :: b :: r) 0) with (last (b :: r) 0) in *.
    set (e := last (b :: r) 0) in *. 
    assert (Hab : ex_RInt F a b) by (apply (lip_ex_RInt F L); [lra|exact HL|intros; apply HF; lra]).
    assert (Hbe : ex_RInt F b e) by (apply (lip_ex_RInt F L); [lra|exact HL|intros; apply HF; lra]).
    rewrite <- (RInt_Chasles F a b e Hab Hbe). change (plus (RInt F a b) (RInt F b e)) with (RInt F a b + RInt F b e).
    change (left_sum F (a :: b :: r)) with (F a * (b - a) + left_sum F (b :: r)).
    specialize (IH b H2). fold e in IH. assert (HF' : forall s t, b <= s <= e -> b <= t <= e -> Rabs (F s - F t) <= L * Rabs (s - t)) by (intros; apply HF; lra).
    specialize (IH HF').
    assert (E : Rabs (F a * (b - a) - RInt F a b) <= (b - a) * (L * h)).
    { assert (Ec : F a * (b - a) = RInt (fun _ => F a) a b) by (rewrite RInt_const; unfold scal; cbn; unfold mult; cbn; ring).
      rewrite Ec. rewrite <- (RInt_minus (fun _ => F a) F a b (ex_RInt_const _ _ _) Hab) at 1.
      apply abs_RInt_le_const; [lra|apply (ex_RInt_minus (fun _ => F a) F); [apply ex_RInt_const|exact Hab]|].
      intros t Ht. eapply Rle_trans; [apply HF; lra|]. apply Rmult_le_compat_l; [exact HL|]. rewrite Rabs_left1; lra. }
    replace (F a * (b - a) + left_sum F (b :: r) - (RInt F a b + RInt F b e)) with ((F a * (b - a) - RInt F a b) + (left_sum F (b :: r) - RInt F b e)) by ring.
    eapply Rle_trans; [apply Rabs_triang|]. replace (L * h * (e - a)) with ((b - a) * (L * h) + L * h * (e - b)) by ring. lra.
Qed.
Lemma quad_error jn l g phi L h r a : 0 <= L -> steps_upto h (a :: r) ->
  let F s := phi s * s ^ 2 * jn l (g * s) in
  (forall s t, a <= s <= last (a :: r) 0 -> a <= t <= last (a :: r) 0 -> Rabs (F s - F t) <= L * Rabs (s - t)) ->
  Rabs (quad jn (a :: r) (spacing (a :: r)) (map phi (a :: r)) l g - RInt F a (last (a :: r) 0)) <= L * h * (last (a :: r) 0 - a).
Proof. intros HL Hs F HF. rewrite quad_left. apply left_sum_error; assumption. Qed.

(** ** Batched transform *)
Lemma list_end {A} (l : list A) : l = [] \/ exists l' x, l = l' ++ [x].
Proof. destruct l as [|a l]; [left; reflexivity|right]. destruct (exists_last (l := a :: l)) as (l' & x & E); [discriminate|]. exists l', x. exact E. Qed.
Section Batch.
Context {K G : Type} (sbt1 : list R -> Z -> K * G).
Lemma batch_gen {A} (t : A -> K * G) (l : list A) (k : K) (out : list G) :
  match rev (map t l) with [] => Err UnboundLocalErr | (k, _) :: _ => Ok (k, map (fun x => snd (t x)) l) end = Ok (k, out) <->
  out = map (fun x => snd (t x)) l /\ exists l' x, l = l' ++ [x] /\ k = fst (t x).
Proof.
  destruct (list_end l) as [->|(l' & x & ->)].
  - cbn. split; [discriminate|]. intros (_ & l' & x & E & _). destruct l'; discriminate.
  - rewrite map_app, rev_app_distr. cbn [map rev app]. destruct (t x) as [k0 g0] eqn:Et. split.
    + intros E. split; [congruence|]. exists l', x. rewrite Et. split; [reflexivity|]. cbn. congruence.
    + intros (-> & l2 & x2 & E & ->). apply app_inj_tail in E. destruct E as [_ <-]. rewrite Et. reflexivity.
Qed.
Lemma batch_int fs l k out : batch_sbt sbt1 fs (LInt l) = Ok (k, out) <->
  out = map (fun f => snd (sbt1 f l)) fs /\ exists fs' f, fs = fs' ++ [f] /\ k = fst (sbt1 f l).
Proof. unfold batch_sbt. apply (batch_gen (fun f => sbt1 f l)). Qed.
Lemma batch_list fs ls k out : batch_sbt sbt1 fs (LList ls) = Ok (k, out) <->
  out = map (fun fl => snd (sbt1 (fst fl) (snd fl))) (combine fs ls) /\ exists p fl, combine fs ls = p ++ [fl] /\ k = fst (sbt1 (fst fl) (snd fl)).
Proof. unfold batch_sbt. apply (batch_gen (fun fl => sbt1 (fst fl) (snd fl))). Qed.
(** Row by row. *)
Lemma batch_rows fs ls k out : batch_sbt sbt1 fs (LList ls) = Ok (k, out) ->
  length out = Nat.min (length fs) (length ls) /\
  forall i d, (i < length out)%nat -> nth i out d = snd (sbt1 (nth i fs []) (nth i ls 0%Z)).
Proof.
  intros H. apply batch_list in H. destruct H as [-> _]. split; [rewrite map_length; apply combine_length|]. intros i d Hi. rewrite map_length in Hi.
  rewrite (nth_indep _ d (snd (sbt1 [] 0%Z))) by (rewrite map_length; exact Hi).
  change (snd (sbt1 [] 0%Z)) with ((fun fl => snd (sbt1 (fst fl) (snd fl))) ([], 0%Z)). rewrite map_nth.
  assert (E : nth i (combine fs ls) ([], 0%Z) = (nth i fs [], nth i ls 0%Z)); [|rewrite E; reflexivity].
  clear k. revert ls i Hi. induction fs as [|f fs IH]; intros ls i Hi; [cbn in Hi; lia|]. destruct ls as [|x ls]; [cbn in Hi; lia|].
  destruct i as [|i]; [reflexivity|]. cbn [combine nth]. apply IH. cbn in Hi. lia.
Qed.
Lemma batch_int_rows fs l k out : batch_sbt sbt1 fs (LInt l) = Ok (k, out) ->
  length out = length fs /\ forall i d, (i < length fs)%nat -> nth i out d = snd (sbt1 (nth i fs []) l).
Proof.
  intros H. apply batch_int in H. destruct H as [-> _]. split; [apply map_length|]. intros i d Hi.
  rewrite (nth_indep _ d (snd (sbt1 [] l))) by (rewrite map_length; exact Hi). apply (map_nth (fun f => snd (sbt1 f l))).
Qed.
Lemma batch_raises fs l : raises (batch_sbt sbt1 fs l) <-> l = LOther \/ fs = [] \/ l = LList [].
Proof.
  unfold raises. split.
  - intros [e H]. destruct l as [l|ls|]; [| |left; reflexivity]; cbn in H.
    + destruct fs as [|f fs]; [right; left; reflexivity|]. exfalso. destruct (list_end (f :: fs)) as [E|(a & b & E)]; [discriminate|]. rewrite E in H.
      rewrite map_app, rev_app_distr in H. cbn in H. destruct (sbt1 b l); discriminate.
    + destruct fs as [|f fs]; [right; left; reflexivity|]. destruct ls as [|x ls]; [right; right; reflexivity|]. exfalso.
      destruct (list_end (combine (f :: fs) (x :: ls))) as [E|(a & b & E)]; [discriminate|]. rewrite E in H.
      rewrite map_app, rev_app_distr in H. cbn in H. destruct (sbt1 (fst b) (snd b)); discriminate.
  - intros [->|[->|E]]; [exists ValueErr; reflexivity| |subst l; exists UnboundLocalErr; cbn; destruct fs; reflexivity].
    destruct l as [l|ls|]; [exists UnboundLocalErr; reflexivity|exists UnboundLocalErr; reflexivity|exists ValueErr; reflexivity].
Qed.
End Batch.

(** ** Log grids and direct integration *)
Lemma kk_last r kmax : (2 <= length r)%nat -> 0 < kmax -> kk r kmax (length r - 1) = kmax.
Proof.
  intros H Hk. unfold kk, kappa_min, drho. rewrite minus_INR by lia. rewrite <- exp_plus. change (INR 1) with 1.
  assert (2 <= INR (length r)) by (apply le_INR in H; cbn in H; lra).
  replace (_ + _) with (ln kmax) by (field; lra). apply exp_ln. exact Hk.
Qed.
Lemma kk_step r kmax i : kk r kmax (S i) = kk r kmax i * exp (drho r).
Proof. unfold kk. rewrite S_INR, Rmult_plus_distr_r, Rmult_1_l, exp_plus. ring. Qed.
Lemma kk_first r kmax : (1 <= length r)%nat -> 0 < kmax -> 0 < hd 0 r -> 0 < last r 0 -> kk r kmax 0 = kmax * hd 0 r / last r 0.
Proof.
  intros _ Hk H0 H1. unfold kk, kappa_min. rewrite Rmult_0_l, exp_0, Rmult_1_r. unfold Rminus. rewrite !exp_plus, exp_ln by exact Hk.
  replace (- (ln (last r 0) + - ln (hd 0 r))) with (- ln (last r 0) + ln (hd 0 r)) by ring. rewrite exp_plus, exp_Ropp, !exp_ln by assumption. field. lra.
Qed.
Lemma kk_pos r kmax i : 0 < kk r kmax i.
Proof. unfold kk. apply Rmult_lt_0_compat; apply exp_pos. Qed.

Section RI.
Variable jn : Z -> R -> R.
Lemma run_int_forward r kmax ff l norm o p : length r = (o + 2 * p + 1)%nat -> (o <= 1)%nat ->
  run_int jn r kmax ff l 1 norm false = Ok (map (fun j => (if norm then sqrt (2 / PI) else 1) *
    composite (drho r) (fun i => nth i r 0 * (nth i r 0 ^ 2 * nth i ff 0 * jn l (nth i r 0 * kk r kmax j))) o p) (seq 0 (length r))).
Proof.
  intros Hl Ho. unfold run_int. change (1 =? 1)%Z with true. cbv iota zeta. apply f_equal. apply map_ext. intros j. f_equal.
  rewrite Hl, <- simpson_composite by exact Ho. apply sumR_ext. intros i _. ring.
Qed.
Lemma run_int_inverse r kmax ff l norm o p : length r = (o + 2 * p + 1)%nat -> (o <= 1)%nat ->
  run_int jn r kmax ff l (-1) norm false = Ok (map (fun i => (if norm then sqrt (2 / PI) else 1) *
    composite (drho r) (fun j => kk r kmax j * (kk r kmax j ^ 2 * nth j ff 0 * jn l (nth i r 0 * kk r kmax j))) o p) (seq 0 (length r))).
Proof.
  intros Hl Ho. unfold run_int. change (-1 =? 1)%Z with false. change (-1 =? -1)%Z with true. cbv iota zeta. apply f_equal. apply map_ext. intros i. f_equal.
  rewrite Hl, <- simpson_composite by exact Ho. apply sumR_ext. intros j _. change (fun i0 => kk r kmax i0) with (kk r kmax). ring.
Qed.
Lemma run_int_raises r kmax ff l d norm z : raises (run_int jn r kmax ff l d norm z) <-> d <> 1%Z /\ d <> (-1)%Z.
Proof.
  unfold raises, run_int. destruct (Z.eqb_spec d 1) as [->|N1]; [split; [intros [e H]; discriminate|intros [H _]; contradiction]|].
  destruct (Z.eqb_spec d (-1)) as [->|N2]; [split; [intros [e H]; discriminate|intros [_ H]; contradiction]|].
  split; [intros _; split; assumption|intros _; exists ValueErr; reflexivity].
Qed.
End RI.

(** ** The fast transform *)
Section Fast.
Variables m1 m2 : nat -> nat -> C.
Lemma argmin_from_spec v : forall n best i, (best < i)%nat -> (forall j, (j < i)%nat -> v best <= v j) ->
  (argmin_from v best i n < i + n)%nat /\ forall j, (j < i + n)%nat -> v (argmin_from v best i n) <= v j.
Proof.
  induction n as [|n IH]; intros best i Hb H; [cbn; split; [lia|]; intros j Hj; apply H; lia|]. cbn [argmin_from].
  destruct (Rlt_dec (v i) (v best)) as [L|L].
  - destruct (IH i (S i)) as [A B]; [lia| |]. { intros j Hj. destruct (Nat.eq_dec j i) as [->|]; [lra|]. specialize (H j ltac:(lia)). lra. }
    split; [lia|]. intros j Hj. apply B. lia.
  - destruct (IH best (S i)) as [A B]; [lia| |]. { intros j Hj. destruct (Nat.eq_dec j i) as [->|]; [lra|]. apply H. lia. }
    split; [lia|]. intros j Hj. apply B. lia.
Qed.
Lemma argmin_spec v n : (0 < n)%nat -> (argmin v n < n)%nat /\ forall j, (j < n)%nat -> v (argmin v n) <= v j.
Proof.
  intros H. unfold argmin. destruct (argmin_from_spec v (n - 1) 0 1) as [A B]; [lia| |].
  { intros j Hj. replace j with 0%nat by lia. lra. } replace (1 + (n - 1))%nat with n in * by lia. split; assumption.
Qed.
Lemma argmin_from_ext (v w : nat -> R) : forall n best i, (forall a b, v a < v b <-> w a < w b) -> argmin_from v best i n = argmin_from w best i n.
Proof.
  induction n as [|n IH]; intros best i H; [reflexivity|]. cbn [argmin_from].
  destruct (Rlt_dec (v i) (v best)) as [A|A], (Rlt_dec (w i) (w best)) as [B|B]; try (apply IH; exact H); exfalso; [apply B, H, A|apply A, H, B].
Qed.
Lemma argmin_scale v a n : 0 < a -> argmin (fun i => a * v i) n = argmin v n.
Proof. intros Ha. apply argmin_from_ext. intros i j. split; intros; nra. Qed.

Lemma rfft_lin x y z a b N k : (forall i, (i < N)%nat -> z i = a * x i + b * y i) -> rfft z N k = Cplus (Cmult (RtoC a) (rfft x N k)) (Cmult (RtoC b) (rfft y N k)).
Proof.
  intros H. unfold rfft. rewrite <- !sumC_scal, <- sumC_plus. apply sumC_ext. intros i Hi. apply in_seq in Hi. rewrite H by lia. rewrite RtoC_plus, !RtoC_mult. ring.
Qed.
Lemma ifft1_lin x y z a b N n : (forall i, (i < N)%nat -> z i = Cplus (Cmult (RtoC a) (x i)) (Cmult (RtoC b) (y i))) ->
  ifft1 z N n = Cplus (Cmult (RtoC a) (ifft1 x N n)) (Cmult (RtoC b) (ifft1 y N n)).
Proof.
  intros H. unfold ifft1. rewrite (sumC_ext _ _ (fun k => Cplus (Cmult (RtoC a) (Cmult (x k) (cexp (2 * PI * INR k * INR n / INR N)))) (Cmult (RtoC b) (Cmult (y k) (cexp (2 * PI * INR k * INR n / INR N)))))).
  2:{ intros i Hi. apply in_seq in Hi. rewrite H by lia. ring. } rewrite sumC_plus, !sumC_scal. ring.
Qed.
Lemma irfft_lin x y z a b M n : (2 <= M)%nat -> (forall i, (i < M)%nat -> z i = Cplus (Cmult (RtoC a) (x i)) (Cmult (RtoC b) (y i))) ->
  irfft z M n = a * irfft x M n + b * irfft y M n.
Proof.
  intros HM H. unfold irfft. cbv zeta. set (N := (2 * (M - 1))%nat). rewrite (H 0%nat), (H (M - 1)%nat) by lia.
  rewrite (sumR_ext (seq 1 (M - 2)) (fun k => 2 * Re (Cmult (z k) _)) (fun k => a * (2 * Re (Cmult (x k) (cexp (2 * PI * INR k * INR n / INR N)))) + b * (2 * Re (Cmult (y k) (cexp (2 * PI * INR k * INR n / INR N)))))).
  2:{ intros k Hk. apply in_seq in Hk. rewrite H by lia. unfold Re, Cmult, Cplus, RtoC. cbn. ring. }
  rewrite sumR_plus, !sumR_scal. unfold Re, Cmult, Cplus, RtoC. cbn [fst snd]. ring.
Qed.
Lemma hd_nth (l : list R) : hd 0 l = nth 0 l 0.
Proof. destruct l; reflexivity. Qed.
Lemma big_lin r kmax f g h a b l fwd pref n : (forall i, nth i h 0 = a * nth i f 0 + b * nth i g 0) ->
  big_k m1 r kmax h l fwd pref n = a * big_k m1 r kmax f l fwd pref n + b * big_k m1 r kmax g l fwd pref n.
Proof.
  intros H. unfold big_k. cbv zeta. 
  set (rmin := if fwd then hd 0 r else kk r kmax 0). set (kmin := if fwd then kk r kmax 0 else hd 0 r).
  set (nr := length r). set (X := fun i => hd 0 r * exp ((INR i - INR nr) * drho r)).
  set (inp := fun (u : list R) i => if (i <? nr)%nat then hd 0 u / rmin ^ l * X i ^ l * (Rpower (X i) (3 / 2) / Rpower (hd 0 r) (3 / 2)) else nth (i - nr) u 0 * (Rpower (nth (i - nr) r 0) (3 / 2) / Rpower (hd 0 r) (3 / 2))).
  set (t := fun u k => if (k <? nr)%nat then Cmult (Cconj (rfft (inp u) (2 * nr) k)) (m1 l k) else RtoC 0).
  change (Rpower (rmin / kmin) (3 / 2) * (Re (ifft1 (t h) (2 * nr) (nr + n)) * INR (2 * nr)) * exp (- (INR n * drho r * (3 / 2))) * pref =
    a * (Rpower (rmin / kmin) (3 / 2) * (Re (ifft1 (t f) (2 * nr) (nr + n)) * INR (2 * nr)) * exp (- (INR n * drho r * (3 / 2))) * pref) +
    b * (Rpower (rmin / kmin) (3 / 2) * (Re (ifft1 (t g) (2 * nr) (nr + n)) * INR (2 * nr)) * exp (- (INR n * drho r * (3 / 2))) * pref)).
  rewrite (ifft1_lin (t f) (t g) (t h) a b).
  - unfold Re at 1. unfold Cplus, Cmult, RtoC. cbn [fst snd]. unfold Re. ring.
  - intros i _. unfold t. destruct (i <? nr)%nat; [|ring]. rewrite (rfft_lin (inp f) (inp g) (inp h) a b).
    + rewrite Cconj_plus, !Cconj_mult, !Cconj_R. ring.
    + intros j _. unfold inp. destruct (j <? nr)%nat; [rewrite !hd_nth, H; unfold Rdiv; ring|rewrite H; ring].
Qed.
Lemma small_lin r kmax f g h a b l fwd pref n : (1 <= length r)%nat -> (forall i, nth i h 0 = a * nth i f 0 + b * nth i g 0) ->
  small_k m2 r kmax h l fwd pref n = a * small_k m2 r kmax f l fwd pref n + b * small_k m2 r kmax g l fwd pref n.
Proof.
  intros Hr H. unfold small_k. cbv zeta.
  set (nr := length r) in *. set (x := fun i => if fwd then nth i r 0 else kk r kmax i).
  set (inp := fun (u : list R) i => if (i <? nr)%nat then x i ^ 3 * nth i u 0 else 0).
  set (t := fun u k => Cmult (Cmult (Cconj (rfft (inp u) (2 * nr) k)) (m2 l k)) (RtoC pref)).
  change (irfft (t h) (nr + 1) n * INR (2 * nr) * drho r = a * (irfft (t f) (nr + 1) n * INR (2 * nr) * drho r) + b * (irfft (t g) (nr + 1) n * INR (2 * nr) * drho r)).
  rewrite (irfft_lin (t f) (t g) (t h) a b); [ring|lia|]. intros i _. unfold t. rewrite (rfft_lin (inp f) (inp g) (inp h) a b).
  - rewrite Cconj_plus, !Cconj_mult, !Cconj_R. ring.
  - intros j _. unfold inp. destruct (j <? nr)%nat; [rewrite H; ring|ring].
Qed.
Lemma run_ok lmax r kmax ff l d norm out : run m1 m2 lmax r kmax ff l d norm = Ok out ->
  (l <= lmax)%nat /\ (d = 1 \/ d = -1)%Z /\ length out = length r.
Proof.
  unfold run. destruct (Nat.leb_spec l lmax); [|discriminate]. destruct (Z.eqb_spec d 1) as [->|]; cbn [orb].
  - intros E. injection E as <-. rewrite map_length, seq_length. auto.
  - destruct (Z.eqb_spec d (-1)) as [->|]; [|discriminate]. intros E. injection E as <-. rewrite map_length, seq_length. auto.
Qed.
Lemma run_raises lmax r kmax ff l d norm : raises (run m1 m2 lmax r kmax ff l d norm) <-> (lmax < l)%nat \/ (d <> 1 /\ d <> -1)%Z.
Proof.
  unfold raises, run. destruct (Nat.leb_spec l lmax).
  - destruct (Z.eqb_spec d 1) as [->|]; cbn [orb]; [split; [intros [e H0]; discriminate|intros [?|[? _]]; [lia|contradiction]]|].
    destruct (Z.eqb_spec d (-1)) as [->|]; [split; [intros [e H0]; discriminate|intros [?|[_ ?]]; [lia|contradiction]]|].
    split; [intros _; right; split; assumption|intros _; exists ValueErr; reflexivity].
  - split; [intros _; left; assumption|intros _; exists AssertionErr; reflexivity].
Qed.
Lemma run_switch lmax r kmax ff l d norm out : run m1 m2 lmax r kmax ff l d norm = Ok out -> (0 < length r)%nat ->
  let fwd := (d =? 1)%Z in let pref := if norm then sqrt (2 / PI) else 1 in
  let big := big_k m1 r kmax ff l fwd pref in let small := small_k m2 r kmax ff l fwd pref in
  exists m, (m < length r)%nat /\ (forall n, (n < length r)%nat -> Rabs (big m - small m) <= Rabs (big n - small n)) /\
    forall n, (n < length r)%nat -> nth n out 0 = if (n <=? m)%nat then small n else big n.
Proof.
  intros H Hr. cbv zeta. unfold run in H. destruct (l <=? lmax)%nat; [|discriminate]. destruct ((d =? 1)%Z || (d =? -1)%Z); [|discriminate].
  cbv zeta in H. set (big := big_k m1 r kmax ff l (d =? 1)%Z _) in *. set (small := small_k m2 r kmax ff l (d =? 1)%Z _) in *. clearbody big small.
  exists (argmin (fun n => Rabs (big n - small n)) (length r)). destruct (argmin_spec (fun n => Rabs (big n - small n)) (length r) Hr) as [A B].
  split; [exact A|]. split; [exact B|]. intros n Hn. set (m := argmin _ _) in *. clearbody m.
  assert (E : out = map (fun n => if (n <? m + 1)%nat then small n else big n) (seq 0 (length r))) by congruence. subst out.
  rewrite (nth_indep _ 0 ((fun n => if (n <? m + 1)%nat then small n else big n) 0%nat)) by (rewrite map_length, seq_length; exact Hn).
  rewrite (map_nth (fun n => if (n <? m + 1)%nat then small n else big n)), seq_nth by exact Hn. cbn [Nat.add].
  destruct (Nat.leb_spec n m), (Nat.ltb_spec n (m + 1)); try lia; reflexivity.
Qed.
Lemma nth_scale a (f : list R) i : nth i (map (Rmult a) f) 0 = a * nth i f 0.
Proof. rewrite <- (Rmult_0_r a) at 1. rewrite map_nth. reflexivity. Qed.
Lemma run_homogeneous lmax r kmax ff l d norm out a : a <> 0 -> run m1 m2 lmax r kmax ff l d norm = Ok out ->
  run m1 m2 lmax r kmax (map (Rmult a) ff) l d norm = Ok (map (Rmult a) out).
Proof.
  intros Ha H. unfold run in *. destruct (l <=? lmax)%nat; [|discriminate]. destruct ((d =? 1)%Z || (d =? -1)%Z); [|discriminate].
  cbv zeta in *. set (fwd := (d =? 1)%Z) in *. set (pref := if norm then _ else _) in *. 
  assert (HH : forall i, nth i (map (Rmult a) ff) 0 = a * nth i ff 0 + 0 * nth i ff 0) by (intros i; rewrite nth_scale; ring).
  destruct r as [|r0 r']; [injection H as <-; reflexivity|]. set (r := r0 :: r') in *.
  assert (Hb : forall n, big_k m1 r kmax (map (Rmult a) ff) l fwd pref n = a * big_k m1 r kmax ff l fwd pref n) by (intros n; rewrite (big_lin r kmax ff ff _ a 0 l fwd pref n HH); ring).
  assert (Hs : forall n, small_k m2 r kmax (map (Rmult a) ff) l fwd pref n = a * small_k m2 r kmax ff l fwd pref n) by (intros n; rewrite (small_lin r kmax ff ff _ a 0 l fwd pref n); [ring|cbn; lia|exact HH]).
  set (big := big_k m1 r kmax ff l fwd pref) in *. set (small := small_k m2 r kmax ff l fwd pref) in *.
  assert (E : out = map (fun n => if (n <? argmin (fun n => Rabs (big n - small n)) (length r) + 1)%nat then small n else big n) (seq 0 (length r))) by congruence.
  subst out. rewrite map_map. f_equal.
  assert (Em : argmin (fun n => Rabs (big_k m1 r kmax (map (Rmult a) ff) l fwd pref n - small_k m2 r kmax (map (Rmult a) ff) l fwd pref n)) (length r) = argmin (fun n => Rabs (big n - small n)) (length r)).
  { rewrite <- (argmin_scale (fun n => Rabs (big n - small n)) (Rabs a)) by (apply Rabs_pos_lt; exact Ha). apply argmin_from_ext. intros i j.
    rewrite !Hb, !Hs, <- !Rmult_minus_distr_l, !Rabs_mult. reflexivity. }
  rewrite Em. apply map_ext. intros n. rewrite Hb, Hs. destruct (n <? _)%nat; reflexivity.
Qed.
End Fast.
