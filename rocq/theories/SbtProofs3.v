(** The fast spherical Bessel transform with its actual tables. *)
From Coq Require Import Reals Lra Lia ZArith.
From Coquelicot Require Import Coquelicot.
From Coq Require Import List Arith Bool.
From Verif Require Import Base Sums DFT SbtModel SbtSpec SbtProofs SbtProofs2.
Import ListNotations.
Local Open Scope R_scope.

Lemma cexp_cis t : cexp t = cis t.
Proof. reflexivity. Qed.
Lemma Re_RtoC_mult a z : Re (Cmult (RtoC a) z) = a * Re z.
Proof. unfold Re, Cmult, RtoC. cbn [fst snd]. ring. Qed.
Lemma Re_conj z : Re (Cconj z) = Re z.
Proof. reflexivity. Qed.

(** ** The small-k branch is the direct sum *)
Lemma irfft_full (d : nat -> C) nr n : (1 <= nr)%nat -> (forall k, (0 < k < 2 * nr)%nat -> d (2 * nr - k)%nat = Cconj (d k)) ->
  irfft d (nr + 1) n = Re (ifft1 d (2 * nr) n).
Proof.
  intros Hn Hd. unfold irfft, ifft1. cbv zeta. replace (nr + 1 - 1)%nat with nr by lia. replace (nr + 1 - 2)%nat with (nr - 1)%nat by lia.
  rewrite Re_RtoC_mult. f_equal. rewrite Re_sumC. set (N := (2 * nr)%nat) in *.
  assert (HN : INR N <> 0) by (apply not_0_INR; lia).
  set (t := fun k => Re (Cmult (d k) (cexp (2 * PI * INR k * INR n / INR N)))).
  change (Re (d 0%nat) + sumR (seq 1 (nr - 1)) (fun k => 2 * t k) + t nr = sumR (seq 0 N) t).
  replace (seq 0 N) with (0%nat :: (seq 1 (nr - 1) ++ nr :: seq (nr + 1) (nr - 1))).
  2:{ replace N with (S ((nr - 1) + (1 + (nr - 1)))) by lia. cbn [seq]. rewrite !seq_app. replace (1 + (nr - 1))%nat with nr by lia. cbn [seq app]. replace (nr + 1)%nat with (S nr) by lia. reflexivity. }
  cbn [sumR fold_right map]. rewrite sumR_app. cbn [sumR fold_right map].
  assert (E0 : t 0%nat = Re (d 0%nat)).
  { unfold t. cbn [INR]. replace (2 * PI * 0 * INR n / INR N) with 0 by (field; exact HN). unfold cexp. rewrite cos_0, sin_0. unfold Re, Cmult. cbn [fst snd]. ring. }
  assert (E1 : sumR (seq (nr + 1) (nr - 1)) t = sumR (seq 1 (nr - 1)) t).
  { transitivity (sumR (map (fun k => N - k)%nat (rev (seq 1 (nr - 1)))) t).
    - apply f_equal2; [|reflexivity]. apply nth_ext with (d := 0%nat) (d' := 0%nat); [rewrite map_length, rev_length, !seq_length; reflexivity|].
      intros i Hi. rewrite seq_length in Hi. rewrite seq_nth by exact Hi.
      rewrite (nth_indep _ 0%nat ((fun k => N - k)%nat 0%nat)) by (rewrite map_length, rev_length, seq_length; exact Hi).
      rewrite (map_nth (fun k => N - k)%nat), rev_nth by (rewrite seq_length; exact Hi). rewrite seq_length, seq_nth by lia. lia.
    - rewrite sumR_map. rewrite (sumR_perm _ (seq 1 (nr - 1))) by (apply Permutation.Permutation_sym, Permutation.Permutation_rev).
      apply sumR_ext. intros k Hk. apply in_seq in Hk. unfold t. rewrite Hd by lia.
      replace (cexp (2 * PI * INR (N - k) * INR n / INR N)) with (Cconj (cexp (2 * PI * INR k * INR n / INR N))).
      + rewrite <- Cconj_mult. apply Re_conj.
      + rewrite !cexp_cis, cis_conj. rewrite minus_INR by lia.
        replace (2 * PI * (INR N - INR k) * INR n / INR N) with (- (2 * PI * INR k * INR n / INR N) + 2 * PI * IZR (Z.of_nat n)) by (rewrite <- INR_IZR_INZ; field; exact HN).
        rewrite cis_period. reflexivity. }
  rewrite E0, E1, sumR_scal. lra.
Qed.
(** Circular correlation. *)
Lemma correlation (x y : nat -> R) N n : (0 < N)%nat ->
  ifft1 (fun k => Cmult (Cconj (rfft x N k)) (Cconj (ifft1 (fun m => RtoC (y m)) N k))) N n =
  RtoC (/ INR N * sumR (seq 0 N) (fun a => x a * y ((a + n) mod N)%nat)).
Proof.
  intros HN. assert (Hn : INR N <> 0) by (apply not_0_INR; lia).
  unfold ifft1, rfft.
  transitivity (Cmult (RtoC (/ INR N)) (sumC (seq 0 N) (fun k => sumC (seq 0 N) (fun a => sumC (seq 0 N) (fun m =>
     Cmult (RtoC (/ INR N * (x a * y m))) (cis (2 * PI * (IZR ((Z.of_nat a + Z.of_nat n - Z.of_nat m) * Z.of_nat k) / INR N)))))))).
  { f_equal. apply sumC_ext. intros k _. rewrite Cconj_mult, Cconj_R, !Cconj_sum.
    rewrite <- sumC_scal_r, <- sumC_scal_r. apply sumC_ext. intros a _.
    rewrite <- !sumC_scal, <- sumC_scal_r. apply sumC_ext. intros m _.
    rewrite !Cconj_mult, !Cconj_R, !cexp_cis, !cis_conj.
    rewrite (RtoC_mult (/ INR N)), (RtoC_mult (x a)).
    replace (2 * PI * (IZR ((Z.of_nat a + Z.of_nat n - Z.of_nat m) * Z.of_nat k) / INR N)) with
      (- - (2 * PI * INR k * INR a / INR N) + (- (2 * PI * INR m * INR k / INR N) + 2 * PI * INR k * INR n / INR N)).
    2:{ rewrite mult_IZR, minus_IZR, plus_IZR, <- !INR_IZR_INZ. field. exact Hn. }
    rewrite !cis_plus. change (cexp ?t) with (cis t). generalize (cis (- - (2 * PI * INR k * INR a / INR N))) (cis (- (2 * PI * INR m * INR k / INR N))) (cis (2 * PI * INR k * INR n / INR N)) (RtoC (x a)) (RtoC (y m)) (RtoC (/ INR N)). intros. ring. }
  rewrite RtoC_mult. f_equal. rewrite <- sumC_RtoC.
  rewrite sumC_swap. apply sumC_ext. intros a _. rewrite sumC_swap.
  rewrite (sumC_single _ ((a + n) mod N)%nat).
  - rewrite sumC_scal, char_sum by exact HN.
    replace (((Z.of_nat a + Z.of_nat n - Z.of_nat ((a + n) mod N)) mod Z.of_nat N =? 0)%Z) with true.
    + rewrite <- RtoC_mult. f_equal. field. exact Hn.
    + symmetry. apply Z.eqb_eq. rewrite Nat2Z.inj_mod, Nat2Z.inj_add. apply Z.mod_divide; [lia|].
      exists ((Z.of_nat a + Z.of_nat n) / Z.of_nat N)%Z. pose proof (Z.div_mod (Z.of_nat a + Z.of_nat n) (Z.of_nat N) ltac:(lia)). lia.
  - apply seq_NoDup.
  - apply in_seq. pose proof (Nat.mod_upper_bound (a + n) N ltac:(lia)). lia.
  - intros m Hm Nm. apply in_seq in Hm. rewrite sumC_scal, char_sum by exact HN.
    destruct (Z.eqb_spec ((Z.of_nat a + Z.of_nat n - Z.of_nat m) mod Z.of_nat N) 0) as [E|_]; [|ring].
    exfalso. apply Nm. apply Z.mod_divide in E; [|lia]. destruct E as [q E].
    apply Nat2Z.inj. rewrite Nat2Z.inj_mod, Nat2Z.inj_add. apply Z.mod_unique with q; lia.
Qed.
Lemma ifft1_scal (d : nat -> C) (p : R) N n : ifft1 (fun k => Cmult (d k) (RtoC p)) N n = Cmult (ifft1 d N n) (RtoC p).
Proof.
  unfold ifft1. rewrite <- Cmult_assoc. f_equal. rewrite <- sumC_scal_r. apply sumC_ext. intros. ring.
Qed.
Section Small.
Variable jn : Z -> R -> R.
Lemma grid_product r kmax h i n : (2 <= length r)%nat -> log_grid r h -> (i < length r)%nat ->
  nth i r 0 * kk r kmax n = exp (ln (hd 0 r) + kappa_min r kmax + INR (i + n) * drho r).
Proof.
  intros Hn Hg Hi. pose proof Hg as [H0 H]. rewrite H by exact Hi. unfold kk. rewrite (drho_log r h Hn Hg), plus_INR.
  replace (ln (hd 0 r) + kappa_min r kmax + (INR i + INR n) * h) with (ln (hd 0 r) + (INR i * h + (kappa_min r kmax + INR n * h))) by ring.
  rewrite !exp_plus, exp_ln by exact H0. ring.
Qed.
Lemma table_hermitian (x : nat -> R) (y : nat -> R) p N k : (0 < k < N)%nat ->
  Cmult (Cmult (Cconj (rfft x N (N - k))) (Cconj (ifft1 (fun m => RtoC (y m)) N (N - k)))) (RtoC p) =
  Cconj (Cmult (Cmult (Cconj (rfft x N k)) (Cconj (ifft1 (fun m => RtoC (y m)) N k))) (RtoC p)).
Proof.
  intros Hk. assert (Hn : INR N <> 0) by (apply not_0_INR; lia).
  assert (A : rfft x N (N - k) = Cconj (rfft x N k)).
  { unfold rfft. rewrite Cconj_sum. apply sumC_ext. intros a _. rewrite Cconj_mult, Cconj_R, !cexp_cis, cis_conj. f_equal. rewrite minus_INR by lia.
    replace (- (2 * PI * (INR N - INR k) * INR a / INR N)) with (- - (2 * PI * INR k * INR a / INR N) + 2 * PI * IZR (- Z.of_nat a)) by (rewrite opp_IZR, <- INR_IZR_INZ; field; exact Hn).
    apply cis_period. }
  assert (B : ifft1 (fun m => RtoC (y m)) N (N - k) = Cconj (ifft1 (fun m => RtoC (y m)) N k)).
  { unfold ifft1. rewrite Cconj_mult, Cconj_R, Cconj_sum. f_equal. apply sumC_ext. intros a _. rewrite Cconj_mult, Cconj_R, !cexp_cis, cis_conj. f_equal. rewrite minus_INR by lia.
    replace (2 * PI * INR a * (INR N - INR k) / INR N) with (- (2 * PI * INR a * INR k / INR N) + 2 * PI * IZR (Z.of_nat a)) by (rewrite <- INR_IZR_INZ; field; exact Hn).
    apply cis_period. }
  rewrite A, B, !Cconj_mult, Cconj_R. reflexivity.
Qed.
Lemma small_direct r kmax h ff l fwd pref n : (2 <= length r)%nat -> log_grid r h -> (n < length r)%nat ->
  small_k (m_lt2 jn r kmax) r kmax ff l fwd pref n =
  pref * sumR (seq 0 (length r)) (fun i => let x j := if fwd then nth j r 0 else kk r kmax j in let y j := if fwd then kk r kmax j else nth j r 0 in
    drho r * (x i ^ 3 * nth i ff 0 * jn (Z.of_nat l) (x i * y n))).
Proof.
  intros Hn Hg Hi. unfold small_k. cbv zeta. set (nr := length r) in *. set (N := (2 * nr)%nat).
  set (x := fun i => if fwd then nth i r 0 else kk r kmax i).
  set (inp := fun i => if (i <? nr)%nat then x i ^ 3 * nth i ff 0 else 0).
  set (Y := fun m => jn (Z.of_nat l) (exp (ln (hd 0 r) + kappa_min r kmax + INR m * drho r))).
  change (irfft (fun k => Cmult (Cmult (Cconj (rfft inp N k)) (Cconj (ifft1 (fun m => RtoC (Y m)) N k))) (RtoC pref)) (nr + 1) n * INR N * drho r =
     pref * sumR (seq 0 nr) (fun i => drho r * (x i ^ 3 * nth i ff 0 * jn (Z.of_nat l) (x i * (if fwd then kk r kmax n else nth n r 0))))).
  rewrite irfft_full; [|lia|intros k Hk; apply table_hermitian; exact Hk]. fold N.
  rewrite ifft1_scal, correlation by lia. rewrite <- RtoC_mult. change (Re (RtoC ?a)) with a. cbn [Re RtoC fst].
  assert (HN : INR N <> 0) by (apply not_0_INR; lia).
  rewrite sumR_scal. 
  assert (E : sumR (seq 0 N) (fun a => inp a * Y ((a + n) mod N)%nat) = sumR (seq 0 nr) (fun i => x i ^ 3 * nth i ff 0 * jn (Z.of_nat l) (x i * (if fwd then kk r kmax n else nth n r 0)))).
  { replace (seq 0 N) with (seq 0 nr ++ seq nr nr) by (unfold N; replace (2 * nr)%nat with (nr + nr)%nat by lia; rewrite seq_app; reflexivity).
    rewrite sumR_app, (sumR_zero (seq nr nr)).
    2:{ intros a Ha. apply in_seq in Ha. unfold inp. destruct (Nat.ltb_spec a nr); [lia|ring]. }
    rewrite Rplus_0_r. apply sumR_ext. intros a Ha. apply in_seq in Ha. unfold inp. destruct (Nat.ltb_spec a nr); [|lia]. f_equal.
    rewrite Nat.mod_small by lia. unfold Y, x. f_equal. destruct fwd.
    - symmetry. apply (grid_product r kmax h a n Hn Hg). lia.
    - rewrite (Rmult_comm (kk r kmax a)), Nat.add_comm. symmetry. apply (grid_product r kmax h n a Hn Hg). lia. }
  rewrite E. field. exact HN.
Qed.
End Small.

(** ** The whole transform *)
Section Whole.
Variables (jn : Z -> R -> R) (gp : R -> R).
Notation direct r kmax ff l fwd norm n := ((if norm : bool then sqrt (2 / PI) else 1) * sumR (seq 0 (length r)) (fun i =>
  let x j := if fwd : bool then nth j r 0 else kk r kmax j in let y j := if fwd : bool then kk r kmax j else nth j r 0 in
  drho r * (x i ^ 3 * nth i ff 0 * jn (Z.of_nat l) (x i * y n)))).
Lemma class_run lmax r kmax ff l d norm rr z o out : run_class jn gp lmax r kmax ff l d norm rr z = Ok (o, out) ->
  exists gg, run (m_lt1 gp r kmax) (m_lt2 jn r kmax) lmax r kmax ff l d norm = Ok gg /\ length gg = length r /\
    out = (if z then (if norm then sqrt (2 / PI) else 1) * jn (Z.of_nat l) 0 * sumR (seq 0 (length r)) (fun i =>
       if (d =? 1)%Z then simpson_weights (drho r) (fun j => nth j r 0) (length r) i * nth i r 0 ^ 2 * nth i ff 0
       else simpson_weights (drho r) (kk r kmax) (length r) i * kk r kmax i ^ 2 * nth i ff 0) :: gg else gg) /\
    o = (if rr then Some (if z then 0 :: (if (d =? 1)%Z then swapped r kmax else r) else (if (d =? 1)%Z then swapped r kmax else r)) else None).
Proof.
  unfold run_class. destruct (run _ _ lmax r kmax ff l d norm) as [gg|e] eqn:E; [|discriminate]. cbv zeta. intros H. exists gg. split; [reflexivity|].
  apply run_ok in E. split; [apply E|]. apply (f_equal (fun r => match r with Ok p => p | Err _ => (None, []) end)) in H. apply pair_equal_spec in H. destruct H as [Ho Hg]. split.
  - rewrite <- Hg. destruct z; [|reflexivity]. f_equal. destruct (d =? 1)%Z; reflexivity.
  - rewrite <- Ho. destruct rr; [|reflexivity]. destruct (d =? 1)%Z; reflexivity.
Qed.
Lemma class_direct lmax r kmax h ff l d norm rr o out : (2 <= length r)%nat -> log_grid r h ->
  run_class jn gp lmax r kmax ff l d norm rr false = Ok (o, out) ->
  exists m, (m < length r)%nat /\ forall n, (n <= m)%nat -> nth n out 0 = direct r kmax ff l (d =? 1)%Z norm n.
Proof.
  intros Hn Hg H. apply class_run in H. destruct H as (gg & H & _ & -> & _).
  destruct (run_switch _ _ _ _ _ _ _ _ _ _ H ltac:(lia)) as (m & Hm & _ & E). exists m. split; [exact Hm|]. intros n Hnm. rewrite E by lia.
  destruct (Nat.leb_spec n m); [|lia]. apply (small_direct jn r kmax h); [exact Hn|exact Hg|lia].
Qed.
Lemma class_zero lmax r kmax ff l d norm rr o out p q : length r = (q + 2 * p + 1)%nat -> (q <= 1)%nat -> run_class jn gp lmax r kmax ff l d norm rr true = Ok (o, out) ->
  exists o' gg, run_class jn gp lmax r kmax ff l d norm rr false = Ok (o', gg) /\ o = option_map (cons 0) o' /\
  out = (let x j := if (d =? 1)%Z then nth j r 0 else kk r kmax j in
         (if norm then sqrt (2 / PI) else 1) * (jn (Z.of_nat l) 0 * composite (drho r) (fun i => x i ^ 3 * nth i ff 0) q p)) :: gg.
Proof.
  intros Hl Hq H. pose proof H as H'. apply class_run in H. destruct H as (gg & H & _ & -> & ->).
  exists (if rr then Some (if (d =? 1)%Z then swapped r kmax else r) else None), gg. split; [|split].
  - unfold run_class. rewrite H. cbv zeta. destruct rr; [|reflexivity]. destruct (d =? 1)%Z; reflexivity.
  - destruct rr; reflexivity.
  - cbv zeta. f_equal. rewrite Rmult_assoc. do 2 f_equal. rewrite Hl. destruct (d =? 1)%Z.
    + rewrite (sumR_ext _ _ (fun i => simpson_weights (drho r) (fun j => nth j r 0) (q + 2 * p + 1) i * (nth i r 0 ^ 2 * nth i ff 0))) by (intros; ring).
      rewrite simpson_composite by exact Hq. unfold composite. apply sumR_ext. intros. f_equal; ring.
    + rewrite (sumR_ext _ _ (fun i => simpson_weights (drho r) (kk r kmax) (q + 2 * p + 1) i * (kk r kmax i ^ 2 * nth i ff 0))) by (intros; ring).
      rewrite simpson_composite by exact Hq. unfold composite. apply sumR_ext. intros. f_equal; ring.
Qed.
Lemma class_raises lmax r kmax ff l d norm rr z : raises (run_class jn gp lmax r kmax ff l d norm rr z) <-> (lmax < l)%nat \/ (d <> 1 /\ d <> -1)%Z.
Proof.
  rewrite <- (run_raises (m_lt1 gp r kmax) (m_lt2 jn r kmax) lmax r kmax ff l d norm). unfold run_class, raises.
  destruct (run _ _ lmax r kmax ff l d norm) as [gg|e]; [|split; intros _; exists e; reflexivity].
  cbv zeta. split; intros [e H]; discriminate.
Qed.
Lemma sbt_raises' r f l kmax norm : raises (sbt jn gp r f l kmax norm) <-> (10 < l)%nat \/ length f <> length r.
Proof.
  unfold sbt. pose proof (class_raises 10 r kmax f l 1 norm false false) as C. unfold raises in *. destruct (run_class _ _ 10 r kmax f l 1 norm false false) as [[o g]|e].
  - destruct (Nat.eqb_spec (length f) (length r)) as [E|E].
    + split; [intros [e H]; discriminate|]. intros [H|H]; [|contradiction]. destruct C as [_ C]. destruct C as [e C]; [left; exact H|discriminate].
    + split; [intros _; right; exact E|intros _; exists ValueErr; reflexivity].
  - split; [|intros _; exists e; reflexivity]. intros _. left. destruct C as [C _]. destruct C as [C|[C _]]; [exists e; reflexivity|exact C|contradiction].
Qed.
Lemma sbt_ok r f l kmax norm k g : sbt jn gp r f l kmax norm = Ok (k, g) -> k = swapped r kmax /\ length g = length r /\ length f = length r /\ exists o, run_class jn gp 10 r kmax f l 1 norm false false = Ok (o, g).
Proof.
  unfold sbt. destruct (run_class _ _ 10 r kmax f l 1 norm false false) as [[o g']|e] eqn:E; [|discriminate].
  destruct (Nat.eqb_spec (length f) (length r)) as [L|L]; [|discriminate]. intros H.
  apply (f_equal (fun r => match r with Ok p => p | Err _ => ([], []) end)) in H. apply pair_equal_spec in H. destruct H as [<- <-].
  split; [reflexivity|]. split; [|split; [exact L|exists o; reflexivity]]. apply class_run in E. destruct E as (gg & _ & Lg & -> & _). exact Lg.
Qed.

(** ** Error bound of the direct sum *)
Lemma left_sum_uniform F a h nr : left_sum F (map (fun i => a + INR i * h) (seq 0 (S nr))) = h * sumR (seq 0 nr) (fun i => F (a + INR i * h)).
Proof.
  revert a. induction nr as [|nr IH]; intros a.
  - cbn. ring.
  - assert (E : map (fun i => a + INR i * h) (seq 0 (S (S nr))) = a :: map (fun i => (a + h) + INR i * h) (seq 0 (S nr))).
    { change (seq 0 (S (S nr))) with (0%nat :: seq 1 (S nr)). rewrite <- seq_shift, map_cons, map_map. f_equal; [cbn [INR]; ring|]. apply map_ext. intros i. rewrite S_INR. ring. }
    rewrite E. specialize (IH (a + h)). cbn [seq map] in IH |- *. 
    change (left_sum F (a :: ?b :: ?t)) with (F a * (b - a) + left_sum F (b :: t)). rewrite IH.
    cbn [sumR fold_right map]. rewrite <- seq_shift. rewrite sumR_map.
    rewrite (sumR_ext (seq 0 nr) (fun x => F (a + INR (S x) * h)) (fun i => F (a + h + INR i * h))) by (intros i _; rewrite S_INR; f_equal; ring).
    cbn [INR]. replace (a + 0 * h) with a by ring. ring.
Qed.
Lemma steps_uniform a h : 0 <= h -> forall nr s, steps_upto h (map (fun i => a + INR i * h) (seq s nr)).
Proof.
  intros Hh. induction nr as [|nr IH]; intros s; [exact I|]. cbn [seq map]. specialize (IH (S s)). destruct nr as [|nr]; [exact I|]. cbn [seq map] in IH |- *.
  split; [|exact IH]. rewrite S_INR. nra.
Qed.
Lemma uniform_error F L a h nr : 0 <= L -> 0 <= h ->
  (forall s t, a <= s <= a + INR nr * h -> a <= t <= a + INR nr * h -> Rabs (F s - F t) <= L * Rabs (s - t)) ->
  Rabs (h * sumR (seq 0 (S nr)) (fun i => F (a + INR i * h)) - RInt F a (a + INR nr * h)) <= h * (L * (INR nr * h) + Rabs (F (a + INR nr * h))).
Proof.
  intros HL Hh HF. set (e := a + INR nr * h) in *.
  assert (El : forall s n, last (map (fun i => a + INR i * h) (seq s (S n))) 0 = a + INR (s + n) * h).
  { intros s n. rewrite seq_S, map_app. apply last_last. }
  pose proof (left_sum_error F L h HL (map (fun i => a + INR i * h) (seq 1 nr)) a) as E.
  assert (Es : a :: map (fun i => a + INR i * h) (seq 1 nr) = map (fun i => a + INR i * h) (seq 0 (S nr))) by (cbn [seq map INR]; f_equal; ring).
  rewrite Es, left_sum_uniform, (El 0%nat nr) in E. cbn [Nat.add] in E. fold e in E.
  specialize (E (steps_uniform a h Hh (S nr) 0) HF).
  rewrite seq_S, sumR_app. cbn [sumR fold_right map Nat.add]. fold e.
  replace (h * (sumR (seq 0 nr) (fun i => F (a + INR i * h)) + (F e + 0)) - RInt F a e) with ((h * sumR (seq 0 nr) (fun i => F (a + INR i * h)) - RInt F a e) + h * F e) by ring.
  eapply Rle_trans; [apply Rabs_triang|]. rewrite Rabs_mult, (Rabs_pos_eq h Hh). unfold e in E at 2. replace (a + INR nr * h - a) with (INR nr * h) in E by ring.
  assert (L * h * (INR nr * h) = h * (L * (INR nr * h))) by ring. lra.
Qed.
Lemma log_substitution (G : R -> R) a b : a <= b -> (forall s, exp a <= s <= exp b -> continuous G s) -> RInt (fun t => exp t * G (exp t)) a b = RInt G (exp a) (exp b).
Proof.
  intros Hab HG. refine (eq_trans _ (RInt_comp (V := R_CompleteNormedModule) G exp exp a b _ _)); [reflexivity| |].
  - intros x Hx. rewrite Rmin_left, Rmax_right in Hx by exact Hab. apply HG. destruct Hx as [X1 X2]. split; [destruct X1 as [X1| ->]; [left; apply exp_increasing; exact X1|right; reflexivity]|destruct X2 as [X2| ->]; [left; apply exp_increasing; exact X2|right; reflexivity]].
  - intros x _. split; [apply is_derive_Reals, derivable_pt_lim_exp|]. apply (ex_derive_continuous (K := R_AbsRing) (V := R_NormedModule)). exists (exp x). apply is_derive_Reals, derivable_pt_lim_exp.
Qed.
Lemma direct_integral phi l k r h L : (2 <= length r)%nat -> log_grid r h -> 0 <= h -> 0 <= L ->
  let F s := phi s * s ^ 2 * jn l (k * s) in
  (forall s, hd 0 r <= s <= last r 0 -> continuous F s) ->
  (forall s t, ln (hd 0 r) <= s <= ln (last r 0) -> ln (hd 0 r) <= t <= ln (last r 0) -> Rabs (exp s * F (exp s) - exp t * F (exp t)) <= L * Rabs (s - t)) ->
  Rabs (sumR (seq 0 (length r)) (fun i => drho r * (nth i r 0 ^ 3 * phi (nth i r 0) * jn l (nth i r 0 * k))) - RInt F (hd 0 r) (last r 0))
  <= h * (L * (ln (last r 0) - ln (hd 0 r)) + Rabs (last r 0 * F (last r 0))).
Proof.
  intros Hn Hg Hh HL F HC HF. pose proof Hg as [H0 H]. rewrite sumR_scal, (drho_log r h Hn Hg).
  assert (El : last r 0 = hd 0 r * exp (INR (length r - 1) * h)) by (rewrite last_nth; apply H; lia).
  assert (Ell : ln (last r 0) = ln (hd 0 r) + INR (length r - 1) * h) by (rewrite El, ln_mult, ln_exp by (first [exact H0|apply exp_pos]); reflexivity).
  assert (Hlp : 0 < last r 0) by (rewrite El; apply Rmult_lt_0_compat; [exact H0|apply exp_pos]).
  pose proof (pos_INR (length r - 1)) as Hp.
  pose proof (uniform_error (fun t => exp t * F (exp t)) L (ln (hd 0 r)) h (length r - 1) HL Hh) as E. rewrite <- Ell in E. specialize (E HF).
  rewrite log_substitution in E; [|rewrite Ell; nra|].
  2:{ intros s. rewrite !exp_ln by assumption. apply HC. }
  rewrite !exp_ln in E by assumption. replace (S (length r - 1)) with (length r) in E by lia.
  replace (INR (length r - 1) * h) with (ln (last r 0) - ln (hd 0 r)) in E by lra.
  eapply Rle_trans; [|exact E]. apply Req_le. do 3 f_equal. apply sumR_ext. intros i Hi. apply in_seq in Hi. rewrite H by lia.
  rewrite exp_plus, exp_ln by exact H0. unfold F. rewrite (Rmult_comm k). ring.
Qed.
End Whole.

(** ** The large-k table *)
Section Table.
Variable gp : R -> R.
Lemma cis_atan y : Cmult (cis (- (2 * atan y))) (1, y) = (1, - y).
Proof.
  pose proof (atan_bound y) as [B1 B2]. assert (Hc : 0 < cos (atan y)) by (apply cos_gt_0; lra).
  assert (Hs : sin (atan y) = y * cos (atan y)).
  { transitivity (tan (atan y) * cos (atan y)); [unfold tan; field; lra|]. rewrite atan_right_inv. reflexivity. }
  pose proof (sin2_cos2 (atan y)) as S2. unfold Rsqr in S2. rewrite Hs in S2.
  unfold cis, Cmult. cbn [fst snd]. rewrite cos_neg, sin_neg, cos_2a, sin_2a, Hs.
  set (c := cos (atan y)) in *. apply pair_equal_spec. split.
  - transitivity (y * c * (y * c) + c * c); [ring|exact S2].
  - transitivity (- y * (y * c * (y * c) + c * c)); [ring|rewrite S2; ring].
Qed.
Lemma half_circle a y : (a <> 0)%R -> Cmult (cis (- (2 * atan (y / a)))) (a, y) = (a, - y).
Proof.
  intros Ha. pose proof (cis_atan (y / a)) as E.
  replace ((a, y) : C) with (Cmult (RtoC a) (1, y / a)) by (unfold Cmult, RtoC; cbn [fst snd]; apply pair_equal_spec; split; field; exact Ha).
  replace (Cmult (cis (- (2 * atan (y / a)))) (Cmult (RtoC a) (1, y / a))) with (Cmult (RtoC a) (Cmult (cis (- (2 * atan (y / a)))) (1, y / a))) by ring.
  rewrite E. unfold Cmult, RtoC; cbn [fst snd]; apply pair_equal_spec; split; field; exact Ha.
Qed.
(** M_{l+2} (l + 3/2 + i t) = M_l (l + 3/2 - i t) *)
Lemma table_recurrence r kmax l i : Cmult (m_lt1 gp r kmax (S (S l)) i) (INR l + 3 / 2, tt r i) = Cmult (m_lt1 gp r kmax l i) (INR l + 3 / 2, - tt r i).
Proof.
  change (m_lt1 gp r kmax (S (S l)) i) with (Cmult (cis (- (2 * atan (2 * tt r i / (2 * INR (S l) + 1))))) (m_lt1 gp r kmax l i)).
  assert (Ha : INR l + 3 / 2 <> 0) by (pose proof (pos_INR l); lra).
  replace (2 * tt r i / (2 * INR (S l) + 1)) with (tt r i / (INR l + 3 / 2)) by (rewrite S_INR; field; pose proof (pos_INR l); lra).
  rewrite <- (half_circle _ (tt r i) Ha). ring.
Qed.
(** M_1 (1/2 + i t) (cosh - i sinh)(pi t / 2) = M_0 (1/2 - i t) (cosh + i sinh)(pi t / 2) *)
Lemma table_first r kmax i : Cmult (Cmult (m_lt1 gp r kmax 1 i) (1 / 2, tt r i)) (cosh (PI * tt r i / 2), - sinh (PI * tt r i / 2)) =
  Cmult (Cmult (m_lt1 gp r kmax 0 i) (1 / 2, - tt r i)) (cosh (PI * tt r i / 2), sinh (PI * tt r i / 2)).
Proof.
  change (m_lt1 gp r kmax 1 i) with (Cmult (m_lt1 gp r kmax 0 i) (cis (2 * (atan (tanh (PI * tt r i / 2)) - atan (2 * tt r i))))).
  set (t := tt r i). set (M := m_lt1 gp r kmax 0 i). set (u := PI * t / 2).
  replace (2 * (atan (tanh u) - atan (2 * t))) with (2 * atan (tanh u) + - (2 * atan (2 * t))) by ring. rewrite cis_plus.
  assert (Hc : cosh u <> 0) by (apply Rgt_not_eq; unfold cosh; pose proof (exp_pos u); pose proof (exp_pos (- u)); lra).
  assert (A : Cmult (cis (2 * atan (tanh u))) (cosh u, - sinh u) = (cosh u, sinh u)).
  { pose proof (half_circle (cosh u) (- sinh u) Hc) as E. replace (- sinh u / cosh u) with (- tanh u) in E by (unfold tanh; field; exact Hc).
    rewrite atan_opp in E. replace (- (2 * - atan (tanh u))) with (2 * atan (tanh u)) in E by ring. rewrite Ropp_involutive in E. exact E. }
  assert (B : Cmult (cis (- (2 * atan (2 * t)))) (1 / 2, t) = (1 / 2, - t)).
  { pose proof (half_circle (1 / 2) t ltac:(lra)) as E. replace (t / (1 / 2)) with (2 * t) in E by field. exact E. }
  rewrite <- A. rewrite <- B. ring.
Qed.
Lemma table_modulus r kmax l i : (0 < length r)%nat -> Cnorm2 (m_lt1 gp r kmax l i) = PI / 2 / INR (length r) ^ 2 * (if (i =? 0)%nat then / 4 else 1).
Proof.
  intros Hr. assert (Hn : INR (length r) <> 0) by (apply not_0_INR; lia).
  assert (M0 : Cnorm2 (m_lt1_0 gp r kmax i) = PI / 2 / INR (length r) ^ 2 * (if (i =? 0)%nat then / 4 else 1)).
  { unfold m_lt1_0. cbv zeta. change cexp with cis. rewrite Cnorm2_mult, cis_norm, Rmult_1_r. pose proof PI_RGT_0 as P.
    assert (S : Cnorm2 (RtoC (sqrt (PI / 2))) = PI / 2) by (unfold Cnorm2, RtoC; cbn [Re Im fst snd]; pose proof (sqrt_sqrt (PI / 2) ltac:(lra)); nra).
    assert (T : forall a, Cnorm2 (RtoC a) = a ^ 2) by (intros a; unfold Cnorm2, RtoC; cbn [Re Im fst snd]; ring).
    destruct (i =? 0)%nat; repeat rewrite Cnorm2_mult; rewrite cis_norm, S, !T; field; exact Hn. }
  revert l. assert (H : forall l, Cnorm2 (m_lt1 gp r kmax l i) = PI / 2 / INR (length r) ^ 2 * (if (i =? 0)%nat then / 4 else 1) /\ Cnorm2 (m_lt1 gp r kmax (S l) i) = PI / 2 / INR (length r) ^ 2 * (if (i =? 0)%nat then / 4 else 1)).
  { induction l as [|l [IH1 IH2]].
    - split; [exact M0|]. cbn [m_lt1]. rewrite Cnorm2_mult, cexp_cis, cis_norm, M0. ring.
    - split; [exact IH2|]. change (m_lt1 gp r kmax (S (S l)) i) with (Cmult (cis (- (2 * atan (2 * tt r i / (2 * INR (S l) + 1))))) (m_lt1 gp r kmax l i)).
      rewrite Cnorm2_mult, cis_norm, IH1. ring. }
  intros l. apply H.
Qed.
End Table.

(** ** Statements *)
Section Final.
Variables (jn : Z -> R -> R) (gp : R -> R).
Lemma forward_small lmax r kmax h ff l norm rr o out : (2 <= length r)%nat -> log_grid r h ->
  run_class jn gp lmax r kmax ff l 1 norm rr false = Ok (o, out) ->
  exists m, (m < length r)%nat /\ forall n, (n <= m)%nat -> nth n out 0 = (if norm then sqrt (2 / PI) else 1) *
    sumR (seq 0 (length r)) (fun i => drho r * (nth i r 0 ^ 3 * nth i ff 0 * jn (Z.of_nat l) (nth i r 0 * kk r kmax n))).
Proof. intros Hn Hg H. exact (class_direct jn gp lmax r kmax h ff l 1 norm rr o out Hn Hg H). Qed.
Lemma inverse_small lmax r kmax h ff l norm rr o out : (2 <= length r)%nat -> log_grid r h ->
  run_class jn gp lmax r kmax ff l (-1) norm rr false = Ok (o, out) ->
  exists m, (m < length r)%nat /\ forall n, (n <= m)%nat -> nth n out 0 = (if norm then sqrt (2 / PI) else 1) *
    sumR (seq 0 (length r)) (fun i => drho r * (kk r kmax i ^ 3 * nth i ff 0 * jn (Z.of_nat l) (kk r kmax i * nth n r 0))).
Proof. intros Hn Hg H. exact (class_direct jn gp lmax r kmax h ff l (-1) norm rr o out Hn Hg H). Qed.
Lemma sbt_small_error phi l r kmax norm h k g : (2 <= length r)%nat -> log_grid r h -> 0 <= h -> sbt jn gp r (map phi r) l kmax norm = Ok (k, g) ->
  exists m, (m < length r)%nat /\ forall n L, (n <= m)%nat -> 0 <= L ->
  let F s := phi s * s ^ 2 * jn (Z.of_nat l) (nth n k 0 * s) in let pref := if norm then sqrt (2 / PI) else 1 in
  (forall s, hd 0 r <= s <= last r 0 -> continuous F s) ->
  (forall s t, ln (hd 0 r) <= s <= ln (last r 0) -> ln (hd 0 r) <= t <= ln (last r 0) -> Rabs (exp s * F (exp s) - exp t * F (exp t)) <= L * Rabs (s - t)) ->
  Rabs (nth n g 0 - pref * RInt F (hd 0 r) (last r 0)) <= pref * (h * (L * (ln (last r 0) - ln (hd 0 r)) + Rabs (last r 0 * F (last r 0)))).
Proof.
  intros Hn Hg Hh H. apply sbt_ok in H. destruct H as (-> & Lg & _ & o & H). destruct (forward_small 10 r kmax h _ l norm false o g Hn Hg H) as (m & Hm & E).
  exists m. split; [exact Hm|]. intros n L Hnm HL. cbv zeta. intros HC HF. rewrite E by exact Hnm. rewrite swapped_nth in * by lia.
  set (pref := if norm then sqrt (2 / PI) else 1). assert (Hp : 0 <= pref) by (unfold pref; destruct norm; [apply sqrt_pos|lra]).
  rewrite <- Rmult_minus_distr_l, Rabs_mult, (Rabs_pos_eq pref Hp). apply Rmult_le_compat_l; [exact Hp|].
  pose proof (direct_integral jn phi (Z.of_nat l) (kk r kmax n) r h L Hn Hg Hh HL HC HF) as D. cbv zeta in D.
  eapply Rle_trans; [|exact D]. apply Req_le. do 2 f_equal. apply sumR_ext. intros i Hi. apply in_seq in Hi. do 3 f_equal.
  rewrite (nth_indep _ 0 (phi 0)) by (rewrite map_length; lia). apply map_nth.
Qed.
Lemma run_int_zero r kmax ff l d norm out q p : length r = (q + 2 * p + 1)%nat -> (q <= 1)%nat -> run_int jn r kmax ff l d norm true = Ok out ->
  exists gg, run_int jn r kmax ff l d norm false = Ok gg /\
  out = (let x j := if (d =? 1)%Z then nth j r 0 else kk r kmax j in
         (if norm then sqrt (2 / PI) else 1) * (jn l 0 * composite (drho r) (fun i => x i ^ 3 * nth i ff 0) q p)) :: gg.
Proof.
  intros Hl Hq. unfold run_int. destruct (d =? 1)%Z; [|destruct (d =? -1)%Z; [|discriminate]].
  - cbv zeta. intros E. eexists. split; [reflexivity|]. apply (f_equal (fun r => match r with Ok p => p | Err _ => [] end)) in E. rewrite <- E. f_equal.
    rewrite Rmult_assoc. do 2 f_equal. rewrite Hl.
    rewrite (sumR_ext _ _ (fun i => simpson_weights (drho r) (fun j => nth j r 0) (q + 2 * p + 1) i * (nth i r 0 ^ 2 * nth i ff 0))) by (intros; ring).
    rewrite simpson_composite by exact Hq. unfold composite. apply sumR_ext. intros. f_equal; ring.
  - cbv zeta. intros E. eexists. split; [reflexivity|]. apply (f_equal (fun r => match r with Ok p => p | Err _ => [] end)) in E. rewrite <- E. f_equal.
    rewrite Rmult_assoc. do 2 f_equal. rewrite Hl.
    change (fun i : nat => kk r kmax i) with (kk r kmax).
    rewrite (sumR_ext _ _ (fun i => simpson_weights (drho r) (kk r kmax) (q + 2 * p + 1) i * (kk r kmax i ^ 2 * nth i ff 0))) by (intros; ring).
    rewrite simpson_composite by exact Hq. unfold composite. apply sumR_ext. intros. f_equal; ring.
Qed.
Lemma sbt_grid r f l kmax norm k g : (2 <= length r)%nat -> 0 < kmax -> sbt jn gp r f l kmax norm = Ok (k, g) ->
  length k = length r /\ length g = length r /\ last k 0 = kmax /\ forall i, (S i < length r)%nat -> nth (S i) k 0 = nth i k 0 * exp ((ln (last r 0) - ln (hd 0 r)) / (INR (length r) - 1)).
Proof.
  intros Hn Hk H. apply sbt_ok in H. destruct H as (-> & Lg & _ & _). split; [apply swapped_length|]. split; [exact Lg|]. split.
  - rewrite last_nth, swapped_length, swapped_nth by lia. apply kk_last; assumption.
  - intros i Hi. rewrite !swapped_nth by lia. apply kk_step.
Qed.
Lemma class_example : exists o out, run_class (fun _ _ => 1) (fun _ => 0) 10 [1; exp 1; exp 2] 1 [1; 2; 3] 2 1 true true true = Ok (o, out) /\ length out = 4%nat /\ length [1; exp 1; exp 2] = (0 + 2 * 1 + 1)%nat /\ log_grid [1; exp 1; exp 2] 1.
Proof.
  destruct (run_class (fun _ _ => 1) (fun _ => 0) 10 [1; exp 1; exp 2] 1 [1; 2; 3] 2 1 true true true) as [[o out]|e] eqn:E.
  - exists o, out. split; [reflexivity|]. apply class_run in E. destruct E as (gg & _ & L & -> & _). split; [cbn [length]; rewrite L; reflexivity|]. split; [reflexivity|]. apply log_example.
  - exfalso. assert (R : raises (run_class (fun _ _ => 1) (fun _ => 0) 10 [1; exp 1; exp 2] 1 [1; 2; 3] 2 1 true true true)) by (exists e; exact E).
    apply class_raises in R. destruct R as [R|[R _]]; [lia|lia].
Qed.
End Final.
Lemma error_case : let r := [1; exp 1; exp 2] in let F s := / s ^ 3 * s ^ 2 * (fun (_ : Z) (_ : R) => 1) 0%Z (1 * s) in
  (forall s, hd 0 r <= s <= last r 0 -> continuous F s) /\
  (forall s t, ln (hd 0 r) <= s <= ln (last r 0) -> ln (hd 0 r) <= t <= ln (last r 0) -> Rabs (exp s * F (exp s) - exp t * F (exp t)) <= 0 * Rabs (s - t)).
Proof.
  cbv zeta. cbn [hd last]. split.
  - intros s [Hs _]. apply (ex_derive_continuous (K := R_AbsRing) (V := R_NormedModule)). auto_derive. apply (pow_nonzero s 3). lra.
  - intros s t _ _. pose proof (exp_pos s). pose proof (exp_pos t).
    replace (exp s * (/ exp s ^ 3 * exp s ^ 2 * 1) - exp t * (/ exp t ^ 3 * exp t ^ 2 * 1)) with 0 by (field; lra). rewrite Rabs_R0. lra.
Qed.

(** ** The prefactor *)
Section Norm.
Variables m1 m2 : nat -> nat -> C.
Lemma run_norm lmax r kmax ff l d out : (0 < length r)%nat -> run m1 m2 lmax r kmax ff l d false = Ok out -> run m1 m2 lmax r kmax ff l d true = Ok (map (Rmult (sqrt (2 / PI))) out).
Proof.
  intros Hr H. unfold run in *. destruct (l <=? lmax)%nat; [|discriminate]. destruct ((d =? 1)%Z || (d =? -1)%Z); [|discriminate].
  cbv zeta in *. set (fwd := (d =? 1)%Z) in *. set (a := sqrt (2 / PI)).
  assert (Ha : 0 < a) by (apply sqrt_lt_R0, Rdiv_lt_0_compat; [lra|apply PI_RGT_0]).
  assert (Hb : forall n, big_k m1 r kmax ff l fwd a n = a * big_k m1 r kmax ff l fwd 1 n) by (intros n; unfold big_k; cbv zeta; ring).
  assert (Hs : forall n, small_k m2 r kmax ff l fwd a n = a * small_k m2 r kmax ff l fwd 1 n).
  { intros n. unfold small_k. cbv zeta.
    set (t := fun k => Cmult (Cconj (rfft (fun i => if (i <? length r)%nat then (if fwd then nth i r 0 else kk r kmax i) ^ 3 * nth i ff 0 else 0) (2 * length r) k)) (m2 l k)).
    change (irfft (fun k => Cmult (t k) (RtoC a)) (length r + 1) n * INR (2 * length r) * drho r = a * (irfft (fun k => Cmult (t k) (RtoC 1)) (length r + 1) n * INR (2 * length r) * drho r)).
    rewrite (irfft_lin (fun k => Cmult (t k) (RtoC 1)) (fun _ => RtoC 0) (fun k => Cmult (t k) (RtoC a)) a 0).
    - ring.
    - lia.
    - intros k _. ring. }
  set (big := big_k m1 r kmax ff l fwd 1) in *. set (small := small_k m2 r kmax ff l fwd 1) in *.
  assert (E : out = map (fun n => if (n <? argmin (fun n => Rabs (big n - small n)) (length r) + 1)%nat then small n else big n) (seq 0 (length r))) by congruence.
  subst out. rewrite map_map. f_equal.
  replace (argmin (fun n => Rabs (big_k m1 r kmax ff l fwd a n - small_k m2 r kmax ff l fwd a n)) (length r)) with (argmin (fun n => Rabs (big n - small n)) (length r)).
  - apply map_ext. intros n. rewrite Hb, Hs. destruct (n <? _)%nat; reflexivity.
  - rewrite <- (argmin_scale (fun n => Rabs (big n - small n)) a) by exact Ha. apply argmin_from_ext. intros i j.
    rewrite !Hb, !Hs, <- !Rmult_minus_distr_l, !Rabs_mult, (Rabs_pos_eq a) by lra. reflexivity.
Qed.
(** A round trip without the prefactor is pi/2 times the round trip with it. *)
Lemma round_trip lmax r kmax ff l g f gn fn : (0 < length r)%nat -> run m1 m2 lmax r kmax ff l 1 false = Ok g -> run m1 m2 lmax r kmax g l (-1) false = Ok f ->
  run m1 m2 lmax r kmax ff l 1 true = Ok gn -> run m1 m2 lmax r kmax gn l (-1) true = Ok fn -> f = map (Rmult (PI / 2)) fn.
Proof.
  intros Hr H1 H2 H3 H4. pose proof PI_RGT_0 as P. assert (Ha : 0 < sqrt (2 / PI)) by (apply sqrt_lt_R0, Rdiv_lt_0_compat; lra).
  assert (Eg : gn = map (Rmult (sqrt (2 / PI))) g) by (rewrite (run_norm lmax r kmax ff l 1 g Hr H1) in H3; congruence). subst gn.
  rewrite (run_homogeneous m1 m2 lmax r kmax g l (-1) true (map (Rmult (sqrt (2 / PI))) f) (sqrt (2 / PI))) in H4; [|lra|apply run_norm; assumption].
  assert (Ef : fn = map (Rmult (sqrt (2 / PI))) (map (Rmult (sqrt (2 / PI))) f)) by congruence. subst fn. rewrite !map_map. rewrite <- (map_id f) at 1. apply map_ext. intros x.
  pose proof (sqrt_sqrt (2 / PI) ltac:(apply Rlt_le, Rdiv_lt_0_compat; lra)) as S. transitivity (PI / 2 * (sqrt (2 / PI) * sqrt (2 / PI)) * x); [rewrite S; field; lra|ring].
Qed.
End Norm.
Lemma returned_grid jn gp lmax r kmax ff l d norm z o out : run_class jn gp lmax r kmax ff l d norm true z = Ok (o, out) ->
  o = Some (let grid := if (d =? 1)%Z then map (kk r kmax) (seq 0 (length r)) else r in if z then 0 :: grid else grid).
Proof. intros H. apply class_run in H. destruct H as (gg & _ & _ & _ & ->). destruct z, (d =? 1)%Z; reflexivity. Qed.
