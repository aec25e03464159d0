(** C71-C73, C100, C101, C121: spherical Bessel transforms. *)
From Coq Require Import Reals Lra Lia ZArith.
From Coquelicot Require Import Coquelicot.
From Coq Require Import List Arith Bool.
From Verif Require Import Base Sums SbtModel SbtSpec SbtProofs SbtProofs2 SbtProofs3.
Import ListNotations.
Local Open Scope R_scope.

(** ** C71 *)
(** Default spacing: twice as many momenta as radii, evenly spaced from 0.0001 to kmax, and at each the
    left Riemann sum of f(r) r^2 j_l(g r). *)
Theorem C71_formula : forall jn r f l k g rows, sbt_numerical jn r f l (Some k) None = Ok (g, rows) -> r <> [] ->
  length g = (2 * length r)%nat /\
  (forall j, (j < 2 * length r)%nat -> nth j g 0 = / 10000 + INR j * ((k - / 10000) / (INR (2 * length r) - 1))) /\
  length rows = length (rows_of f) /\
  forall a j, (a < length (rows_of f))%nat -> (j < 2 * length r)%nat ->
    nth j (nth a rows []) 0 = sumR (seq 0 (length r - 1)) (fun i =>
      nth i (nth a (rows_of f) []) 0 * nth i r 0 ^ 2 * jn (l_of l a) (nth j g 0 * nth i r 0) * (nth (S i) r 0 - nth i r 0)).
Proof. exact sbt_formula. Qed.
Print Assumptions C71_formula.
Theorem C71_linear : forall jn r u v l k delta a b g ru rv,
  sbt_numerical jn r (F1 u) (LInt l) (Some k) delta = Ok (g, [ru]) -> sbt_numerical jn r (F1 v) (LInt l) (Some k) delta = Ok (g, [rv]) ->
  sbt_numerical jn r (F1 (lincomb a b u v)) (LInt l) (Some k) delta = Ok (g, [lincomb a b ru rv]).
Proof. exact sbt_linear. Qed.
Print Assumptions C71_linear.
Theorem C71_last_sample_ignored : forall jn r u v l k, length u = length v -> (forall i, (S i < length r)%nat -> nth i u 0 = nth i v 0) ->
  sbt_numerical jn r (F1 u) (LInt l) (Some k) None = sbt_numerical jn r (F1 v) (LInt l) (Some k) None.
Proof. exact sbt_last. Qed.
Print Assumptions C71_last_sample_ignored.
Theorem C71_list_is_stack : forall jn r fs ls k delta g rows, sbt_numerical jn r (F2 fs) (LList ls) (Some k) delta = Ok (g, rows) <->
  length fs = length ls /\ length rows = length fs /\ g = linspace (/ 10000) k (2 * length r) /\
  length (match delta with Some d => d | None => spacing r end) = length r /\
  forall i, (i < length fs)%nat -> sbt_numerical jn r (F1 (nth i fs [])) (LInt (nth i ls 0%Z)) (Some k) delta = Ok (g, [nth i rows []]).
Proof. exact sbt_stack. Qed.
Print Assumptions C71_list_is_stack.
Theorem C71_raises_iff : forall jn r f l kmax delta, raises (sbt_numerical jn r f l kmax delta) <->
  kmax = None \/ l = LOther \/ (exists ls, l = LList ls /\ (forall fs, f = F2 fs -> length fs <> length ls)) \/
  Exists (fun row => length row <> length r) (rows_of f) \/ (exists d, delta = Some d /\ length d <> length r).
Proof. exact sbt_raises. Qed.
Print Assumptions C71_raises_iff.
Example C71_example : exists g row, sbt_numerical (fun _ x => x) [1; 2; 4] (F1 [1; 1; 7]) (LInt 0) (Some 3) None = Ok (g, [row]) /\ nth 0 row 0 = 17 / 10000.
Proof. exact sbt_example. Qed.

(** ** C100 *)
(** First-order error bound: the sum is within L h (r_last - r_0) of the integral. *)
Theorem C100_error_bound : forall jn l k phi r a g row, sbt_numerical jn (a :: r) (F1 (map phi (a :: r))) (LInt l) (Some k) None = Ok (g, [row]) ->
  forall h j L, steps_upto h (a :: r) -> (j < length g)%nat -> 0 <= L ->
  let F s := phi s * s ^ 2 * jn l (nth j g 0 * s) in
  (forall s t, a <= s <= last (a :: r) 0 -> a <= t <= last (a :: r) 0 -> Rabs (F s - F t) <= L * Rabs (s - t)) ->
  Rabs (nth j row 0 - RInt F a (last (a :: r) 0)) <= L * h * (last (a :: r) 0 - a).
Proof. exact sbt_error. Qed.
Print Assumptions C100_error_bound.
Example C100_example : let F s := 1 * s ^ 2 * (fun _ _ => 1) 0%Z (1 * s) in steps_upto 1 [0; 1; 2] /\ forall s t, 0 <= s <= 2 -> 0 <= t <= 2 -> Rabs (F s - F t) <= 4 * Rabs (s - t).
Proof. exact error_example. Qed.

(** ** C72 *)
(** Any number of points: [o] is 0 for an odd count and 1 for an even one. *)
Theorem C72_composite_simpson : forall h x f o p, (o <= 1)%nat ->
  sumR (seq 0 (o + 2 * p + 1)) (fun i => simpson_weights h x (o + 2 * p + 1) i * f i) = composite h (fun i => x i * f i) o p.
Proof. exact simpson_composite. Qed.
Print Assumptions C72_composite_simpson.
Theorem C72_exact_on_cubics : forall a b c d h t0 x f o p, (o <= 1)%nat ->
  (forall i, (i < o + 2 * p + 1)%nat -> x i * f i = cubic a b c d (t0 + INR i * h)) ->
  sumR (seq 0 (o + 2 * p + 1)) (fun i => simpson_weights h x (o + 2 * p + 1) i * f i) =
  RInt (cubic a b c d) (t0 + INR o * h) (t0 + INR (o + 2 * p) * h).
Proof. exact simpson_exact. Qed.
Print Assumptions C72_exact_on_cubics.
(** With an even count the first point has weight 0, so the first interval is left out. *)
Theorem C72_even_count_skips_first : forall h x nr, Nat.even nr = true -> simpson_weights h x nr 0%nat = 0.
Proof. exact simpson_even. Qed.
Print Assumptions C72_even_count_skips_first.
Theorem C72_direct_transform : forall jn r kmax ff l norm o p, length r = (o + 2 * p + 1)%nat -> (o <= 1)%nat ->
  run_int jn r kmax ff l 1 norm false = Ok (map (fun j => (if norm then sqrt (2 / PI) else 1) *
    composite (drho r) (fun i => nth i r 0 * (nth i r 0 ^ 2 * nth i ff 0 * jn l (nth i r 0 * kk r kmax j))) o p) (seq 0 (length r))).
Proof. exact run_int_forward. Qed.
Print Assumptions C72_direct_transform.
Theorem C72_direct_inverse : forall jn r kmax ff l norm o p, length r = (o + 2 * p + 1)%nat -> (o <= 1)%nat ->
  run_int jn r kmax ff l (-1) norm false = Ok (map (fun i => (if norm then sqrt (2 / PI) else 1) *
    composite (drho r) (fun j => kk r kmax j * (kk r kmax j ^ 2 * nth j ff 0 * jn l (nth i r 0 * kk r kmax j))) o p) (seq 0 (length r))).
Proof. exact run_int_inverse. Qed.
Print Assumptions C72_direct_inverse.
(** include_zero prepends the transform at zero and changes nothing else. *)
Theorem C72_zero_point : forall jn r kmax ff l d norm out q p, length r = (q + 2 * p + 1)%nat -> (q <= 1)%nat -> run_int jn r kmax ff l d norm true = Ok out ->
  exists gg, run_int jn r kmax ff l d norm false = Ok gg /\
  out = (let x j := if (d =? 1)%Z then nth j r 0 else kk r kmax j in
         (if norm then sqrt (2 / PI) else 1) * (jn l 0 * composite (drho r) (fun i => x i ^ 3 * nth i ff 0) q p)) :: gg.
Proof. exact run_int_zero. Qed.
Print Assumptions C72_zero_point.
Theorem C72_direct_raises_iff : forall jn r kmax ff l d norm z, raises (run_int jn r kmax ff l d norm z) <-> d <> 1%Z /\ d <> (-1)%Z.
Proof. exact run_int_raises. Qed.
Print Assumptions C72_direct_raises_iff.
Example C72_example : (forall i, (i < 1 + 2 * 1 + 1)%nat -> 1 * (1 + INR i) = cubic 1 1 0 0 (0 + INR i * 1)) /\ length [1; 2; 3; 4] = (1 + 2 * 1 + 1)%nat.
Proof. split; [|reflexivity]. intros i _. unfold cubic. ring. Qed.

(** ** C73 *)
Theorem C73_int_every_row : forall K G (sbt1 : list R -> Z -> K * G) fs l k out, batch_sbt sbt1 fs (LInt l) = Ok (k, out) ->
  length out = length fs /\ forall i d, (i < length fs)%nat -> nth i out d = snd (sbt1 (nth i fs []) l).
Proof. exact @batch_int_rows. Qed.
Print Assumptions C73_int_every_row.
(** A list: as many rows as the shorter of the two. *)
Theorem C73_list_rows : forall K G (sbt1 : list R -> Z -> K * G) fs ls k out, batch_sbt sbt1 fs (LList ls) = Ok (k, out) ->
  length out = Nat.min (length fs) (length ls) /\
  forall i d, (i < length out)%nat -> nth i out d = snd (sbt1 (nth i fs []) (nth i ls 0%Z)).
Proof. exact @batch_rows. Qed.
Print Assumptions C73_list_rows.
Theorem C73_raises_iff : forall K G (sbt1 : list R -> Z -> K * G) fs l, raises (batch_sbt sbt1 fs l) <-> l = LOther \/ fs = [] \/ l = LList [].
Proof. exact @batch_raises. Qed.
Print Assumptions C73_raises_iff.
(** The documented requirement on lengths is not checked. *)
Theorem C73_one_per_row_refuted : ~ (forall K G (sbt1 : list R -> Z -> K * G) fs ls k out, batch_sbt sbt1 fs (LList ls) = Ok (k, out) -> length out = length fs).
Proof. intros H. specialize (H R R (fun f _ => (0, hd 0 f)) [[1]; [2]] [0%Z] 0 [1] eq_refl). discriminate. Qed.
Print Assumptions C73_one_per_row_refuted.
Example C73_example : batch_sbt (fun f l => (0, hd 0 f + IZR l)) [[1]; [2]] (LList [0; 1]%Z) = Ok (0, [1 + 0; 2 + 1]).
Proof. reflexivity. Qed.

(** ** C101 *)
(** The momentum grid is logarithmic with the radial step and ends at kmax. *)
Theorem C101_momentum_grid : forall r kmax, (2 <= length r)%nat -> 0 < kmax ->
  kk r kmax (length r - 1) = kmax /\ forall i, kk r kmax (S i) = kk r kmax i * exp ((ln (last r 0) - ln (hd 0 r)) / (INR (length r) - 1)).
Proof. intros r kmax H Hk. split; [exact (kk_last r kmax H Hk)|exact (kk_step r kmax)]. Qed.
Print Assumptions C101_momentum_grid.
(** One switch: the small-k result up to and including the point where both results are closest, the
    large-k result after it. *)
Theorem C101_one_switch : forall m1 m2 lmax r kmax ff l d norm out, run m1 m2 lmax r kmax ff l d norm = Ok out -> (0 < length r)%nat ->
  let fwd := (d =? 1)%Z in let pref := if norm then sqrt (2 / PI) else 1 in
  let big := big_k m1 r kmax ff l fwd pref in let small := small_k m2 r kmax ff l fwd pref in
  exists m, (m < length r)%nat /\ (forall n, (n < length r)%nat -> Rabs (big m - small m) <= Rabs (big n - small n)) /\
    forall n, (n < length r)%nat -> nth n out 0 = if (n <=? m)%nat then small n else big n.
Proof. exact run_switch. Qed.
Print Assumptions C101_one_switch.
Theorem C101_homogeneous : forall m1 m2 lmax r kmax ff l d norm out a, a <> 0 -> run m1 m2 lmax r kmax ff l d norm = Ok out ->
  run m1 m2 lmax r kmax (map (Rmult a) ff) l d norm = Ok (map (Rmult a) out).
Proof. exact run_homogeneous. Qed.
Print Assumptions C101_homogeneous.
(** On a logarithmic grid the inverse transform is the forward transform with the two grids exchanged,
    if l = 0, or both grids start at the same value, or the first sample vanishes: the extension of the
    input below its first point uses the wrong grid otherwise. *)
Theorem C101_inverse_is_forward_on_swapped_grids : forall m1 m2 lmax r k h ff l norm, (2 <= length r)%nat -> 0 < k -> log_grid r h ->
  (l = 0%nat \/ hd 0 r = kk r k 0 \/ hd 0 ff = 0) ->
  run m1 m2 lmax r k ff l (-1) norm = run m1 m2 lmax (swapped r k) (last r 0) ff l 1 norm.
Proof. exact run_swap. Qed.
Print Assumptions C101_inverse_is_forward_on_swapped_grids.
Theorem C101_raises_iff : forall m1 m2 lmax r kmax ff l d norm, raises (run m1 m2 lmax r kmax ff l d norm) <-> (lmax < l)%nat \/ (d <> 1 /\ d <> -1)%Z.
Proof. exact run_raises. Qed.
Print Assumptions C101_raises_iff.
Example C101_example : log_grid [1; exp 1; exp 2] 1 /\ (2 <= length [1%R; exp 1; exp 2])%nat.
Proof. exact log_example. Qed.

(** ** C121 *)
(** With the tables the class builds, on a logarithmic grid: up to the switch the fast transform is exactly
    the direct sum of r^3 f(r) j_l(k r) on the grid, times the logarithmic step. *)
Theorem C121_small_momenta_exact : forall jn gp lmax r kmax h ff l norm rr o out, (2 <= length r)%nat -> log_grid r h ->
  run_class jn gp lmax r kmax ff l 1 norm rr false = Ok (o, out) ->
  exists m, (m < length r)%nat /\ forall n, (n <= m)%nat -> nth n out 0 = (if norm then sqrt (2 / PI) else 1) *
    sumR (seq 0 (length r)) (fun i => drho r * (nth i r 0 ^ 3 * nth i ff 0 * jn (Z.of_nat l) (nth i r 0 * kk r kmax n))).
Proof. exact forward_small. Qed.
Print Assumptions C121_small_momenta_exact.
Theorem C121_small_radii_exact : forall jn gp lmax r kmax h ff l norm rr o out, (2 <= length r)%nat -> log_grid r h ->
  run_class jn gp lmax r kmax ff l (-1) norm rr false = Ok (o, out) ->
  exists m, (m < length r)%nat /\ forall n, (n <= m)%nat -> nth n out 0 = (if norm then sqrt (2 / PI) else 1) *
    sumR (seq 0 (length r)) (fun i => drho r * (kk r kmax i ^ 3 * nth i ff 0 * jn (Z.of_nat l) (kk r kmax i * nth n r 0))).
Proof. exact inverse_small. Qed.
Print Assumptions C121_small_radii_exact.
(** Hence a first-order error bound against the integral of f(r) r^2 j_l(k r) over the grid. *)
Theorem C121_error_bound : forall jn gp phi l r kmax norm h k g, (2 <= length r)%nat -> log_grid r h -> 0 <= h -> sbt jn gp r (map phi r) l kmax norm = Ok (k, g) ->
  exists m, (m < length r)%nat /\ forall n L, (n <= m)%nat -> 0 <= L ->
  let F s := phi s * s ^ 2 * jn (Z.of_nat l) (nth n k 0 * s) in let pref := if norm then sqrt (2 / PI) else 1 in
  (forall s, hd 0 r <= s <= last r 0 -> continuous F s) ->
  (forall s t, ln (hd 0 r) <= s <= ln (last r 0) -> ln (hd 0 r) <= t <= ln (last r 0) -> Rabs (exp s * F (exp s) - exp t * F (exp t)) <= L * Rabs (s - t)) ->
  Rabs (nth n g 0 - pref * RInt F (hd 0 r) (last r 0)) <= pref * (h * (L * (ln (last r 0) - ln (hd 0 r)) + Rabs (last r 0 * F (last r 0)))).
Proof. exact sbt_small_error. Qed.
Print Assumptions C121_error_bound.
Theorem C121_grid : forall jn gp r f l kmax norm k g, (2 <= length r)%nat -> 0 < kmax -> sbt jn gp r f l kmax norm = Ok (k, g) ->
  length k = length r /\ length g = length r /\ last k 0 = kmax /\ forall i, (S i < length r)%nat -> nth (S i) k 0 = nth i k 0 * exp ((ln (last r 0) - ln (hd 0 r)) / (INR (length r) - 1)).
Proof. exact sbt_grid. Qed.
Print Assumptions C121_grid.
Theorem C121_raises_iff : forall jn gp r f l kmax norm, raises (sbt jn gp r f l kmax norm) <-> (10 < l)%nat \/ length f <> length r.
Proof. exact sbt_raises'. Qed.
Print Assumptions C121_raises_iff.
(** include_zero prepends the transform at zero, and zero to the grid if the grid is returned. *)
Theorem C121_zero_point : forall jn gp lmax r kmax ff l d norm rr o out p q, length r = (q + 2 * p + 1)%nat -> (q <= 1)%nat -> run_class jn gp lmax r kmax ff l d norm rr true = Ok (o, out) ->
  exists o' gg, run_class jn gp lmax r kmax ff l d norm rr false = Ok (o', gg) /\ o = option_map (cons 0) o' /\
  out = (let x j := if (d =? 1)%Z then nth j r 0 else kk r kmax j in
         (if norm then sqrt (2 / PI) else 1) * (jn (Z.of_nat l) 0 * composite (drho r) (fun i => x i ^ 3 * nth i ff 0) q p)) :: gg.
Proof. exact class_zero. Qed.
Print Assumptions C121_zero_point.
Theorem C121_returned_grid : forall jn gp lmax r kmax ff l d norm z o out, run_class jn gp lmax r kmax ff l d norm true z = Ok (o, out) ->
  o = Some (let grid := if (d =? 1)%Z then map (kk r kmax) (seq 0 (length r)) else r in if z then 0 :: grid else grid).
Proof. exact returned_grid. Qed.
Print Assumptions C121_returned_grid.
(** The prefactor only scales; so dropping it scales a round trip by pi/2 (the documentation says 2/pi). *)
Theorem C121_prefactor : forall m1 m2 lmax r kmax ff l d out, (0 < length r)%nat -> run m1 m2 lmax r kmax ff l d false = Ok out -> run m1 m2 lmax r kmax ff l d true = Ok (map (Rmult (sqrt (2 / PI))) out).
Proof. exact run_norm. Qed.
Print Assumptions C121_prefactor.
Theorem C121_round_trip_factor : forall m1 m2 lmax r kmax ff l g f gn fn, (0 < length r)%nat -> run m1 m2 lmax r kmax ff l 1 false = Ok g -> run m1 m2 lmax r kmax g l (-1) false = Ok f ->
  run m1 m2 lmax r kmax ff l 1 true = Ok gn -> run m1 m2 lmax r kmax gn l (-1) true = Ok fn -> f = map (Rmult (PI / 2)) fn.
Proof. exact round_trip. Qed.
Print Assumptions C121_round_trip_factor.
(** The table of the large-k branch: constant modulus (half of it at t = 0) and the recurrences of the
    Mellin transforms of j_l at 3/2 - i t. *)
Theorem C121_table_modulus : forall gp r kmax l i, (0 < length r)%nat -> Cnorm2 (m_lt1 gp r kmax l i) = PI / 2 / INR (length r) ^ 2 * (if (i =? 0)%nat then / 4 else 1).
Proof. exact table_modulus. Qed.
Print Assumptions C121_table_modulus.
Theorem C121_table_recurrence : forall gp r kmax l i, Cmult (m_lt1 gp r kmax (S (S l)) i) (INR l + 3 / 2, tt r i) = Cmult (m_lt1 gp r kmax l i) (INR l + 3 / 2, - tt r i).
Proof. exact table_recurrence. Qed.
Print Assumptions C121_table_recurrence.
Theorem C121_table_first : forall gp r kmax i, Cmult (Cmult (m_lt1 gp r kmax 1 i) (1 / 2, tt r i)) (cosh (PI * tt r i / 2), - sinh (PI * tt r i / 2)) =
  Cmult (Cmult (m_lt1 gp r kmax 0 i) (1 / 2, - tt r i)) (cosh (PI * tt r i / 2), sinh (PI * tt r i / 2)).
Proof. exact table_first. Qed.
Print Assumptions C121_table_first.
Example C121_example : exists o out, run_class (fun _ _ => 1) (fun _ => 0) 10 [1; exp 1; exp 2] 1 [1; 2; 3] 2 1 true true true = Ok (o, out) /\ length out = 4%nat /\ length [1; exp 1; exp 2] = (0 + 2 * 1 + 1)%nat /\ log_grid [1; exp 1; exp 2] 1.
Proof. exact class_example. Qed.
Example C121_error_example : let r := [1; exp 1; exp 2] in let F s := / s ^ 3 * s ^ 2 * (fun (_ : Z) (_ : R) => 1) 0%Z (1 * s) in
  (forall s, hd 0 r <= s <= last r 0 -> continuous F s) /\
  (forall s t, ln (hd 0 r) <= s <= ln (last r 0) -> ln (hd 0 r) <= t <= ln (last r 0) -> Rabs (exp s * F (exp s) - exp t * F (exp t)) <= 0 * Rabs (s - t)).
Proof. exact error_case. Qed.
