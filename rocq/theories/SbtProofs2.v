From Coq Require Import Reals Lra Lia ZArith.
From Coquelicot Require Import Coquelicot.
From Coq Require Import List Arith Bool.
From Verif Require Import Base Sums SbtModel SbtSpec SbtProofs.
Import ListNotations.
Local Open Scope R_scope.

Lemma nth_map_lt' {A B} (f : A -> B) (l : list A) i d d' : (i < length l)%nat -> nth i (map f l) d = f (nth i l d').
Proof. intros H. rewrite (nth_indep _ d (f d')) by (rewrite map_length; exact H). apply map_nth. Qed.
Lemma linspace_length a b n : length (linspace a b n) = n.
Proof. destruct n as [|[|n]]; [reflexivity|reflexivity|]. unfold linspace. rewrite map_length. apply seq_length. Qed.
Lemma linspace_nth a b n i : (i < n)%nat -> (2 <= n)%nat -> nth i (linspace a b n) 0 = a + INR i * ((b - a) / (INR n - 1)).
Proof.
  intros Hi Hn. destruct n as [|[|n]]; [lia|lia|]. unfold linspace. rewrite (nth_map_lt' _ _ i 0 0%nat) by (rewrite seq_length; exact Hi).
  rewrite seq_nth by exact Hi. reflexivity.
Qed.
Lemma quad_default jn r f l g : quad jn r (spacing r) f l g =
  sumR (seq 0 (length r - 1)) (fun i => nth i f 0 * nth i r 0 ^ 2 * jn l (g * nth i r 0) * (nth (S i) r 0 - nth i r 0)).
Proof.
  unfold quad. destruct (length r) as [|n] eqn:E; [reflexivity|]. rewrite sumR_seq_S, (spacing_nth r n) by lia.
  rewrite E, Nat.eqb_refl, Rmult_0_r, Rplus_0_r. replace (S n - 1)%nat with n by lia. apply sumR_ext. intros i Hi. apply in_seq in Hi.
  rewrite spacing_nth by lia. destruct (Nat.eqb_spec (S i) (length r)); [lia|reflexivity].
Qed.
Section Num.
Variable jn : Z -> R -> R.
Definition l_of (l : l_arg) (a : nat) : Z := match l with LInt l0 => l0 | LList ls => nth a ls 0%Z | LOther => 0%Z end.
Lemma sbt_formula r f l k g rows : sbt_numerical jn r f l (Some k) None = Ok (g, rows) -> r <> [] ->
  length g = (2 * length r)%nat /\
  (forall j, (j < 2 * length r)%nat -> nth j g 0 = / 10000 + INR j * ((k - / 10000) / (INR (2 * length r) - 1))) /\
  length rows = length (rows_of f) /\
  forall a j, (a < length (rows_of f))%nat -> (j < 2 * length r)%nat ->
    nth j (nth a rows []) 0 = sumR (seq 0 (length r - 1)) (fun i =>
      nth i (nth a (rows_of f) []) 0 * nth i r 0 ^ 2 * jn (l_of l a) (nth j g 0 * nth i r 0) * (nth (S i) r 0 - nth i r 0)).
Proof.
  intros H Hr. assert (Hn : (1 <= length r)%nat) by (destruct r; [contradiction|cbn; lia]).
  assert (L : length (linspace (/ 10000) k (2 * length r)) = (2 * length r)%nat) by apply linspace_length.
  assert (N : forall j, (j < 2 * length r)%nat -> nth j (linspace (/ 10000) k (2 * length r)) 0 = / 10000 + INR j * ((k - / 10000) / (INR (2 * length r) - 1))) by (intros j Hj; apply linspace_nth; lia).
  destruct l as [l0|ls|].
  - apply sbt_int in H. cbv zeta in H. destruct H as (F & _ & E). apply pair_equal_spec in E. destruct E as [-> ->].
    split; [exact L|]. split; [exact N|]. split; [apply map_length|]. intros a j Ha Hj.
    rewrite (nth_map_lt' _ _ a [] []) by exact Ha. rewrite (nth_map_lt' _ _ j 0 0) by lia. apply quad_default.
  - apply sbt_list in H. cbv zeta in H. destruct H as (fs & -> & Lf & F & _ & E). apply pair_equal_spec in E. destruct E as [-> ->]. cbn [rows_of l_of].
    split; [exact L|]. split; [exact N|]. split; [rewrite map_length, combine_length; lia|]. intros a j Ha Hj.
    rewrite (nth_map_lt' _ _ a [] ([], 0%Z)) by (rewrite combine_length; lia). rewrite combine_nth by exact Lf. cbn [fst snd].
    rewrite (nth_map_lt' _ _ j 0 0) by lia. apply quad_default.
  - discriminate.
Qed.
Lemma sbt_raises r f l kmax delta : raises (sbt_numerical jn r f l kmax delta) <->
  kmax = None \/ l = LOther \/ (exists ls, l = LList ls /\ (forall fs, f = F2 fs -> length fs <> length ls)) \/
  Exists (fun row => length row <> length r) (rows_of f) \/ (exists d, delta = Some d /\ length d <> length r).
Proof.
  set (d := match delta with Some d => d | None => spacing r end).
  assert (Hd : length d <> length r <-> exists d, delta = Some d /\ length d <> length r).
  { subst d. destruct delta as [d|].
    - split; [intros H; exists d; auto|]. intros (d' & E & H). injection E as ->. exact H.
    - rewrite spacing_length. split; [intros H; contradiction|intros (d' & E & _); discriminate]. }
  assert (Fd : Forall (fun row : list R => length row = length r) (rows_of f) \/ Exists (fun row => length row <> length r) (rows_of f)).
  { destruct (Forall_Exists_dec (fun row : list R => length row = length r) (fun row => Nat.eq_dec _ _) (rows_of f)); [left|right]; assumption. }
  assert (Fx : Exists (fun row => length row <> length r) (rows_of f) -> ~ Forall (fun row : list R => length row = length r) (rows_of f)).
  { intros H F. apply Exists_exists in H. destruct H as (x & Hx & N). rewrite Forall_forall in F. apply N, F, Hx. }
  rewrite <- Hd. destruct kmax as [k|]; [|split; [left; reflexivity|intros _; exists TypeErr; reflexivity]].
  assert (R : forall o, raises o <-> ~ exists x : list R * list (list R), o = Ok x).
  { intros o. unfold raises. destruct o as [x|e]; split; [intros [e E]; discriminate|intros H; exfalso; apply H; exists x; reflexivity|intros _ [x E]; discriminate|intros _; exists e; reflexivity]. }
  rewrite R. destruct l as [l0|ls|].
  - split.
    + intros H. right; right; right. destruct Fd as [F|E]; [|left; exact E]. right. intros L. apply H. eexists. apply sbt_int. cbv zeta. fold d.
      split; [exact F|]. split; [exact L|reflexivity].
    + intros H [x E]. apply sbt_int in E. cbv zeta in E. fold d in E. destruct E as (F & L & _).
      destruct H as [H|[H|[(ls & H & _)|[H|H]]]]; [discriminate|discriminate|discriminate|apply (Fx H F)|apply (H L)].
  - split.
    + intros H. right; right. destruct f as [v|fs]; [left; exists ls; split; [reflexivity|]; intros fs E; discriminate|].
      destruct (Nat.eq_dec (length fs) (length ls)) as [E|N]; [|left; exists ls; split; [reflexivity|]; intros fs' E; injection E as <-; exact N].
      right. destruct Fd as [F|X]; [|left; exact X]. right. intros L. apply H. eexists. apply sbt_list. cbv zeta. fold d. exists fs.
      split; [reflexivity|]. split; [exact E|]. split; [exact F|]. split; [exact L|reflexivity].
    + intros H [x E]. apply sbt_list in E. cbv zeta in E. fold d in E. destruct E as (fs & -> & Lf & F & L & _).
      destruct H as [H|[H|[(ls' & E & N)|[H|H]]]]; [discriminate|discriminate|injection E as <-; apply (N fs eq_refl Lf)|apply (Fx H F)|apply (H L)].
  - split; [intros _; right; left; reflexivity|intros _ [x E]; discriminate].
Qed.
(** Rows of a linear combination. *)
Lemma lincomb_nth a b u v i : length u = length v -> (i < length u)%nat -> nth i (lincomb a b u v) 0 = a * nth i u 0 + b * nth i v 0.
Proof.
  intros L H. unfold lincomb. rewrite (nth_map_lt' _ _ i 0 (0, 0)) by (rewrite combine_length; lia). rewrite combine_nth by exact L. reflexivity.
Qed.
Lemma lincomb_length a b u v : length (lincomb a b u v) = Nat.min (length u) (length v).
Proof. unfold lincomb. rewrite map_length. apply combine_length. Qed.
Lemma sbt_linear r u v l k delta a b g ru rv :
  sbt_numerical jn r (F1 u) (LInt l) (Some k) delta = Ok (g, [ru]) -> sbt_numerical jn r (F1 v) (LInt l) (Some k) delta = Ok (g, [rv]) ->
  sbt_numerical jn r (F1 (lincomb a b u v)) (LInt l) (Some k) delta = Ok (g, [lincomb a b ru rv]).
Proof.
  intros Hu Hv. apply sbt_int in Hu. apply sbt_int in Hv. apply sbt_int. cbv zeta in *. cbn [rows_of map] in *.
  set (d := match delta with Some d => d | None => spacing r end) in *. destruct Hu as (Fu & Ld & Eu). destruct Hv as (Fv & _ & Ev).
  inversion_clear Fu as [|? ? Lu _]. inversion_clear Fv as [|? ? Lv _]. split; [constructor; [rewrite lincomb_length; lia|constructor]|]. split; [exact Ld|].
  apply pair_equal_spec in Eu. destruct Eu as [Eg Eu]. apply pair_equal_spec in Ev. destruct Ev as [_ Ev].
  assert (ru = map (quad jn r d u l) g) by congruence. assert (rv = map (quad jn r d v l) g) by congruence. rewrite <- Eg. subst ru rv. do 2 f_equal.
  clear Eg Eu Ev. unfold lincomb at 1. induction g as [|x g IH]; [reflexivity|]. cbn [map combine]. f_equal; [|exact IH]. cbn [fst snd]. symmetry.
  apply quad_linear. intros i Hi. apply lincomb_nth; lia.
Qed.
(** The last sample does not matter. *)
Lemma sbt_last r u v l k : length u = length v -> (forall i, (S i < length r)%nat -> nth i u 0 = nth i v 0) ->
  sbt_numerical jn r (F1 u) (LInt l) (Some k) None = sbt_numerical jn r (F1 v) (LInt l) (Some k) None.
Proof.
  intros L H. unfold sbt_numerical. cbv zeta. cbn [forallb]. rewrite L. destruct ((length v =? length r)%nat && true && _); [|reflexivity]. do 2 f_equal. cbn [map]. f_equal.
  apply map_ext. intros g. apply quad_last. exact H.
Qed.
End Num.

(** ** Exchanging the two grids *)
Definition swapped (r : list R) (kmax : R) : list R := map (kk r kmax) (seq 0 (length r)).
Lemma last_nth (l : list R) : last l 0 = nth (length l - 1) l 0.
Proof. induction l as [|a [|b l] IH]; [reflexivity|reflexivity|]. change (last (a :: b :: l) 0) with (last (b :: l) 0). rewrite IH. cbn [length]. replace (S (S (length l)) - 1)%nat with (S (S (length l) - 1)) by lia. reflexivity. Qed.
Lemma swapped_length r k : length (swapped r k) = length r.
Proof. unfold swapped. rewrite map_length. apply seq_length. Qed.
Lemma swapped_nth r k i : (i < length r)%nat -> nth i (swapped r k) 0 = kk r k i.
Proof. intros H. unfold swapped. rewrite (nth_map_lt' _ _ i 0 0%nat) by (rewrite seq_length; exact H). rewrite seq_nth by exact H. reflexivity. Qed.
Lemma drho_log r h : (2 <= length r)%nat -> log_grid r h -> drho r = h.
Proof.
  intros Hn [H0 H]. unfold drho. rewrite last_nth, H by lia. rewrite ln_mult by (first [exact H0|apply exp_pos]). rewrite ln_exp, minus_INR by lia.
  change (INR 1) with 1. assert (2 <= INR (length r)) by (apply le_INR in Hn; cbn in Hn; lra). field. lra.
Qed.
Lemma swapped_log r k h : (2 <= length r)%nat -> log_grid r h -> log_grid (swapped r k) h.
Proof.
  intros Hn Hg. assert (E : hd 0 (swapped r k) = kk r k 0) by (rewrite hd_nth; apply swapped_nth; lia). split; [rewrite E; apply kk_pos|].
  rewrite swapped_length. intros i Hi. rewrite E, swapped_nth by exact Hi. unfold kk. rewrite (drho_log r h Hn Hg). cbn [INR]. rewrite Rmult_0_l, exp_0. ring.
Qed.
Lemma swapped_twice r k h i : (2 <= length r)%nat -> 0 < k -> log_grid r h -> (i < length r)%nat -> kk (swapped r k) (last r 0) i = nth i r 0.
Proof.
  intros Hn Hk Hg Hi. pose proof (swapped_log r k h Hn Hg) as Hs. pose proof Hg as [H0 H].
  assert (Hl : 0 < last r 0) by (rewrite last_nth, H by lia; apply Rmult_lt_0_compat; [exact H0|apply exp_pos]).
  assert (El : last (swapped r k) 0 = k) by (rewrite last_nth, swapped_length, swapped_nth by lia; apply kk_last; [exact Hn|exact Hk]).
  assert (Eh : hd 0 (swapped r k) = kk r k 0) by (rewrite hd_nth; apply swapped_nth; lia).
  assert (E0 : kk (swapped r k) (last r 0) 0 = hd 0 r).
  { rewrite kk_first; [|rewrite swapped_length; lia|exact Hl|rewrite Eh; apply kk_pos|rewrite El; exact Hk]. rewrite El, Eh, kk_first; [|lia|exact Hk|exact H0|exact Hl]. field. lra. }
  rewrite H by exact Hi. rewrite <- E0. unfold kk. rewrite (drho_log _ h ltac:(rewrite swapped_length; exact Hn) Hs). cbn [INR]. rewrite Rmult_0_l, exp_0. ring.
Qed.
Lemma Rpower_div x y c : 0 < x -> 0 < y -> Rpower (x * y) c / Rpower x c = Rpower y c.
Proof. intros Hx Hy. rewrite <- Rpower_mult_distr by assumption. field. unfold Rpower. apply Rgt_not_eq, exp_pos. Qed.
Lemma pow_div_cancel a b l : a <> 0 -> (b / a) ^ l = b ^ l / a ^ l.
Proof. intros Ha. unfold Rdiv. rewrite Rpow_mult_distr, pow_inv. reflexivity. Qed.
Section Swap.
Variables m1 m2 : nat -> nat -> C.
Lemma rfft_ext x y N k : (forall i, (i < N)%nat -> x i = y i) -> rfft x N k = rfft y N k.
Proof. intros H. unfold rfft. apply sumC_ext. intros i Hi. apply in_seq in Hi. rewrite H by lia. reflexivity. Qed.
Lemma ifft1_ext x y N n : (forall i, (i < N)%nat -> x i = y i) -> ifft1 x N n = ifft1 y N n.
Proof. intros H. unfold ifft1. f_equal. apply sumC_ext. intros i Hi. apply in_seq in Hi. rewrite H by lia. reflexivity. Qed.
Lemma irfft_ext x y M n : (1 <= M)%nat -> (forall i, (i < M)%nat -> x i = y i) -> irfft x M n = irfft y M n.
Proof.
  intros HM H. unfold irfft. cbv zeta. rewrite (H 0%nat), (H (M - 1)%nat) by lia. do 3 f_equal. apply sumR_ext. intros i Hi. apply in_seq in Hi. rewrite H by lia. reflexivity.
Qed.
Lemma small_swap r k h ff l pref n : (2 <= length r)%nat -> log_grid r h ->
  small_k m2 r k ff l false pref n = small_k m2 (swapped r k) (last r 0) ff l true pref n.
Proof.
  intros Hn Hg. unfold small_k. cbv zeta. rewrite swapped_length. rewrite (drho_log r h Hn Hg), (drho_log (swapped r k) h ltac:(rewrite swapped_length; exact Hn) (swapped_log r k h Hn Hg)).
  f_equal. f_equal. apply irfft_ext; [lia|]. intros i _. do 3 f_equal. apply rfft_ext. intros j Hj. destruct (Nat.ltb_spec j (length r)); [|reflexivity]. rewrite swapped_nth by assumption. reflexivity.
Qed.
Lemma big_swap r k h ff l pref n : (2 <= length r)%nat -> 0 < k -> log_grid r h -> (l = 0%nat \/ hd 0 r = kk r k 0 \/ hd 0 ff = 0) ->
  big_k m1 r k ff l false pref n = big_k m1 (swapped r k) (last r 0) ff l true pref n.
Proof.
  intros Hn Hk Hg HC. pose proof Hg as [H0 Hr]. pose proof (swapped_log r k h Hn Hg) as Hs.
  assert (Eh : hd 0 (swapped r k) = kk r k 0) by (rewrite hd_nth; apply swapped_nth; lia).
  assert (E0 : kk (swapped r k) (last r 0) 0 = hd 0 r) by (rewrite (swapped_twice r k h) by (assumption || lia); rewrite hd_nth; reflexivity).
  pose proof (kk_pos r k 0) as Hk0.
  unfold big_k. cbv zeta. rewrite swapped_length, Eh, E0. rewrite (drho_log r h Hn Hg), (drho_log (swapped r k) h ltac:(rewrite swapped_length; exact Hn) Hs).
  do 3 f_equal. do 2 f_equal. apply ifft1_ext. intros i _. destruct (i <? length r)%nat; [|reflexivity]. do 2 f_equal. apply rfft_ext. intros j Hj.
  destruct (Nat.ltb_spec j (length r)) as [A|A].
  - rewrite !Rpower_div by (assumption || apply exp_pos). f_equal. rewrite !Rpow_mult_distr.
    destruct HC as [->|[E|E]]; [cbn; field|rewrite <- E; field; apply pow_nonzero; lra|rewrite E; unfold Rdiv; ring].
  - rewrite (Hr (j - length r)%nat), (swapped_nth r k (j - length r)) by lia. unfold kk at 1. rewrite (drho_log r h Hn Hg).
    replace (exp (kappa_min r k)) with (kk r k 0) by (unfold kk; cbn [INR]; rewrite Rmult_0_l, exp_0; ring).
    rewrite !Rpower_div by (assumption || apply exp_pos). reflexivity.
Qed.
Lemma run_swap lmax r k h ff l norm : (2 <= length r)%nat -> 0 < k -> log_grid r h -> (l = 0%nat \/ hd 0 r = kk r k 0 \/ hd 0 ff = 0) ->
  run m1 m2 lmax r k ff l (-1) norm = run m1 m2 lmax (swapped r k) (last r 0) ff l 1 norm.
Proof.
  intros Hn Hk Hg HC. unfold run. destruct (l <=? lmax)%nat; [|reflexivity]. change (-1 =? 1)%Z with false. change (-1 =? -1)%Z with true. change (1 =? 1)%Z with true. cbn [orb]. cbv zeta.
  rewrite swapped_length. set (pref := if norm then _ else _).
  assert (EB : forall n, big_k m1 r k ff l false pref n = big_k m1 (swapped r k) (last r 0) ff l true pref n) by (intros n; apply (big_swap r k h); assumption).
  assert (ES : forall n, small_k m2 r k ff l false pref n = small_k m2 (swapped r k) (last r 0) ff l true pref n) by (intros n; apply (small_swap r k h); assumption).
  f_equal. replace (argmin (fun n => Rabs (big_k m1 r k ff l false pref n - small_k m2 r k ff l false pref n)) (length r)) with
    (argmin (fun n => Rabs (big_k m1 (swapped r k) (last r 0) ff l true pref n - small_k m2 (swapped r k) (last r 0) ff l true pref n)) (length r)).
  - apply map_ext. intros n. rewrite EB, ES. reflexivity.
  - apply argmin_from_ext. intros a b. rewrite !EB, !ES. reflexivity.
Qed.
End Swap.

Lemma sbt_error jn l k phi r a g row : sbt_numerical jn (a :: r) (F1 (map phi (a :: r))) (LInt l) (Some k) None = Ok (g, [row]) ->
  forall h j L, steps_upto h (a :: r) -> (j < length g)%nat -> 0 <= L ->
  let F s := phi s * s ^ 2 * jn l (nth j g 0 * s) in
  (forall s t, a <= s <= last (a :: r) 0 -> a <= t <= last (a :: r) 0 -> Rabs (F s - F t) <= L * Rabs (s - t)) ->
  Rabs (nth j row 0 - RInt F a (last (a :: r) 0)) <= L * h * (last (a :: r) 0 - a).
Proof.
  intros H h j L Hs Hj HL F HF. apply sbt_int in H. cbv zeta in H. cbn [rows_of] in H. destruct H as (_ & _ & E). apply pair_equal_spec in E. destruct E as [Eg E].
  rewrite <- Eg in E. assert (Er : row = map (quad jn (a :: r) (spacing (a :: r)) (map phi (a :: r)) l) g) by (cbn [map] in E |- *; congruence).
  rewrite Er, (nth_map_lt' _ _ j 0 0) by exact Hj. apply quad_error; assumption.
Qed.
(** Examples *)
Lemma sbt_example : exists g row, sbt_numerical (fun _ x => x) [1; 2; 4] (F1 [1; 1; 7]) (LInt 0) (Some 3) None = Ok (g, [row]) /\ nth 0 row 0 = 17 / 10000.
Proof.
  eexists. eexists. split; [reflexivity|]. unfold linspace, quad, spacing, sumR. cbn. lra.
Qed.
Lemma error_example : let F s := 1 * s ^ 2 * (fun _ _ => 1) 0%Z (1 * s) in steps_upto 1 [0; 1; 2] /\ forall s t, 0 <= s <= 2 -> 0 <= t <= 2 -> Rabs (F s - F t) <= 4 * Rabs (s - t).
Proof.
  cbv zeta. split; [cbn; lra|]. intros s t Hs Ht. replace (1 * s ^ 2 * 1 - 1 * t ^ 2 * 1) with ((s + t) * (s - t)) by ring. rewrite Rabs_mult.
  apply Rmult_le_compat_r; [apply Rabs_pos|]. rewrite Rabs_pos_eq; lra.
Qed.
Lemma log_example : log_grid [1; exp 1; exp 2] 1 /\ (2 <= length [1%R; exp 1; exp 2])%nat.
Proof.
  split; [|cbn; lia]. split; [cbn; lra|]. cbn [length hd]. intros [|[|[|i]]] Hi; [| | |lia]; cbn; rewrite ?Rmult_0_l, ?exp_0, ?Rmult_1_l, ?Rmult_1_r; reflexivity.
Qed.
