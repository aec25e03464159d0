(** Proofs about occupations, entropy, spin parity and safe_real. *)
From Coq Require Import List Arith ZArith Reals Bool Lra Lia ZifyBool.
From Coquelicot Require Import Complex.
From Verif Require Import Base Sums Tensor GridModel OccModel OccSpec ProjProofs.
Import ListNotations.
Local Open Scope R_scope.
Ltac Zify.zify_post_hook ::= Z.div_mod_to_equations.

(** ** check_spin_number, safe_real *)
Lemma check_spin_ok N s : check_spin_number N s = Ok tt <-> (N mod 2 = s mod 2)%Z.
Proof. unfold check_spin_number. destruct (Z.eqb_spec (N mod 2) (s mod 2)); simpl; split; intros; congruence. Qed.
Lemma check_spin_err N s : check_spin_number N s = Err ValueErr <-> (N mod 2 <> s mod 2)%Z.
Proof. unfold check_spin_number. destruct (Z.eqb_spec (N mod 2) (s mod 2)); simpl; split; intros; congruence. Qed.
Lemma check_spin_split N s : check_spin_number N s = Ok tt ->
  ((N + s) / 2 + (N - s) / 2 = N /\ (N + s) / 2 - (N - s) / 2 = s)%Z.
Proof. rewrite check_spin_ok. lia. Qed.

Lemma safe_real_complex t tol :
  ((forall i, inb i (tshape t) -> Rabs (Im (tget t i)) <= tol) /\
     exists r, safe_real (CArr t) tol = Ok r /\ tshape r = tshape t /\ forall i, tget r i = Re (tget t i)) \/
  ((exists i, inb i (tshape t) /\ tol < Rabs (Im (tget t i))) /\ safe_real (CArr t) tol = Err ValueErr).
Proof.
  unfold safe_real. destruct (forallb _ _) eqn:E.
  - left. split; [|eexists; repeat split].
    intros i Hi. rewrite forallb_forall in E. specialize (E i (proj2 (in_indices _ _) Hi)).
    change (Im (tget t i)) with (snd (tget t i)). destruct (Rle_dec _ _); [assumption|discriminate].
  - right. split; [|reflexivity]. apply not_true_iff_false in E. rewrite forallb_forall in E.
    assert (H : existsb (fun i => negb (if Rle_dec (Rabs (snd (tget t i))) tol then true else false)) (indices (tshape t)) = true).
    { destruct (existsb _ _) eqn:F; [reflexivity|]. exfalso. apply E. intros i Hi.
      destruct (Rle_dec _ _) as [|n] eqn:D; [reflexivity|]. exfalso.
      apply not_true_iff_false in F. apply F, existsb_exists. exists i. split; [exact Hi|]. rewrite D. reflexivity. }
    apply existsb_exists in H. destruct H as (i & Hi & Hn). exists i. split; [apply in_indices, Hi|].
    destruct (Rle_dec _ _) as [|n]; [discriminate|]. apply Rnot_le_lt in n. exact n.
Qed.
Lemma safe_real_real t tol : safe_real (RArr t) tol = Ok t.
Proof. reflexivity. Qed.

(** ** Sums over [spin, kpt, band] arrays *)
Lemma total_2KB K B f : total (mkT [2; K; B]%nat f) =
  sumR (seq 0 K) (fun k => sumR (seq 0 B) (fun b => f [0; k; b]%nat)) + sumR (seq 0 K) (fun k => sumR (seq 0 B) (fun b => f [1; k; b]%nat)).
Proof.
  unfold total. cbn [tshape tget]. rewrite sumR_indices_cons. cbn [seq sumR fold_right].
  rewrite !sumR_indices_cons. rewrite Rplus_0_r. f_equal;
  (apply sumR_ext; intros k _; rewrite sumR_indices_cons; apply sumR_ext; intros b _; simpl; ring).
Qed.
Lemma sumR_KB K B (f : list nat -> R) :
  sumR (indices [K; B]) f = sumR (seq 0 K) (fun k => sumR (seq 0 B) (fun b => f [k; b])).
Proof.
  rewrite sumR_indices_cons. apply sumR_ext. intros k _. rewrite sumR_indices_cons. apply sumR_ext. intros b _. simpl. ring.
Qed.
Lemma total_1KB K B f : total (mkT [1; K; B]%nat f) = sumR (seq 0 K) (fun k => sumR (seq 0 B) (fun b => f [0; k; b]%nat)).
Proof.
  unfold total. cbn [tshape tget]. rewrite sumR_indices_cons. cbn [seq sumR fold_right].
  rewrite sumR_KB. ring.
Qed.
Lemma total_sum_spin K B f : total (sum_spin (mkT [2; K; B]%nat f)) = total (mkT [2; K; B]%nat f).
Proof.
  unfold sum_spin. cbn [tshape tget tl]. rewrite total_1KB, total_2KB. cbn [tl].
  rewrite <- sumR_plus. apply sumR_ext. intros k _. rewrite <- sumR_plus. reflexivity.
Qed.
Lemma channel_2KB K B f sp : channel (mkT [2; K; B]%nat f) sp = sumR (seq 0 K) (fun k => sumR (seq 0 B) (fun b => f [sp; k; b]%nat)).
Proof. unfold channel. cbn [tshape tget tl]. apply sumR_KB. Qed.

Lemma inb3' i n K B : inb i [n; K; B] -> exists a k b, i = [a; k; b] /\ (a < n)%nat /\ (k < K)%nat /\ (b < B)%nat.
Proof.
  intros H. inversion H as [|a ? ? ? Ha H1]; subst. inversion H1 as [|k ? ? ? Hk H2]; subst.
  inversion H2 as [|b ? ? ? Hb H3]; subst. inversion H3; subst. eauto 8.
Qed.

(** ** uniform and gamma *)
Lemma count_below B m c : (0 <= m <= Z.of_nat B)%Z ->
  sumR (seq 0 B) (fun b => if (Z.of_nat b <? m)%Z then c else 0) = IZR m * c.
Proof.
  revert m. induction B as [|B IH]; intros m Hm.
  - assert (m = 0%Z) by lia. subst. simpl. ring.
  - replace (S B) with (B + 1)%nat by lia. rewrite seq_app, sumR_app. cbn [seq sumR fold_right Nat.add].
    destruct (Z.ltb_spec (Z.of_nat B) m) as [L|L].
    + assert (m = Z.of_nat B + 1)%Z by lia. subst m.
      rewrite (sumR_ext _ _ (fun b => if (Z.of_nat b <? Z.of_nat B)%Z then c else 0)).
      * rewrite IH by lia. rewrite plus_IZR. ring.
      * intros b Hb. apply in_seq in Hb. destruct (Z.ltb_spec (Z.of_nat b) (Z.of_nat B + 1)), (Z.ltb_spec (Z.of_nat b) (Z.of_nat B)); try reflexivity; lia.
    + rewrite IH by lia. ring.
Qed.

Lemma py_bound_range B a : (0 <= B)%Z -> (0 <= py_bound B a <= B)%Z.
Proof. unfold py_bound. destruct (Z.ltb_spec a 0); lia. Qed.

Definition nb_of (nb : option nat) (N : Z) : nat := match nb with Some b => b | None => Z.to_nat N end.
Definition up_count (B : nat) (N s : Z) : Z := py_bound (Z.of_nat B) ((N + s) / 2).
Definition down_count (B : nat) (N s : Z) : Z := py_bound (Z.of_nat B) ((N - s) / 2).

Lemma uniform_inv K N s nb r occ : uniform K N s nb r = Ok occ ->
  (1 <= K)%nat /\ let B := nb_of nb N in
  let o := mkT [2; K; B]%nat (fun i => if (Z.of_nat (nth 2 i 0%nat) <? (if (nth 0 i 0%nat =? 0)%nat then up_count B N s else down_count B N s))%Z then 1 / INR K else 0) in
  occ = if r then sum_spin o else o.
Proof.
  unfold uniform. intros H.
  assert (G : (match nb with Some b => Some b | None => if (N <? 0)%Z then None else Some (Z.to_nat N) end) = Some (nb_of nb N)).
  { destruct nb; [reflexivity|]. destruct (Z.ltb_spec N 0); [discriminate|reflexivity]. }
  rewrite G in H. destruct (Nat.eqb_spec K 0); [discriminate|]. split; [lia|]. cbv zeta. injection H as H. rewrite <- H.
  assert (E : forall f g sh, (forall i : list nat, f i = g i) -> (if r then sum_spin (mkT sh f) else mkT sh f) = (if r then sum_spin (mkT sh g) else mkT sh g)).
  { intros f g sh Hfg. assert (f = g) by (apply FunctionalExtensionality.functional_extensionality; exact Hfg). subst. reflexivity. }
  apply E. intros i. unfold up_count, down_count. destruct (nth 0 i 0 =? 0)%nat; reflexivity.
Qed.

Lemma uniform_sums K B u d : (1 <= K)%nat -> (0 <= u <= Z.of_nat B)%Z -> (0 <= d <= Z.of_nat B)%Z ->
  let o := mkT [2; K; B]%nat (fun i => if (Z.of_nat (nth 2 i 0%nat) <? (if (nth 0 i 0%nat =? 0)%nat then u else d))%Z then 1 / INR K else 0) in
  channel o 0 = IZR u /\ channel o 1 = IZR d /\ total o = IZR (u + d).
Proof.
  intros HK Hu Hd o. assert (HK' : INR K <> 0) by (apply not_0_INR; lia).
  assert (Hc : forall m, (0 <= m <= Z.of_nat B)%Z -> sumR (seq 0 K) (fun k => sumR (seq 0 B) (fun b => if (Z.of_nat b <? m)%Z then 1 / INR K else 0)) = IZR m).
  { intros m Hm. rewrite (sumR_ext _ _ (fun _ => IZR m * (1 / INR K))) by (intros; apply count_below, Hm).
    rewrite sumR_const, seq_length. field. exact HK'. }
  unfold o. rewrite !channel_2KB, total_2KB. cbn [nth Nat.eqb]. rewrite !Hc by assumption. rewrite plus_IZR. auto.
Qed.

Lemma within_two w K B f r : 0 <= w -> (forall i, f i = w \/ f i = 0) ->
  let o := mkT [2; K; B]%nat f in within 0 (INR (3 - num_spin r) * w) (if r then sum_spin o else o).
Proof.
  intros Hw Hf o i Hi. destruct r.
  - unfold sum_spin, o. cbn [tget num_spin Nat.sub INR]. 
    destruct (Hf (0%nat :: tl i)) as [-> | ->], (Hf (1%nat :: tl i)) as [-> | ->]; lra.
  - unfold o. cbn [tget num_spin Nat.sub INR]. destruct (Hf i) as [-> | ->]; lra.
Qed.

Lemma uniform_total K N s nb r occ : uniform K N s nb r = Ok occ ->
  let B := nb_of nb N in
  tshape occ = [num_spin r; K; B] /\
  total occ = IZR (up_count B N s + down_count B N s) /\
  within 0 (INR (3 - num_spin r) / INR K) occ /\
  (r = false -> channel occ 0 = IZR (up_count B N s) /\ channel occ 1 = IZR (down_count B N s)).
Proof.
  intros H B. apply uniform_inv in H. destruct H as (HK & H). cbv zeta in H. fold B in H.
  destruct (uniform_sums K B (up_count B N s) (down_count B N s) HK) as (H0 & H1 & H2); try (apply py_bound_range; lia).
  assert (HKp : 0 < / INR K) by (apply Rinv_0_lt_compat, lt_0_INR; lia).
  rewrite H. split; [destruct r; reflexivity|]. split; [|split].
  - destruct r; [rewrite total_sum_spin|]; exact H2.
  - unfold Rdiv. replace (INR (3 - num_spin r) * / INR K) with (INR (3 - num_spin r) * (1 / INR K)) by (unfold Rdiv; ring).
    apply within_two; [unfold Rdiv; lra|]. intros i. destruct (_ <? _)%Z; auto.
  - intros ->. auto.
Qed.

Definition fits (B : nat) (N s : Z) : Prop := ((N + Z.abs s) / 2 <= Z.of_nat B)%Z.

Lemma counts_ok B N s : (N mod 2 = s mod 2)%Z -> (Z.abs s <= N)%Z -> fits B N s ->
  (up_count B N s + down_count B N s = N /\ up_count B N s - down_count B N s = s)%Z.
Proof.
  unfold fits, up_count, down_count, py_bound. intros.
  destruct (Z.ltb_spec ((N + s) / 2) 0), (Z.ltb_spec ((N - s) / 2) 0); lia.
Qed.
Lemma counts_lost B N s : (N mod 2 = s mod 2)%Z -> (Z.abs s <= N)%Z -> ~ fits B N s ->
  (up_count B N s + down_count B N s < N)%Z.
Proof.
  unfold fits, up_count, down_count, py_bound. intros.
  destruct (Z.ltb_spec ((N + s) / 2) 0), (Z.ltb_spec ((N - s) / 2) 0); lia.
Qed.
Lemma counts_parity B N s : (N mod 2 <> s mod 2)%Z -> (Z.abs s <= N)%Z -> fits B N s ->
  (up_count B N s + down_count B N s = N - 1)%Z.
Proof.
  unfold fits, up_count, down_count, py_bound. intros.
  destruct (Z.ltb_spec ((N + s) / 2) 0), (Z.ltb_spec ((N - s) / 2) 0); lia.
Qed.
Lemma fits_default N s : (Z.abs s <= N)%Z -> fits (nb_of None N) N s.
Proof. unfold fits, nb_of. intros. lia. Qed.

Lemma uniform_ok_iff K N s nb r : (exists occ, uniform K N s nb r = Ok occ) <-> (1 <= K)%nat /\ (nb = None -> (0 <= N)%Z).
Proof.
  unfold uniform. destruct nb as [b|].
  - destruct (Nat.eqb_spec K 0) as [E|E]; split; intros H.
    + destruct H; discriminate.
    + lia.
    + split; [lia|discriminate].
    + eexists. reflexivity.
  - destruct (Z.ltb_spec N 0) as [L|L].
    + split; [intros [? ?]; discriminate|]. intros [_ Hn]. specialize (Hn eq_refl). lia.
    + destruct (Nat.eqb_spec K 0) as [E|E]; split; intros H.
      * destruct H; discriminate.
      * lia.
      * split; [lia|auto].
      * eexists. reflexivity.
Qed.

(** the statement used by C20 *)
Lemma uniform_holds K N s nb r occ : uniform K N s nb r = Ok occ ->
  (N mod 2 = s mod 2)%Z -> (Z.abs s <= N)%Z -> (forall b, nb = Some b -> ((N + Z.abs s) / 2 <= Z.of_nat b)%Z) ->
  tshape occ = [num_spin r; K; nb_of nb N] /\ total occ = IZR N /\ within 0 (INR (3 - num_spin r) / INR K) occ /\
  (r = false -> channel occ 0 - channel occ 1 = IZR s).
Proof.
  intros H Hp Hs Hb. destruct (uniform_total _ _ _ _ _ _ H) as (H1 & H2 & H3 & H4).
  assert (F : fits (nb_of nb N) N s).
  { destruct nb as [b|]; [apply Hb; reflexivity|apply fits_default, Hs]. }
  destruct (counts_ok _ _ _ Hp Hs F) as [E1 E2].
  split; [exact H1|]. split; [rewrite H2, E1; reflexivity|]. split; [exact H3|].
  intros Hr. destruct (H4 Hr) as [-> ->]. rewrite <- minus_IZR, E2. reflexivity.
Qed.
Lemma uniform_total_iff K N s b r occ : uniform K N s (Some b) r = Ok occ ->
  (N mod 2 = s mod 2)%Z -> (Z.abs s <= N)%Z -> total occ <= IZR N /\ (total occ = IZR N <-> ((N + Z.abs s) / 2 <= Z.of_nat b)%Z).
Proof.
  intros H Hp Hs. destruct (uniform_total _ _ _ _ _ _ H) as (_ & -> & _). cbn [nb_of].
  destruct (Z_le_dec ((N + Z.abs s) / 2) (Z.of_nat b)) as [F|F].
  - destruct (counts_ok b _ _ Hp Hs F) as [-> _]. split; [lra|tauto].
  - pose proof (counts_lost b _ _ Hp Hs F) as L. apply IZR_lt in L. split; [lra|]. split; [intros E; lra|tauto].
Qed.
Lemma uniform_wrong_parity K N s b r occ : uniform K N s (Some b) r = Ok occ ->
  (N mod 2 <> s mod 2)%Z -> (Z.abs s <= N)%Z -> ((N + Z.abs s) / 2 <= Z.of_nat b)%Z -> total occ = IZR (N - 1).
Proof. intros H Hp Hs F. destruct (uniform_total _ _ _ _ _ _ H) as (_ & -> & _). cbn [nb_of]. rewrite (counts_parity b _ _ Hp Hs F). reflexivity. Qed.

Lemma gamma_inv K N s nb r occ : gamma K N s nb r = Ok occ ->
  let B := nb_of nb N in
  let o := mkT [2; K; B]%nat (fun i => if (nth 1 i 0%nat =? 0)%nat && (Z.of_nat (nth 2 i 0%nat) <? (if (nth 0 i 0%nat =? 0)%nat then up_count B N s else down_count B N s))%Z then 1 else 0) in
  occ = if r then sum_spin o else o.
Proof.
  unfold gamma. intros H.
  assert (G : (match nb with Some b => Some b | None => if (N <? 0)%Z then None else Some (Z.to_nat N) end) = Some (nb_of nb N)).
  { destruct nb; [reflexivity|]. destruct (Z.ltb_spec N 0); [discriminate|reflexivity]. }
  rewrite G in H. cbv zeta. injection H as H. rewrite <- H.
  assert (E : forall f g sh, (forall i : list nat, f i = g i) -> (if r then sum_spin (mkT sh f) else mkT sh f) = (if r then sum_spin (mkT sh g) else mkT sh g)).
  { intros f g sh Hfg. assert (f = g) by (apply FunctionalExtensionality.functional_extensionality; exact Hfg). subst. reflexivity. }
  apply E. intros i. unfold up_count, down_count. destruct (nth 0 i 0 =? 0)%nat; reflexivity.
Qed.
Lemma gamma_sums K B u d : (1 <= K)%nat -> (0 <= u <= Z.of_nat B)%Z -> (0 <= d <= Z.of_nat B)%Z ->
  let o := mkT [2; K; B]%nat (fun i => if (nth 1 i 0%nat =? 0)%nat && (Z.of_nat (nth 2 i 0%nat) <? (if (nth 0 i 0%nat =? 0)%nat then u else d))%Z then 1 else 0) in
  channel o 0 = IZR u /\ channel o 1 = IZR d /\ total o = IZR (u + d).
Proof.
  intros HK Hu Hd o.
  assert (Hc : forall m, (0 <= m <= Z.of_nat B)%Z -> sumR (seq 0 K) (fun k => sumR (seq 0 B) (fun b => if (k =? 0)%nat && (Z.of_nat b <? m)%Z then 1 else 0)) = IZR m).
  { intros m Hm. destruct K as [|K]; [lia|]. cbn [seq sumR fold_right Nat.eqb andb].
    rewrite count_below by exact Hm. rewrite (sumR_zero (seq 1 K)); [ring|]. intros k Hk. apply in_seq in Hk.
    destruct k; [lia|]. cbn [Nat.eqb andb]. apply sumR_0. }
  unfold o. rewrite !channel_2KB, total_2KB. cbn [nth Nat.eqb]. rewrite !Hc by assumption. rewrite plus_IZR. auto.
Qed.
Lemma gamma_total K N s nb r occ : (1 <= K)%nat -> gamma K N s nb r = Ok occ ->
  let B := nb_of nb N in
  tshape occ = [num_spin r; K; B] /\
  total occ = IZR (up_count B N s + down_count B N s) /\
  within 0 (INR (3 - num_spin r)) occ /\
  (forall sp k b, (1 <= k)%nat -> tget occ [sp; k; b] = 0) /\
  (r = false -> channel occ 0 = IZR (up_count B N s) /\ channel occ 1 = IZR (down_count B N s)).
Proof.
  intros HK H B. apply gamma_inv in H. cbv zeta in H. fold B in H.
  destruct (gamma_sums K B (up_count B N s) (down_count B N s) HK) as (H0 & H1 & H2); try (apply py_bound_range; lia).
  rewrite H. split; [destruct r; reflexivity|]. split; [|split; [|split]].
  - destruct r; [rewrite total_sum_spin|]; exact H2.
  - rewrite <- (Rmult_1_r (INR (3 - num_spin r))).
    apply within_two; [lra|]. intros i. destruct (_ && _)%bool; auto.
  - intros sp k b Hk. destruct k; [lia|]. destruct r; unfold sum_spin; cbn; lra.
  - intros ->. auto.
Qed.
Lemma gamma_holds K N s nb r occ : (1 <= K)%nat -> gamma K N s nb r = Ok occ ->
  (N mod 2 = s mod 2)%Z -> (Z.abs s <= N)%Z -> (forall b, nb = Some b -> ((N + Z.abs s) / 2 <= Z.of_nat b)%Z) ->
  tshape occ = [num_spin r; K; nb_of nb N] /\ total occ = IZR N /\ within 0 (INR (3 - num_spin r)) occ /\
  (forall sp k b, (1 <= k)%nat -> tget occ [sp; k; b] = 0) /\
  (r = false -> channel occ 0 - channel occ 1 = IZR s).
Proof.
  intros HK H Hp Hs Hb. destruct (gamma_total _ _ _ _ _ _ HK H) as (H1 & H2 & H3 & H5 & H4).
  assert (F : fits (nb_of nb N) N s).
  { destruct nb as [b|]; [apply Hb; reflexivity|apply fits_default, Hs]. }
  destruct (counts_ok _ _ _ Hp Hs F) as [E1 E2].
  split; [exact H1|]. split; [rewrite H2, E1; reflexivity|]. split; [exact H3|]. split; [exact H5|].
  intros Hr. destruct (H4 Hr) as [-> ->]. rewrite <- minus_IZR, E2. reflexivity.
Qed.
Lemma gamma_total_iff K N s b r occ : (1 <= K)%nat -> gamma K N s (Some b) r = Ok occ ->
  (N mod 2 = s mod 2)%Z -> (Z.abs s <= N)%Z -> total occ <= IZR N /\ (total occ = IZR N <-> ((N + Z.abs s) / 2 <= Z.of_nat b)%Z).
Proof.
  intros HK H Hp Hs. destruct (gamma_total _ _ _ _ _ _ HK H) as (_ & -> & _). cbn [nb_of].
  destruct (Z_le_dec ((N + Z.abs s) / 2) (Z.of_nat b)) as [F|F].
  - destruct (counts_ok b _ _ Hp Hs F) as [-> _]. split; [lra|tauto].
  - pose proof (counts_lost b _ _ Hp Hs F) as L. apply IZR_lt in L. split; [lra|]. split; [intros E; lra|tauto].
Qed.

(** ** idempotent *)
Section QR.
Variables (M m : nat) (q : nat -> nat -> R).
Hypothesis orth : forall j l, (j < m)%nat -> (l < m)%nat -> sumR (seq 0 M) (fun i => q i j * q i l) = if Nat.eqb j l then 1 else 0.
Definition Pm (i k : nat) : R := sumR (seq 0 m) (fun j => q i j * q k j).

Lemma Pm_idem i : Pm i i = sumR (seq 0 M) (fun k => Pm i k * Pm i k).
Proof.
  unfold Pm.
  rewrite (sumR_ext (seq 0 M) (fun k => sumR (seq 0 m) (fun j => q i j * q k j) * sumR (seq 0 m) (fun j => q i j * q k j))
     (fun k => sumR (seq 0 m) (fun j => sumR (seq 0 m) (fun l => (q i j * q i l) * (q k j * q k l))))).
  - rewrite sumR_swap.
    apply sumR_ext. intros j Hj. rewrite sumR_swap.
    rewrite (sumR_ext (seq 0 m) _ (fun l => (q i j * q i l) * (if Nat.eqb j l then 1 else 0))).
    + rewrite (sumR_single (seq 0 m) j); [rewrite Nat.eqb_refl; ring|apply seq_NoDup|exact Hj|].
      intros l Hl Hne. destruct (Nat.eqb_spec j l); [congruence|ring].
    + intros l Hl. rewrite sumR_scal. f_equal. apply orth; apply in_seq in Hj, Hl; lia.
  - intros k _. rewrite <- sumR_scal_r. apply sumR_ext. intros j _. rewrite <- sumR_scal. apply sumR_ext. intros l _. ring.
Qed.
Lemma Pm_nonneg i : 0 <= Pm i i.
Proof. apply sumR_nonneg. intros j _. apply Rle_0_sqr. Qed.
Lemma Pm_le1 i : (i < M)%nat -> Pm i i <= 1.
Proof.
  intros Hi. assert (H : Pm i i * Pm i i <= Pm i i).
  { rewrite (Pm_idem i) at 3. apply (sumR_ge_term (seq 0 M) (fun k => Pm i k * Pm i k) i).
    - intros k _. apply Rle_0_sqr.
    - apply in_seq. lia. }
  pose proof (Pm_nonneg i). nra.
Qed.
Lemma Pm_trace : sumR (seq 0 M) (fun i => Pm i i) = INR m.
Proof.
  unfold Pm. rewrite sumR_swap. rewrite (sumR_ext _ _ (fun _ => 1)).
  - rewrite sumR_const, seq_length. ring.
  - intros j Hj. apply in_seq in Hj. rewrite orth by lia. rewrite Nat.eqb_refl. reflexivity.
Qed.
End QR.

Lemma occ_of_spec qr w M m : reduced_qr qr -> tshape w = [M; m] ->
  length (occ_of qr w) = M /\ (forall i, (i < M)%nat -> 0 <= nth i (occ_of qr w) 0 <= 1) /\
  sumR (seq 0 M) (fun i => nth i (occ_of qr w) 0) = INR (Nat.min M m).
Proof.
  intros Hq Hw. destruct (Hq w M m Hw) as (Hsh & Ho). unfold occ_of. rewrite Hsh. cbn [nth].
  set (q := fun i j => tget (qr w) [i; j]).
  assert (E : forall i, (i < M)%nat -> nth i (map (fun i => sumR (seq 0 (Nat.min M m)) (fun j => tget (qr w) [i; j] * tget (qr w) [i; j])) (seq 0 M)) 0 = Pm (Nat.min M m) q i i).
  { intros i Hi. rewrite nth_map_seq by exact Hi. reflexivity. }
  split; [rewrite map_length, seq_length; reflexivity|]. split.
  - intros i Hi. rewrite E by exact Hi. split; [apply Pm_nonneg|]. apply (Pm_le1 M); [exact Ho|exact Hi].
  - rewrite (sumR_ext _ _ (fun i => Pm (Nat.min M m) q i i)) by (intros i Hi; apply in_seq in Hi; apply E; lia).
    apply Pm_trace. exact Ho.
Qed.

Lemma sumR_seq_S n (f : nat -> R) : sumR (seq 0 (S n)) f = sumR (seq 0 n) f + f n.
Proof. replace (S n) with (n + 1)%nat by lia. rewrite seq_app, sumR_app. cbn [seq sumR fold_right Nat.add]. ring. Qed.
Lemma sumR_seq_add a n (f : nat -> R) : sumR (seq 0 n) (fun i => f (a + i)%nat) = sumR (seq a n) f.
Proof.
  revert a. induction n as [|n IH]; intros a; [reflexivity|]. rewrite sumR_seq_S, IH.
  replace (S n) with (n + 1)%nat by lia. rewrite seq_app, sumR_app. cbn [seq sumR fold_right]. ring.
Qed.
Lemma sumR_blocks K B (f : nat -> R) :
  sumR (seq 0 K) (fun k => sumR (seq 0 B) (fun b => f (k * B + b)%nat)) = sumR (seq 0 (K * B)) f.
Proof.
  induction K as [|K IH]; [reflexivity|]. rewrite sumR_seq_S, IH.
  replace (S K * B)%nat with (K * B + B)%nat by lia. rewrite seq_app, sumR_app. f_equal. apply sumR_seq_add.
Qed.
Lemma block_lt k b K B : (k < K)%nat -> (b < B)%nat -> (k * B + b < K * B)%nat.
Proof. intros. assert ((S k) * B <= K * B)%nat by (apply Nat.mul_le_mono_r; lia). lia. Qed.

Lemma idempotent_spec qr up down K r occ M m m' : reduced_qr qr ->
  tshape up = [M; m] -> tshape down = [M; m'] -> idempotent qr up down K r = Ok occ ->
  (exists B, M = (K * B)%nat /\ tshape occ = [num_spin r; K; B]) /\
  within 0 (INR (3 - num_spin r) / INR K) occ /\
  total occ = (INR (Nat.min M m) + INR (Nat.min M m')) / INR K /\
  (r = false -> channel occ 0 = INR (Nat.min M m) / INR K /\ channel occ 1 = INR (Nat.min M m') / INR K).
Proof.
  intros Hq Hu Hd. unfold idempotent. destruct (Nat.eqb_spec K 0) as [|HK]; [discriminate|].
  destruct (occ_of_spec qr up M m Hq Hu) as (Lu & Ru & Su).
  destruct (occ_of_spec qr down M m' Hq Hd) as (Ld & Rd & Sd).
  rewrite Hu. cbn [nth]. rewrite Lu, Ld. set (B := (M / K)%nat).
  destruct (Nat.eqb_spec M (K * B)) as [HM|]; [|discriminate]. cbn [andb]. intros H. injection H as H.
  assert (HKp : 0 < INR K) by (apply lt_0_INR; lia).
  assert (Hch : forall l, length l = M -> sumR (seq 0 K) (fun k => sumR (seq 0 B) (fun b => nth (k * B + b) l 0 / INR K)) = sumR (seq 0 M) (fun i => nth i l 0) / INR K).
  { intros l _. rewrite (sumR_blocks K B (fun i => nth i l 0 / INR K)). rewrite <- HM. unfold Rdiv. apply sumR_scal_r. }
  split; [exists B; split; [exact HM|]; rewrite <- H; destruct r; reflexivity|].
  rewrite <- H. clear H occ. destruct r; cbn [num_spin Nat.sub INR].
  - split; [|split; [|discriminate]].
    + intros i Hi. cbn [tshape] in Hi. apply inb3' in Hi. destruct Hi as (a & k & b & -> & Ha & Hk & Hb). cbn [tget nth].
      pose proof (block_lt k b K B Hk Hb) as HL. rewrite <- HM in HL.
      specialize (Ru _ HL). specialize (Rd _ HL).
      split.
      * apply Rmult_le_pos; [lra|]. apply Rlt_le, Rinv_0_lt_compat, HKp.
      * apply Rmult_le_compat_r; [apply Rlt_le, Rinv_0_lt_compat, HKp|lra].
    + rewrite total_1KB. cbn [nth].
      rewrite (sumR_ext _ _ (fun k => sumR (seq 0 B) (fun b => nth (k * B + b) (occ_of qr up) 0 / INR K) + sumR (seq 0 B) (fun b => nth (k * B + b) (occ_of qr down) 0 / INR K))).
      * rewrite sumR_plus, !Hch by assumption. rewrite Su, Sd. field. lra.
      * intros k _. rewrite <- sumR_plus. apply sumR_ext. intros b _. field. lra.
  - split; [|split].
    + intros i Hi. cbn [tshape] in Hi. apply inb3' in Hi. destruct Hi as (a & k & b & -> & Ha & Hk & Hb). cbn [tget nth].
      pose proof (block_lt k b K B Hk Hb) as HL. rewrite <- HM in HL.
      specialize (Ru _ HL). specialize (Rd _ HL).
      assert (G : 0 <= nth (k * B + b) (if (a =? 0)%nat then occ_of qr up else occ_of qr down) 0 <= 1) by (destruct (a =? 0)%nat; lra).
      split.
      * apply Rmult_le_pos; [lra|]. apply Rlt_le, Rinv_0_lt_compat, HKp.
      * apply Rmult_le_compat_r; [apply Rlt_le, Rinv_0_lt_compat, HKp|lra].
    + rewrite total_2KB. cbn [nth Nat.eqb]. rewrite !Hch by assumption. rewrite Su, Sd. field. lra.
    + intros _. rewrite !channel_2KB. cbn [nth Nat.eqb]. rewrite !Hch by assumption. rewrite Su, Sd. auto.
Qed.

Lemma idempotent_ok_iff qr up down K r M m m' : reduced_qr qr -> tshape up = [M; m] -> tshape down = [M; m'] ->
  ((exists occ, idempotent qr up down K r = Ok occ) <-> (1 <= K)%nat /\ (M mod K = 0)%nat).
Proof.
  intros Hq Hu Hd. unfold idempotent. destruct (Nat.eqb_spec K 0) as [|HK].
  - split; [intros [? ?]; discriminate|lia].
  - destruct (occ_of_spec qr up M m Hq Hu) as (Lu & _). destruct (occ_of_spec qr down M m' Hq Hd) as (Ld & _).
    rewrite Hu. cbn [nth]. rewrite Lu, Ld. pose proof (Nat.div_mod M K HK).
    destruct (Nat.eqb_spec M (K * (M / K))) as [E|E]; cbn [andb]; split.
    + intros _. split; [lia|]. lia.
    + intros _. eexists. reflexivity.
    + intros [? ?]. discriminate.
    + intros [_ E']. lia.
Qed.

(** ** idempotent with the parameters of idempotent_param_init *)
Lemma idem_init_inv rnd B N K s r p : shape_ok rnd -> (1 <= K)%nat -> idempotent_param_init rnd B N K s r = Ok p ->
  (N mod 2 = s mod 2)%Z /\ (0 <= (N + s) / 2)%Z /\ (r = false -> (0 <= (N - s) / 2)%Z) /\
  tshape (fst p) = [B * K; Z.to_nat ((N + s) / 2) * K]%nat /\
  tshape (snd p) = [B * K; Z.to_nat (if r then (N + s) / 2 else (N - s) / 2) * K]%nat.
Proof.
  intros Hr HK. unfold idempotent_param_init. destruct (check_spin_number N s) as [[]|] eqn:E; [|discriminate].
  apply check_spin_ok in E. cbn [bind].
  destruct (Z.ltb_spec ((N + s) / 2 * Z.of_nat K) 0) as [|H1]; [discriminate|].
  assert (H1' : (0 <= (N + s) / 2)%Z) by nia.
  destruct r.
  - intros H. injection H as <-. cbn [fst snd]. rewrite !Hr. repeat split; auto; discriminate.
  - destruct (Z.ltb_spec ((N - s) / 2 * Z.of_nat K) 0) as [|H2]; [discriminate|].
    intros H. injection H as <-. cbn [fst snd]. rewrite !Hr. assert (0 <= (N - s) / 2)%Z by nia. repeat split; auto.
Qed.

Lemma min_cols B K z : (0 <= z <= Z.of_nat B)%Z -> (1 <= K)%nat -> INR (Nat.min (B * K) (Z.to_nat z * K)) / INR K = IZR z.
Proof.
  intros Hz HK. rewrite Nat.min_r by (apply Nat.mul_le_mono_r; lia). rewrite mult_INR, (INR_IZR_INZ (Z.to_nat z)), Z2Nat.id by lia.
  field. apply not_0_INR. lia.
Qed.

Lemma idem_init_total rnd qr B N K s r p : shape_ok rnd -> reduced_qr qr -> (1 <= K)%nat ->
  (Z.abs s <= N)%Z -> ((N + Z.abs s) / 2 <= Z.of_nat B)%Z ->
  idempotent_param_init rnd B N K s r = Ok p ->
  exists occ, idempotent qr (fst p) (snd p) K r = Ok occ /\ tshape occ = [num_spin r; K; B] /\
    within 0 (INR (3 - num_spin r) / INR K) occ /\
    total occ = IZR (if r then N + s else N) /\ (r = false -> channel occ 0 - channel occ 1 = IZR s).
Proof.
  intros Hr Hq HK Hs HB H. destruct (idem_init_inv _ _ _ _ _ _ _ Hr HK H) as (Hp & Hu & Hd & Su & Sd).
  destruct (proj2 (idempotent_ok_iff qr _ _ K r _ _ _ Hq Su Sd)) as [occ Ho].
  { split; [exact HK|]. apply Nat.mod_mul. lia. }
  exists occ. split; [exact Ho|].
  destruct (idempotent_spec _ _ _ _ _ _ _ _ _ Hq Su Sd Ho) as ((B' & EB & Sh) & Hw & Ht & Hc).
  assert (B' = B) by nia. subst B'.
  split; [exact Sh|]. split; [exact Hw|].
  assert (Eu : INR (Nat.min (B * K) (Z.to_nat ((N + s) / 2) * K)) / INR K = IZR ((N + s) / 2)) by (apply min_cols; lia).
  split.
  - rewrite Ht, Rdiv_plus_distr, Eu. destruct r.
    + rewrite Eu, <- plus_IZR. f_equal. lia.
    + rewrite min_cols by lia. rewrite <- plus_IZR. f_equal. lia.
  - intros ->. destruct (Hc eq_refl) as [-> ->]. rewrite Eu, min_cols by lia. rewrite <- minus_IZR. f_equal. lia.
Qed.

(** ** entropy *)
Definition fdterm (eps w o : R) : R := o * ln (eps + o) + (w - o) * ln (eps + w - o).
Lemma fermi_dirac_eq occ eps S K B : tshape occ = [S; K; B] ->
  fermi_dirac occ eps = Ok (- sumR (indices (tshape occ)) (fun i => fdterm eps ((3 - INR S) / INR K) (tget occ i))).
Proof. intros H. unfold fermi_dirac. rewrite H. reflexivity. Qed.

Lemma ln_le_sub1 x : 0 < x -> ln x <= x - 1.
Proof.
  intros H. pose proof (exp_ineq1_le (ln x)) as E. rewrite exp_ln in E by exact H. lra.
Qed.
Lemma xlnx a c : 0 < a -> 0 < c -> a * ln a >= a * ln c + a - c.
Proof.
  intros Ha Hc. pose proof (ln_le_sub1 (c / a)) as L.
  assert (Hp : 0 < c / a) by (apply Rdiv_lt_0_compat; assumption). specialize (L Hp).
  unfold Rdiv in L at 1. rewrite ln_mult, ln_Rinv in L by (try apply Rinv_0_lt_compat; assumption). apply (Rmult_le_compat_l a) in L; [|lra].
  replace (a * (c / a - 1)) with (c - a) in L by (field; lra). lra.
Qed.
Lemma ln_mid a b : 0 < a -> 0 < b -> ln a + ln b <= 2 * ln ((a + b) / 2).
Proof.
  intros Ha Hb. assert (Hc : 0 < (a + b) / 2) by lra.
  assert (E1 : ln (a * b) <= ln (((a + b) / 2) * ((a + b) / 2))).
  { destruct (Req_dec (a * b) (((a + b) / 2) * ((a + b) / 2))) as [->|Hne]; [lra|].
    apply Rlt_le, ln_increasing; [apply Rmult_lt_0_compat; assumption|]. pose proof (Rle_0_sqr (a - b)). unfold Rsqr in *. nra. }
  rewrite !ln_mult in E1 by assumption. lra.
Qed.
Lemma fdterm_lower eps w o : 0 < eps -> 0 <= o <= w -> w * ln (eps + w / 2) <= fdterm eps w o.
Proof.
  intros He Ho. unfold fdterm. set (a := eps + o). set (b := eps + w - o).
  assert (Ha : 0 < a) by (unfold a; lra). assert (Hb : 0 < b) by (unfold b; lra).
  replace (eps + w / 2) with ((a + b) / 2) by (unfold a, b; field).
  set (c := (a + b) / 2). assert (Hc : 0 < c) by (unfold c; lra).
  pose proof (xlnx a c Ha Hc). pose proof (xlnx b c Hb Hc). pose proof (ln_mid a b Ha Hb) as L. fold c in L.
  assert (E1 : o * ln a + (w - o) * ln b = a * ln a + b * ln b - eps * (ln a + ln b)) by (unfold a, b; ring).
  rewrite E1. assert (Hab : a + b = 2 * c) by (unfold c; field).
  assert (E2 : w * ln c = a * ln c + b * ln c - eps * (2 * ln c)).
  { replace w with (a + b - 2 * eps) by (unfold a, b; ring). ring. }
  rewrite E2. assert (eps * (ln a + ln b) <= eps * (2 * ln c)) by (apply Rmult_le_compat_l; lra). lra.
Qed.
Lemma fdterm_half eps w : fdterm eps w (w / 2) = w * ln (eps + w / 2).
Proof. unfold fdterm. replace (eps + w - w / 2) with (eps + w / 2) by field. field. Qed.
Lemma fdterm_upper eps w o : 0 < eps -> w + eps <= 1 -> 0 <= o <= w -> fdterm eps w o <= 0.
Proof.
  intros He Hw Ho. unfold fdterm.
  assert (H1 : ln (eps + o) <= 0) by (pose proof (ln_le_sub1 (eps + o)); lra).
  assert (H2 : ln (eps + w - o) <= 0) by (pose proof (ln_le_sub1 (eps + w - o)); lra).
  assert (o * ln (eps + o) <= 0) by nra. assert ((w - o) * ln (eps + w - o) <= 0) by nra. lra.
Qed.

Lemma fd_symmetric occ occ' eps S K B : tshape occ = [S; K; B] -> tshape occ' = [S; K; B] ->
  (forall i, inb i [S; K; B] -> tget occ' i = (3 - INR S) / INR K - tget occ i) ->
  fermi_dirac occ' eps = fermi_dirac occ eps.
Proof.
  intros H1 H2 H. rewrite (fermi_dirac_eq occ' eps _ _ _ H2), (fermi_dirac_eq occ eps _ _ _ H1). rewrite H1, H2.
  f_equal. f_equal. apply sumR_ext. intros i Hi. apply in_indices in Hi. rewrite H by exact Hi. unfold fdterm.
  set (w := (3 - INR S) / INR K). replace (eps + w - (w - tget occ i)) with (eps + tget occ i) by ring.
  replace (eps + (w - tget occ i)) with (eps + w - tget occ i) by ring. ring.
Qed.
Lemma fd_bounds occ eps S K B e : tshape occ = [S; K; B] -> 0 < eps -> within 0 ((3 - INR S) / INR K) occ ->
  fermi_dirac occ eps = Ok e ->
  e <= - (INR (S * K * B) * ((3 - INR S) / INR K)) * ln (eps + (3 - INR S) / INR K / 2) /\
  ((3 - INR S) / INR K + eps <= 1 -> 0 <= e).
Proof.
  intros H He Hw. rewrite (fermi_dirac_eq occ eps _ _ _ H). intros E. injection E as <-. set (w := (3 - INR S) / INR K) in *.
  split.
  - assert (L : sumR (indices (tshape occ)) (fun _ => w * ln (eps + w / 2)) <= sumR (indices (tshape occ)) (fun i => fdterm eps w (tget occ i))).
    { apply sumR_le. intros i Hi. apply fdterm_lower; [exact He|]. apply Hw, in_indices, Hi. }
    rewrite sumR_const, length_indices, H in L. cbn [nprod] in L. replace (S * (K * (B * 1)))%nat with (S * K * B)%nat in L by lia. rewrite H. lra.
  - intros Hw1. assert (L : sumR (indices (tshape occ)) (fun i => fdterm eps w (tget occ i)) <= sumR (indices (tshape occ)) (fun _ => 0)).
    { apply sumR_le. intros i Hi. apply fdterm_upper; auto. apply Hw, in_indices, Hi. }
    rewrite sumR_0 in L. lra.
Qed.
Lemma fd_max occ eps S K B : tshape occ = [S; K; B] ->
  (forall i, inb i [S; K; B] -> tget occ i = (3 - INR S) / INR K / 2) ->
  fermi_dirac occ eps = Ok (- (INR (S * K * B) * ((3 - INR S) / INR K)) * ln (eps + (3 - INR S) / INR K / 2)).
Proof.
  intros H Hh. rewrite (fermi_dirac_eq occ eps _ _ _ H), H. f_equal.
  rewrite (sumR_ext _ _ (fun _ => (3 - INR S) / INR K * ln (eps + (3 - INR S) / INR K / 2))).
  - rewrite sumR_const, length_indices. cbn [nprod]. replace (S * (K * (B * 1)))%nat with (S * K * B)%nat by lia. ring.
  - intros i Hi. apply in_indices in Hi. rewrite Hh by exact Hi. apply fdterm_half.
Qed.
Lemma fd_documented occ eps B : tshape occ = [2; 1; B]%nat ->
  fermi_dirac occ eps = Ok (- sumR (indices [2; 1; B]%nat) (fun i => tget occ i * ln (tget occ i + eps) + (1 - tget occ i) * ln (1 - tget occ i + eps))).
Proof.
  intros H. rewrite (fermi_dirac_eq occ eps _ _ _ H), H. f_equal. f_equal. apply sumR_ext. intros i _. unfold fdterm.
  replace ((3 - INR 2) / INR 1) with 1 by (simpl; field). rewrite (Rplus_comm eps (tget occ i)).
  replace (eps + 1 - tget occ i) with (1 - tget occ i + eps) by ring. reflexivity.
Qed.
Lemma fd_negative : forall eps, 0 < eps -> exists occ e,
  uniform 1 2 0 (Some 1%nat) true = Ok occ /\ fermi_dirac occ eps = Ok e /\ e < 0.
Proof.
  intros eps He. eexists. eexists. split; [reflexivity|]. split; [reflexivity|].
  cbn. unfold Rdiv. replace (1 * / 1) with 1 by field. replace ((3 - 1) * / 1) with 2 by field.
  replace (1 + 1) with 2 by ring. replace (2 - 2) with 0 by ring.
  assert (0 < ln (eps + 2)) by (rewrite <- ln_1; apply ln_increasing; lra). lra.
Qed.

(** ** link the list vocabulary of the spec with the one used in ProjProofs *)
Lemma list_sum_lsum l : list_sum l = lsum l.
Proof. induction l as [|v l IH]; simpl; [reflexivity|]. rewrite IH. reflexivity. Qed.
Lemma sqdist_dist2 a b : sqdist a b = dist2 a b.
Proof. reflexivity. Qed.
Lemma unit_entries_iff l : unit_entries l <-> in_unit l.
Proof. unfold unit_entries, in_unit. rewrite Forall_forall. reflexivity. Qed.

Lemma proj_exact x m : unit_entries x -> 0 < m < INR (length x) ->
  length (proj x m) = length x /\ unit_entries (proj x m) /\ list_sum (proj x m) = m.
Proof.
  rewrite unit_entries_iff. intros Hx Hm. destruct (proj_spec x m Hx Hm) as [H1 H2].
  split; [apply proj_length|]. split; [apply unit_entries_iff, H1|]. rewrite list_sum_lsum. exact H2.
Qed.
Lemma proj_euclid x m q : unit_entries x -> 0 < m < INR (length x) ->
  length q = length x -> unit_entries q -> list_sum q = m ->
  sqdist x (proj x m) + sqdist q (proj x m) <= sqdist x q.
Proof. rewrite !unit_entries_iff, list_sum_lsum, !sqdist_dist2. apply proj_closest. Qed.
Lemma proj_unique x m q : unit_entries x -> 0 < m < INR (length x) ->
  length q = length x -> unit_entries q -> list_sum q = m ->
  sqdist x q <= sqdist x (proj x m) -> q = proj x m.
Proof.
  intros Hx Hm Hl Hq Hs Hle. pose proof (proj_euclid x m q Hx Hm Hl Hq Hs) as H.
  pose proof (dist2_nonneg q (proj x m)) as Hn. rewrite <- sqdist_dist2 in Hn. apply dist2_zero; [rewrite proj_length; exact Hl|]. rewrite <- sqdist_dist2. lra.
Qed.
Lemma proj_fixed x m : unit_entries x -> 0 < m < INR (length x) -> list_sum x = m -> proj x m = x.
Proof.
  intros Hx Hm Hs. symmetry. apply proj_unique; auto.
  rewrite !sqdist_dist2. assert (E : forall l, dist2 l l = 0) by (induction l as [|v l IH]; simpl; [reflexivity|rewrite IH; ring]).
  rewrite E. apply dist2_nonneg.
Qed.
Lemma proj_empty x : unit_entries x -> x <> [] -> (list_sum (proj x 0) = 0 <-> constant_list x).
Proof. rewrite unit_entries_iff, list_sum_lsum. intros Hx Hn. apply proj_zero; [exact Hx|]. destruct x; [congruence|simpl; lia]. Qed.
Lemma proj_filled x : unit_entries x -> x <> [] -> (list_sum (proj x (INR (length x))) = INR (length x) <-> constant_list x).
Proof. rewrite unit_entries_iff, list_sum_lsum. intros Hx Hn. apply proj_full; [exact Hx|]. destruct x; [congruence|simpl; lia]. Qed.

(** ** simplex_projector *)
Lemma sigmoid_range x : 0 < sigmoid x < 1.
Proof.
  unfold sigmoid. pose proof (exp_pos (- x)). split; [apply Rinv_0_lt_compat; lra|].
  rewrite <- Rinv_1 at 2. apply Rinv_lt_contravar; lra.
Qed.
Lemma sigmoid_inj x y : sigmoid x = sigmoid y -> x = y.
Proof.
  unfold sigmoid. intros H. apply (f_equal Rinv) in H. pose proof (exp_pos (- x)). pose proof (exp_pos (- y)).
  rewrite !Rinv_inv in H by lra. assert (E : exp (- x) = exp (- y)) by lra. apply exp_inv in E. lra.
Qed.
Lemma ravel_length t K B : tshape t = [K; B] -> length (ravel t) = (K * B)%nat.
Proof. intros H. unfold ravel. rewrite map_length, length_indices, H. simpl. lia. Qed.
Lemma sig_unit t : unit_entries (map sigmoid (ravel t)).
Proof. intros v Hv. apply in_map_iff in Hv. destruct Hv as (w & <- & _). pose proof (sigmoid_range w). lra. Qed.

Lemma list_sum_nth l : list_sum l = sumR (seq 0 (length l)) (fun i => nth i l 0).
Proof.
  induction l as [|v l IH]; [reflexivity|]. cbn [list_sum length]. rewrite IH.
  cbn [seq sumR fold_right nth]. f_equal.
  change (fold_right (fun x a => (fun i => match i with 0%nat => v | S m => nth m l 0 end) x + a) 0 (seq 1 (length l)))
    with (sumR (seq 1 (length l)) (fun i => nth i (v :: l) 0)).
  rewrite <- seq_shift, sumR_map. reflexivity.
Qed.

Lemma simplex_sums (pu pd : list R) K B : (1 <= K)%nat -> length pu = (K * B)%nat -> length pd = (K * B)%nat ->
  unit_entries pu -> unit_entries pd ->
  let o := mkT [2; K; B]%nat (fun i => nth (nth 1 i 0 * B + nth 2 i 0)%nat (if (nth 0 i 0 =? 0)%nat then pu else pd) 0 / INR K) in
  channel o 0 = list_sum pu / INR K /\ channel o 1 = list_sum pd / INR K /\ total o = (list_sum pu + list_sum pd) / INR K /\
  within 0 (1 / INR K) o.
Proof.
  intros HK Lu Ld Uu Ud o. assert (HKp : 0 < INR K) by (apply lt_0_INR; lia).
  assert (Hch : forall l, length l = (K * B)%nat -> sumR (seq 0 K) (fun k => sumR (seq 0 B) (fun b => nth (k * B + b) l 0 / INR K)) = list_sum l / INR K).
  { intros l Hl. rewrite (sumR_blocks K B (fun i => nth i l 0 / INR K)). rewrite list_sum_nth, Hl. unfold Rdiv. apply sumR_scal_r. }
  unfold o. rewrite !channel_2KB, total_2KB. cbn [nth Nat.eqb]. rewrite !Hch by assumption.
  split; [reflexivity|]. split; [reflexivity|]. split; [field; lra|].
  intros i Hi. cbn [tshape] in Hi. apply inb3' in Hi. destruct Hi as (a & k & b & -> & Ha & Hk & Hb). cbn [tget nth].
  pose proof (block_lt k b K B Hk Hb) as HL.
  assert (G : 0 <= nth (k * B + b) (if (a =? 0)%nat then pu else pd) 0 <= 1).
  { destruct (a =? 0)%nat; [apply Uu|apply Ud]; apply nth_In; lia. }
  split.
  - apply Rmult_le_pos; [lra|]. apply Rlt_le, Rinv_0_lt_compat, HKp.
  - apply Rmult_le_compat_r; [apply Rlt_le, Rinv_0_lt_compat, HKp|lra].
Qed.

Lemma simplex_spec up down N s r K B : (1 <= K)%nat -> tshape up = [K; B] -> tshape down = [K; B] ->
  (N mod 2 = s mod 2)%Z -> (0 < (N - Z.abs s) / 2)%Z -> ((N + Z.abs s) / 2 < Z.of_nat B)%Z ->
  exists occ, simplex_projector up down N s r = Ok occ /\
    tshape occ = [num_spin r; K; B] /\ total occ = IZR N /\ within 0 (INR (3 - num_spin r) / INR K) occ /\
    (r = false -> channel occ 0 - channel occ 1 = IZR s).
Proof.
  intros HK Hu Hd Hp Hlo Hhi. unfold simplex_projector. rewrite Hu.
  destruct (Nat.eqb_spec (K * B) 0) as [E0|_]; [exfalso; nia|].
  assert (En : nprod (tshape down) = (K * B)%nat) by (rewrite Hd; cbn [nprod fold_right]; lia). rewrite En, Nat.eqb_refl. clear En.
  assert (HKp : 0 < INR K) by (apply lt_0_INR; lia).
  assert (Hmap : forall t, tshape t = [K; B] -> length (map sigmoid (ravel t)) = (K * B)%nat).
  { intros t Ht. rewrite map_length. apply ravel_length, Ht. }
  assert (Hm : forall z t, (0 < z < Z.of_nat B)%Z -> tshape t = [K; B] -> 0 < IZR (z * Z.of_nat K) < INR (length (map sigmoid (ravel t)))).
  { intros z t Hz Ht. rewrite (Hmap t Ht), INR_IZR_INZ. split; apply IZR_lt; nia. }
  assert (Hzu : (0 < (N + s) / 2 < Z.of_nat B)%Z) by lia.
  assert (Hzd : (0 < (N - s) / 2 < Z.of_nat B)%Z) by lia.
  destruct (proj_exact _ _ (sig_unit up) (Hm _ up Hzu Hu)) as (Lu & Uu & Su).
  destruct (proj_exact _ _ (sig_unit down) (Hm _ down Hzd Hd)) as (Ld & Ud & Sd).
  rewrite (Hmap up Hu) in Lu. rewrite (Hmap down Hd) in Ld.
  set (pu := proj (map sigmoid (ravel up)) _) in *. set (pd := proj (map sigmoid (ravel down)) _) in *.
  destruct (simplex_sums pu pd K B HK Lu Ld Uu Ud) as (C0 & C1 & T & W).
  eexists. split; [reflexivity|]. rewrite Su in *. rewrite Sd in *.
  assert (Ez : forall z, IZR (z * Z.of_nat K) / INR K = IZR z).
  { intros z. rewrite mult_IZR, <- INR_IZR_INZ. field. lra. }
  rewrite Ez in C0, C1. rewrite Rdiv_plus_distr, !Ez, <- plus_IZR in T.
  destruct r.
  - split; [reflexivity|]. split; [rewrite total_sum_spin; rewrite T; f_equal; lia|]. split; [|discriminate].
    intros i Hi. cbn [sum_spin tshape tl] in Hi. apply inb3' in Hi. destruct Hi as (a & k & b & -> & Ha & Hk & Hb).
    cbn [sum_spin tget tl num_spin Nat.sub INR].
    assert (W0 := W [0%nat; k; b]). assert (W1 := W [1%nat; k; b]). cbn [tshape] in W0, W1.
    specialize (W0 ltac:(repeat constructor; lia)). specialize (W1 ltac:(repeat constructor; lia)). cbn [tget] in *.
    unfold Rdiv in *. lra.
  - split; [reflexivity|]. split; [rewrite T; f_equal; lia|]. split; [exact W|].
    intros _. rewrite C0, C1, <- minus_IZR. f_equal. lia.
Qed.

(** Full polarisation: the down channel asks for 0 electrons, which proj misses. *)
Lemma simplex_polarised_wrong : exists up down occ,
  tshape up = [1; 2]%nat /\ tshape down = [1; 2]%nat /\
  simplex_projector up down 1 1 false = Ok occ /\ channel occ 1 <> 0.
Proof.
  set (t := mkT [1; 2]%nat (fun i => INR (nth 1 i 0%nat))).
  exists t, t.
  unfold simplex_projector. cbn [tshape t nprod fold_right Nat.mul Nat.add Nat.eqb].
  eexists. split; [reflexivity|]. split; [reflexivity|]. split; [reflexivity|].
  set (x := map sigmoid (ravel t)). rewrite channel_2KB. cbn [nth Nat.eqb].
  change (IZR ((1 - 1) / 2 * Z.of_nat 1)) with (IZR 0).
  intros H. assert (E : list_sum (proj x 0) = 0).
  { rewrite list_sum_nth, proj_length. change (length x) with 2%nat.
    cbn [seq sumR fold_right Nat.mul Nat.add] in H. cbn [seq sumR fold_right]. simpl (INR 1) in H. lra. }
  apply proj_empty in E; [| apply sig_unit | discriminate].
  assert (S : sigmoid 0 = sigmoid 1).
  { apply E; unfold x, ravel, t; cbn; auto. }
  apply sigmoid_inj in S. lra.
Qed.

(** ** param_init followed by occupation *)

Lemma method_roundtrip qr rnd B N K s m r : reduced_qr qr -> shape_ok rnd -> (1 <= K)%nat -> m <> MOther ->
  (N mod 2 = s mod 2)%Z -> (0 < (N - Z.abs s) / 2)%Z -> ((N + Z.abs s) / 2 < Z.of_nat B)%Z ->
  exists p occ, occ_param_init rnd B N K s m r = Ok p /\ occupation qr p K N s m r = Ok occ /\
    tshape occ = [num_spin r; K; B] /\ total occ = IZR (match m with MIdempotent => N + s | _ => N end).
Proof.
  intros Hq Hr HK Hm Hp Hlo Hhi.
  assert (Hs : (Z.abs s <= N)%Z) by lia.
  destruct m; try congruence.
  - (* idempotent *)
    cbn [occ_param_init]. unfold idempotent_param_init.
    rewrite (proj2 (check_spin_ok N s) Hp). cbn [bind].
    destruct (Z.ltb_spec ((N + s) / 2 * Z.of_nat K) 0) as [Hneg|_]; [nia|]. cbn [bind].
    eexists. set (pu := rnd _).
    assert (Su : tshape pu = [B * K; Z.to_nat ((N + s) / 2) * K]%nat) by (apply Hr).
    destruct (proj2 (idempotent_ok_iff qr pu pu K r _ _ _ Hq Su Su)) as [occ Ho].
    { split; [exact HK|]. apply Nat.mod_mul. lia. }
    exists occ. split; [reflexivity|]. cbn [occupation fst snd]. split; [exact Ho|].
    destruct (idempotent_spec _ _ _ _ _ _ _ _ _ Hq Su Su Ho) as ((B' & EB & Sh) & _ & Ht & _).
    assert (B' = B) by nia. subst B'. split; [exact Sh|]. rewrite Ht, Rdiv_plus_distr, min_cols by lia.
    rewrite <- plus_IZR. f_equal. lia.
  - destruct (proj2 (uniform_ok_iff K N s (Some B) r)) as [occ Ho]; [split; [exact HK|discriminate]|].
    exists (PArr occ), occ. cbn [occ_param_init]. rewrite Ho. split; [reflexivity|]. split; [reflexivity|].
    destruct (uniform_holds _ _ _ _ _ _ Ho Hp Hs) as (H1 & H2 & _); [intros b Hb; injection Hb as <-; lia|].
    split; assumption.
  - assert (Ho : exists occ, gamma K N s (Some B) r = Ok occ) by (eexists; reflexivity). destruct Ho as [occ Ho].
    exists (PArr occ), occ. cbn [occ_param_init]. rewrite Ho. split; [reflexivity|]. split; [reflexivity|].
    destruct (gamma_holds _ _ _ _ _ _ HK Ho Hp Hs) as (H1 & H2 & _); [intros b Hb; injection Hb as <-; lia|].
    split; assumption.
  - destruct (simplex_spec (simplex_projector_init B K) (simplex_projector_init B K) N s r K B HK eq_refl eq_refl Hp Hlo Hhi) as (occ & Ho & H1 & H2 & _).
    eexists. exists occ. split; [reflexivity|]. split; [exact Ho|]. split; assumption.
Qed.
