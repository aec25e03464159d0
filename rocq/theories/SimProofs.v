(** Which occupations the capped-simplex projector can give (C153). *)
From Coq Require Import List Arith ZArith Reals Bool Lra Lia ZifyBool Classical.
From Verif Require Import Base Sums Tensor GridModel PadModel PadProofs OccModel OccSpec ProjProofs OccProofs OccFormProofs SimSpec DrvProofs2.
Import ListNotations.
Local Open Scope R_scope.

Definition clip (x : R) : R := Rmin (Rmax x 0) 1.
Lemma clip_mono x y : x <= y -> clip x <= clip y.
Proof. intros H. unfold clip, Rmin, Rmax. repeat destruct (Rle_dec _ _); lra. Qed.
Lemma clip_in x : 0 <= x <= 1 -> clip x = x.
Proof. intros H. unfold clip, Rmin, Rmax. repeat destruct (Rle_dec _ _); lra. Qed.
Lemma clip_hi x : 1 <= x -> clip x = 1.
Proof. intros H. unfold clip, Rmin, Rmax. repeat destruct (Rle_dec _ _); lra. Qed.
Lemma clip_lo x : x <= 0 -> clip x = 0.
Proof. intros H. unfold clip, Rmin, Rmax. repeat destruct (Rle_dec _ _); lra. Qed.
Lemma clip_0 x : clip x = 0 -> x <= 0.
Proof. unfold clip, Rmin, Rmax. repeat destruct (Rle_dec _ _); lra. Qed.
Lemma clip_1 x : clip x = 1 -> 1 <= x.
Proof. unfold clip, Rmin, Rmax. repeat destruct (Rle_dec _ _); lra. Qed.
Lemma clip_range x : 0 <= clip x <= 1.
Proof. unfold clip, Rmin, Rmax. repeat destruct (Rle_dec _ _); lra. Qed.
Lemma sig_open x : 0 < sigmoid x < 1.
Proof.
  unfold sigmoid. pose proof (exp_pos (- x)). split; [apply Rinv_0_lt_compat; lra|]. rewrite <- Rinv_1. apply Rinv_lt_contravar; lra.
Qed.
Definition logit (y : R) : R := - ln (/ y - 1).
Lemma sig_logit y : 0 < y < 1 -> sigmoid (logit y) = y.
Proof.
  intros H. assert (H1 : 1 < / y) by (rewrite <- Rinv_1 at 1; apply Rinv_lt_contravar; lra). unfold sigmoid, logit. rewrite Ropp_involutive, exp_ln by lra.
  replace (1 + (/ y - 1)) with (/ y) by ring. apply Rinv_inv.
Qed.

Lemma pos_bound {X} (l : list X) (f : X -> R) : (forall a, In a l -> 0 < f a) -> exists d, 0 < d <= 1 /\ forall a, In a l -> d <= f a.
Proof.
  induction l as [|a l IH]; intros H; [exists 1; split; [lra|intros ? []]|]. destruct IH as (d & Hd & IH); [intros b Hb; apply H; right; exact Hb|].
  exists (Rmin d (f a)). pose proof (H a (or_introl eq_refl)). pose proof (Rmin_l d (f a)). pose proof (Rmin_r d (f a)). split; [split; [apply Rmin_pos; lra|lra]|].
  intros b [<-|Hb]; [lra|]. specialize (IH b Hb). lra.
Qed.
(** One spin channel: any values between 0 and 1, not both of them among the values. *)
Lemma clip_reach {X} (l : list X) (f : X -> R) : (forall a, In a l -> 0 <= f a <= 1) -> (forall a b, In a l -> In b l -> f a = 0 -> f b <> 1) ->
  exists lam (t : X -> R), forall a, In a l -> clip (sigmoid (t a) + lam) = f a.
Proof.
  intros Hf Hn. destruct (classic (exists a, In a l /\ f a = 0)) as [(a0 & Ha0 & E0)|Hz].
  - assert (H1 : forall a, In a l -> 0 < 1 - f a) by (intros a Ha; pose proof (Hn a0 a Ha0 Ha E0); pose proof (Hf a Ha); lra).
    destruct (pos_bound l (fun a => 1 - f a) H1) as (d & Hd & Hb). exists (- (d / 2)), (fun a => logit (if Rlt_dec 0 (f a) then f a + d / 2 else d / 4)).
    intros a Ha. specialize (Hb a Ha). specialize (Hf a Ha). destruct (Rlt_dec 0 (f a)); rewrite sig_logit by lra.
    + replace (f a + d / 2 + - (d / 2)) with (f a) by ring. apply clip_in, Hf.
    + rewrite clip_lo; lra.
  - assert (H1 : forall a, In a l -> 0 < f a) by (intros a Ha; destruct (Hf a Ha); destruct (Req_dec (f a) 0) as [E|E]; [exfalso; apply Hz; exists a; split; assumption|lra]).
    destruct (pos_bound l f H1) as (d & Hd & Hb). exists (d / 2), (fun a => logit (if Rlt_dec (f a) 1 then f a - d / 2 else 1 - d / 4)).
    intros a Ha. specialize (Hb a Ha). specialize (Hf a Ha). destruct (Rlt_dec (f a) 1); rewrite sig_logit by lra.
    + replace (f a - d / 2 + d / 2) with (f a) by ring. apply clip_in, Hf.
    + rewrite clip_hi; lra.
Qed.
Lemma sum_le_eq {X} (l : list X) (f g : X -> R) : (forall a, In a l -> f a <= g a) -> sumR l f = sumR l g -> forall a, In a l -> f a = g a.
Proof.
  induction l as [|x l IH]; intros Hle Hs a Ha; [destruct Ha|]. cbn [sumR] in Hs. pose proof (Hle x (or_introl eq_refl)).
  assert (sumR l f <= sumR l g) by (apply sumR_le; intros b Hb; apply Hle; right; exact Hb).
  destruct Ha as [<-|Ha]; [lra|]. apply IH; [intros b Hb; apply Hle; right; exact Hb|lra|exact Ha].
Qed.
(** The shift is fixed by the sum. *)
Lemma clip_shift {X} (l : list X) (y : X -> R) lam mu : sumR l (fun a => clip (y a + lam)) = sumR l (fun a => clip (y a + mu)) -> forall a, In a l -> clip (y a + lam) = clip (y a + mu).
Proof.
  intros H a Ha. destruct (Rle_dec lam mu) as [L|L].
  - apply (sum_le_eq l (fun a => clip (y a + lam)) (fun a => clip (y a + mu))); [intros b _; apply clip_mono; lra|exact H|exact Ha].
  - symmetry. apply (sum_le_eq l (fun a => clip (y a + mu)) (fun a => clip (y a + lam))); [intros b _; apply clip_mono; lra|symmetry; exact H|exact Ha].
Qed.

Lemma inb2 i K B : inb i [K; B] -> exists k b, i = [k; b] /\ (k < K)%nat /\ (b < B)%nat.
Proof.
  intros H. inversion H as [|a n x ns Ha H2]; subst. inversion H2 as [|a' n' x' ns' Ha' H3]; subst. inversion H3; subst. exists a, a'. repeat split; assumption.
Qed.
Lemma inb3s i c K B : inb i [c; K; B] -> exists s k b, i = [s; k; b] /\ (s < c)%nat /\ (k < K)%nat /\ (b < B)%nat.
Proof.
  intros H. inversion H as [|a n x ns Ha H2]; subst. destruct (inb2 _ _ _ H2) as (k & b & -> & Hk & Hb). exists a, k, b. repeat split; assumption.
Qed.

Section Sim.
  Context (N s : Z) (K B : nat).
  Hypothesis HK : (1 <= K)%nat.
  Hypothesis Hlo : (0 < (N - Z.abs s) / 2)%Z.
  Hypothesis Hhi : ((N + Z.abs s) / 2 < Z.of_nat B)%Z.
  Let HKp : 0 < INR K.
  Proof. apply lt_0_INR. lia. Qed.

  Lemma div_K x y : x / INR K = y / INR K -> x = y.
  Proof. intros H. apply (Rmult_eq_reg_r (/ INR K)); [exact H|]. apply Rinv_neq_0_compat. lra. Qed.

  (** What the projector gives. *)
  Lemma projector_value up down r : tshape up = [K; B] -> tshape down = [K; B] -> exists occ lu ld, simplex_projector up down N s r = Ok occ /\ tshape occ = [num_spin r; K; B] /\
    forall k b, (k < K)%nat -> (b < B)%nat -> if r then tget occ [0; k; b]%nat = (clip (sigmoid (tget up [k; b]) + lu) + clip (sigmoid (tget down [k; b]) + ld)) / INR K
      else tget occ [0; k; b]%nat = clip (sigmoid (tget up [k; b]) + lu) / INR K /\ tget occ [1; k; b]%nat = clip (sigmoid (tget down [k; b]) + ld) / INR K.
  Proof.
    intros Su Sd. destruct (simplex_formula up down N s K B HK Su Sd Hlo Hhi) as (occ & occ1 & lu & ld & E & E1 & _ & _ & V).
    assert (Sh : forall r o, simplex_projector up down N s r = Ok o -> tshape o = [num_spin r; K; B]).
    { intros r' o. unfold simplex_projector. rewrite Su. destruct (_ =? 0)%nat; [discriminate|]. destruct (_ =? _)%nat; [|discriminate]. intros H. injection H as <-. destruct r'; reflexivity. }
    destruct r; [exists occ1|exists occ]; exists lu, ld; (split; [assumption|]); (split; [apply Sh; assumption|]); intros k b Hk Hb; destruct (V k b Hk Hb) as (V0 & V1 & V2).
    - rewrite V2, V0, V1. unfold clip, sigmoid. field. lra.
    - split; assumption.
  Qed.

  (** No channel has both an empty and a full state. *)
  Lemma projector_never_both up down r occ : tshape up = [K; B] -> tshape down = [K; B] -> simplex_projector up down N s r = Ok occ -> never_both K B (INR (3 - num_spin r) / INR K) occ.
  Proof.
    intros Su Sd E. destruct (projector_value up down r Su Sd) as (o & lu & ld & E' & So & V). rewrite E in E'. injection E' as <-.
    intros c k b k' b' Hc Hk Hb Hk' Hb' E0 E1. rewrite So in Hc. cbn [hd] in Hc. pose proof (V k b Hk Hb) as V0. pose proof (V k' b' Hk' Hb') as V1. clear V.
    assert (Ch : forall t l, clip (sigmoid (tget t [k; b]) + l) = 0 -> clip (sigmoid (tget t [k'; b']) + l) <> 1).
    { intros t l A0 A1. apply clip_0 in A0. apply clip_1 in A1. pose proof (sig_open (tget t [k; b])). pose proof (sig_open (tget t [k'; b'])). lra. }
    assert (Z0 : 0 = 0 / INR K) by (field; lra).
    destruct r; cbn [num_spin] in *.
    - assert (c = 0)%nat by lia. subst c. rewrite V0 in E0. rewrite V1 in E1. rewrite Z0 in E0. apply div_K in E0. apply div_K in E1.
      pose proof (clip_range (sigmoid (tget up [k; b]) + lu)). pose proof (clip_range (sigmoid (tget down [k; b]) + ld)). pose proof (clip_range (sigmoid (tget up [k'; b']) + lu)). pose proof (clip_range (sigmoid (tget down [k'; b']) + ld)).
      simpl in E1. apply (Ch up lu); lra.
    - destruct V0 as (V00 & V01). destruct V1 as (V10 & V11). rewrite Z0 in E0. simpl in E1. destruct c as [|[|c]]; [| |lia].
      + rewrite V00 in E0. rewrite V10 in E1. apply div_K in E0. apply div_K in E1. exact (Ch up lu E0 E1).
      + rewrite V01 in E0. rewrite V11 in E1. apply div_K in E0. apply div_K in E1. exact (Ch down ld E0 E1).
  Qed.

  (** Any occupations of the two channels without that can be had. *)
  Lemma projector_reach o : (N mod 2 = s mod 2)%Z -> capped false K B N s o -> never_both K B (1 / INR K) o ->
    exists up down occ, tshape up = [K; B] /\ tshape down = [K; B] /\ simplex_projector up down N s false = Ok occ /\ teq occ o.
  Proof.
    intros Hpar (So & Hw & Ht & Hs) Hn. specialize (Hs eq_refl). cbn [num_spin] in So, Hw. simpl (INR (3 - 2)) in Hw.
    assert (Rg : forall c, (c < 2)%nat -> forall i, In i (indices [K; B]) -> 0 <= INR K * tget o (c :: i) <= 1).
    { intros c Hc i Hi. apply in_indices in Hi. specialize (Hw (c :: i)). rewrite So in Hw. specialize (Hw (Forall2_cons _ _ Hc Hi)). split; [apply Rmult_le_pos; lra|].
      apply (Rmult_le_reg_r (/ INR K)); [apply Rinv_0_lt_compat; lra|]. rewrite Rmult_1_l. replace (INR K * tget o (c :: i) * / INR K) with (tget o (c :: i)) by (field; lra). lra. }
    assert (Nb : forall c, (c < 2)%nat -> forall a b, In a (indices [K; B]) -> In b (indices [K; B]) -> INR K * tget o (c :: a) = 0 -> INR K * tget o (c :: b) <> 1).
    { intros c Hc a b Ha Hb E0 E1. apply in_indices in Ha, Hb. destruct (inb2 _ _ _ Ha) as (k & j & -> & Hk & Hj). destruct (inb2 _ _ _ Hb) as (k' & j' & -> & Hk' & Hj').
      apply (Hn c k j k' j'); try assumption; [rewrite So; exact Hc| |].
      - apply Rmult_integral in E0. destruct E0; [lra|assumption].
      - apply (Rmult_eq_reg_l (INR K)); [|lra]. rewrite E1. field. lra. }
    destruct (clip_reach (indices [K; B]) (fun i => INR K * tget o (0%nat :: i)) (Rg 0%nat ltac:(lia)) (Nb 0%nat ltac:(lia))) as (l0 & t0 & H0).
    destruct (clip_reach (indices [K; B]) (fun i => INR K * tget o (1%nat :: i)) (Rg 1%nat ltac:(lia)) (Nb 1%nat ltac:(lia))) as (l1 & t1 & H1).
    set (up := mkT [K; B] t0). set (down := mkT [K; B] t1).
    destruct (simplex_formula up down N s K B HK eq_refl eq_refl Hlo Hhi) as (occ & occ1 & lu & ld & E & _ & C0 & C1 & V).
    assert (Socc : tshape occ = [2; K; B]%nat) by (destruct (projector_value up down false eq_refl eq_refl) as (o' & lu' & ld' & E' & So' & _); rewrite E in E'; injection E' as <-; exact So').
    assert (TC : total o = channel o 0 + channel o 1).
    { rewrite (total_channels o 2 [K; B] So). cbn [seq sumR]. ring. }
    assert (EN : (N = (N + s) / 2 + (N - s) / 2 /\ s = (N + s) / 2 - (N - s) / 2)%Z).
    { pose proof (Z.div_mod (N + s) 2 ltac:(lia)). pose proof (Z.div_mod (N - s) 2 ltac:(lia)). assert ((N + s) mod 2 = 0)%Z by (rewrite Z.add_mod, Hpar, <- Z.add_mod by lia; replace (s + s)%Z with (s * 2)%Z by lia; apply Z.mod_mul; lia).
      assert ((N - s) mod 2 = 0)%Z by (rewrite Zminus_mod, Hpar, <- Zminus_mod, Z.sub_diag; reflexivity). lia. }
    destruct EN as (EN & Es). assert (O0 : channel o 0 = IZR ((N + s) / 2)) by (rewrite TC in Ht; apply (f_equal IZR) in EN, Es; rewrite plus_IZR in EN; rewrite minus_IZR in Es; lra).
    assert (O1 : channel o 1 = IZR ((N - s) / 2)) by (rewrite TC in Ht; apply (f_equal IZR) in EN, Es; rewrite plus_IZR in EN; rewrite minus_IZR in Es; lra).
    exists up, down, occ. split; [reflexivity|]. split; [reflexivity|]. split; [exact E|].
    assert (Fit : forall c l l' (t : list nat -> R), (c < 2)%nat -> channel occ c = channel o c -> (forall i, In i (indices [K; B]) -> clip (sigmoid (t i) + l) = INR K * tget o (c :: i)) ->
      (forall i, In i (indices [K; B]) -> tget occ (c :: i) = clip (sigmoid (t i) + l') / INR K) -> forall i, In i (indices [K; B]) -> tget occ (c :: i) = tget o (c :: i)).
    { intros c l l' t Hc Ec Hl Hl' i Hi. unfold channel in Ec. rewrite Socc, So in Ec. cbn [tl] in Ec.
      assert (Q : sumR (indices [K; B]) (fun a => clip (sigmoid (t a) + l')) = sumR (indices [K; B]) (fun a => clip (sigmoid (t a) + l))).
      { rewrite (sumR_ext _ _ (fun a => INR K * tget occ (c :: a))) by (intros a Ha; rewrite (Hl' a Ha); field; lra). rewrite (sumR_ext _ (fun a => clip (sigmoid (t a) + l)) (fun a => INR K * tget o (c :: a))) by (intros a Ha; apply Hl, Ha).
        rewrite !sumR_scal, Ec. reflexivity. }
      pose proof (clip_shift _ (fun a => sigmoid (t a)) l' l Q i Hi) as X. cbv beta in X. rewrite (Hl' i Hi), X, (Hl i Hi). field. lra. }
    split; [congruence|]. intros i Hi. rewrite Socc in Hi. destruct (inb3s _ _ _ _ Hi) as (c & k & b & -> & Hc & Hk & Hb).
    assert (Hkb : In [k; b] (indices [K; B])) by (apply in_indices; repeat constructor; assumption).
    destruct c as [|[|c]]; [| |lia].
    - apply (Fit 0%nat l0 lu t0); [lia|congruence|exact H0| |exact Hkb]. intros j Hj. apply in_indices in Hj. destruct (inb2 _ _ _ Hj) as (k1 & b1 & -> & Hk1 & Hb1). apply (V k1 b1 Hk1 Hb1).
    - apply (Fit 1%nat l1 ld t1); [lia|congruence|exact H1| |exact Hkb]. intros j Hj. apply in_indices in Hj. destruct (inb2 _ _ _ Hj) as (k1 & b1 & -> & Hk1 & Hb1). apply (V k1 b1 Hk1 Hb1).
  Qed.
End Sim.

Lemma teq_sym' {A} (x y : tensor A) : teq x y -> teq y x.
Proof. intros (H1 & H2). split; [congruence|]. intros i Hi. symmetry. apply H2. rewrite H1. exact Hi. Qed.
Lemma never_both_ext K B w sp o o' : tshape o = [sp; K; B] -> teq o o' -> never_both K B w o -> never_both K B w o'.
Proof.
  intros So (T1 & T2) H c k b k' b' Hc Hk Hb Hk' Hb'. rewrite <- T1 in Hc. assert (Hc' := Hc). rewrite So in Hc'. cbn [hd] in Hc'.
  rewrite <- !T2 by (rewrite So; repeat constructor; assumption). apply H; assumption.
Qed.
Lemma capped_ext r K B N s o o' : teq o o' -> capped r K B N s o -> capped r K B N s o'.
Proof.
  intros (T1 & T2) (So & Hw & Ht & Hs). split; [congruence|]. split; [|split].
  - intros i Hi. rewrite <- T1 in Hi. rewrite <- T2 by exact Hi. apply Hw, Hi.
  - rewrite <- Ht. unfold total. rewrite <- T1. apply sumR_ext. intros i Hi. symmetry. apply T2. apply in_indices, Hi.
  - intros Hr. rewrite <- (Hs Hr). unfold channel. rewrite <- T1, So. subst r. cbn [tl num_spin]. apply (f_equal2 Rminus); apply sumR_ext; intros i Hi; symmetry; apply T2; rewrite So; apply in_indices in Hi; constructor; try exact Hi; cbn; lia.
Qed.

(** Exactly these occupations are given by some parameters. *)
Lemma projector_iff N s K B r o : (1 <= K)%nat -> (N mod 2 = s mod 2)%Z -> (0 < (N - Z.abs s) / 2)%Z -> ((N + Z.abs s) / 2 < Z.of_nat B)%Z -> (r = true -> s = 0%Z) ->
  (exists up down occ, tshape up = [K; B] /\ tshape down = [K; B] /\ simplex_projector up down N s r = Ok occ /\ teq occ o) <-> capped r K B N s o /\ never_both K B (INR (3 - num_spin r) / INR K) o.
Proof.
  intros HK Hpar Hlo Hhi Hr0. assert (HKp : 0 < INR K) by (apply lt_0_INR; lia). split.
  - intros (up & down & occ & Su & Sd & E & T). destruct (simplex_spec up down N s r K B HK Su Sd Hpar Hlo Hhi) as (occ' & E' & So & Ht & Hw & Hs). rewrite E in E'. injection E' as <-.
    split; [apply (capped_ext r K B N s occ o T); repeat (split; [assumption|]); assumption|]. apply (never_both_ext K B _ _ occ o So T). apply (projector_never_both N s K B HK Hlo Hhi up down r occ Su Sd E).
  - intros (Hc & Hn). destruct r.
    + specialize (Hr0 eq_refl). subst s. destruct Hc as (So & Hw & Ht & _). cbn [num_spin] in So, Hw, Hn. simpl (INR (3 - 1)) in Hw, Hn. replace (1 + 1) with 2 in Hw, Hn by ring.
      set (h := mkT [2; K; B]%nat (fun i => tget o (0%nat :: tl i) / 2)).
      assert (Th : channel h 0 = IZR N / 2 /\ channel h 1 = IZR N / 2).
      { rewrite <- Ht, (total_channels o 1 [K; B] So). cbn [seq sumR]. unfold channel. rewrite So. cbn [h tshape tl tget]. rewrite Rplus_0_r. unfold Rdiv. rewrite sumR_scal_r. split; reflexivity. }
      destruct (projector_reach N 0 K B HK Hlo Hhi h Hpar) as (up & down & occ & Su & Sd & E & T1 & T2).
      * split; [reflexivity|]. split; [|split; [|intros _; rewrite (proj1 Th), (proj2 Th); simpl; ring]].
        -- intros i Hi. cbn [h tshape num_spin] in Hi. destruct (inb3s _ _ _ _ Hi) as (c & k & b & -> & Hc & Hk & Hb). cbn [h tget tl num_spin]. simpl (INR (3 - 2)).
           assert (P : 0 <= tget o [0%nat; k; b] <= 2 / INR K) by (apply Hw; rewrite So; repeat constructor; lia). split; [lra|]. replace (1 / INR K) with (2 / INR K / 2) by (field; lra). lra.
        -- rewrite (total_channels h 2 [K; B] eq_refl). cbn [seq sumR]. rewrite (proj1 Th), (proj2 Th). lra.
      * intros c k b k' b' Hc Hk Hb Hk' Hb'. cbn [h tget tl]. intros E0 E1. apply (Hn 0%nat k b k' b'); try assumption; [rewrite So; cbn; lia|lra|]. replace (2 / INR K) with (2 * (1 / INR K)) by (field; lra). lra.
      * destruct (simplex_formula up down N 0 K B HK Su Sd Hlo Hhi) as (occ' & occ1 & lu & ld & E' & E1 & _ & _ & V). rewrite E in E'. injection E' as <-. exists up, down, occ1. split; [exact Su|]. split; [exact Sd|]. split; [exact E1|].
        assert (S1 : tshape occ1 = [1; K; B]%nat) by (destruct (projector_value N 0 K B HK Hlo Hhi up down true Su Sd) as (o' & lu' & ld' & E2 & So' & _); rewrite E1 in E2; injection E2 as <-; exact So').
        split; [congruence|]. intros i Hi. rewrite S1 in Hi. destruct (inb3s _ _ _ _ Hi) as (c & k & b & -> & Hc & Hk & Hb). assert (c = 0)%nat by lia. subst c.
        rewrite (proj2 (proj2 (V k b Hk Hb))), !T2 by (rewrite T1; cbn [h tshape]; repeat constructor; lia). cbn [h tget tl]. lra.
    + apply (projector_reach N s K B HK Hlo Hhi o Hpar Hc). exact Hn.
Qed.

(** Every occupation of the capped simplex is a limit of such ones. *)
Lemma capped_dense N s K B r o : (1 <= K)%nat -> (N mod 2 = s mod 2)%Z -> (0 < (N - Z.abs s) / 2)%Z -> ((N + Z.abs s) / 2 < Z.of_nat B)%Z -> capped r K B N s o ->
  forall d, 0 < d -> exists o', capped r K B N s o' /\ never_both K B (INR (3 - num_spin r) / INR K) o' /\ forall i, inb i [num_spin r; K; B] -> Rabs (tget o' i - tget o i) < d.
Proof.
  intros HK Hpar Hlo Hhi (So & Hw & Ht & Hs) d Hd. assert (HKp : 0 < INR K) by (apply lt_0_INR; lia). assert (HB : (0 < B)%nat) by (assert (0 <= Z.abs s)%Z by lia; assert ((N - Z.abs s) / 2 <= (N + Z.abs s) / 2)%Z by (apply Z.div_le_mono; lia); lia). assert (HBp : 0 < INR B) by (apply lt_0_INR; lia).
  set (w := INR (3 - num_spin r) / INR K) in *. set (m := fun c : nat => channel o c / INR (K * B)).
  assert (HKB : 0 < INR (K * B)) by (rewrite mult_INR; apply Rmult_lt_0_compat; assumption).
  assert (EN : (N = (N + s) / 2 + (N - s) / 2 /\ s = (N + s) / 2 - (N - s) / 2)%Z).
  { pose proof (Z.div_mod (N + s) 2 ltac:(lia)). pose proof (Z.div_mod (N - s) 2 ltac:(lia)). assert ((N + s) mod 2 = 0)%Z by (rewrite Z.add_mod, Hpar, <- Z.add_mod by lia; replace (s + s)%Z with (s * 2)%Z by lia; apply Z.mod_mul; lia).
    assert ((N - s) mod 2 = 0)%Z by (rewrite Zminus_mod, Hpar, <- Zminus_mod, Z.sub_diag; reflexivity). lia. }
  assert (Hzu : (0 < (N + s) / 2 < Z.of_nat B)%Z) by lia. assert (Hzd : (0 < (N - s) / 2 < Z.of_nat B)%Z) by lia.
  assert (Cb : forall c, (c < num_spin r)%nat -> 0 < channel o c < INR (3 - num_spin r) * INR B).
  { rewrite INR_IZR_INZ with (n := B). destruct EN as (EN & Es). apply (f_equal IZR) in EN, Es. rewrite plus_IZR in EN. rewrite minus_IZR in Es. destruct Hzu as (U1 & U2). destruct Hzd as (D1 & D2). apply IZR_lt in U1, U2, D1, D2.
    destruct r; cbn [num_spin] in *; intros c Hc.
    - assert (c = 0)%nat by lia. subst c. rewrite (total_channels o 1 [K; B] So) in Ht. cbn [seq sumR] in Ht. simpl (INR (3 - 1)). lra.
    - rewrite (total_channels o 2 [K; B] So) in Ht. cbn [seq sumR] in Ht. specialize (Hs eq_refl). simpl (INR (3 - 2)). destruct c as [|[|c]]; [| |lia]; lra. }
  assert (Mb : forall c, (c < num_spin r)%nat -> 0 < m c < w).
  { intros c Hc. destruct (Cb c Hc) as (C1 & C2). unfold m, w. rewrite mult_INR. split; [apply Rdiv_lt_0_compat; [lra|apply Rmult_lt_0_compat; assumption]|].
    apply (Rmult_lt_reg_r (INR K * INR B)); [apply Rmult_lt_0_compat; assumption|]. replace (channel o c / (INR K * INR B) * (INR K * INR B)) with (channel o c) by (field; lra). replace (INR (3 - num_spin r) / INR K * (INR K * INR B)) with (INR (3 - num_spin r) * INR B) by (field; lra). exact C2. }
  assert (Hwb : 0 < w) by (specialize (Mb 0%nat ltac:(destruct r; cbn; lia)); lra).
  set (t := Rmin 1 (d / (2 * w))). assert (Ht0 : 0 < t <= 1 /\ t * w <= d / 2).
  { unfold t. pose proof (Rmin_l 1 (d / (2 * w))). pose proof (Rmin_r 1 (d / (2 * w))). assert (0 < d / (2 * w)) by (apply Rdiv_lt_0_compat; lra). split; [split; [apply Rmin_pos; lra|lra]|]. apply (Rle_trans _ (d / (2 * w) * w)); [apply Rmult_le_compat_r; lra|]. right. field. lra. }
  set (o' := mkT (tshape o) (fun i => (1 - t) * tget o i + t * m (hd 0%nat i))).
  assert (Ch : forall c, (c < num_spin r)%nat -> channel o' c = channel o c).
  { intros c Hc. unfold channel. cbn [o' tshape tget hd]. rewrite So. cbn [tl]. rewrite sumR_plus, sumR_scal, sumR_const, length_indices. unfold m, channel. rewrite So. cbn [tl]. cbn [nprod fold_right]. rewrite Nat.mul_1_r. field. lra. }
  assert (In' : forall i, inb i [num_spin r; K; B] -> 0 < tget o' i < w /\ Rabs (tget o' i - tget o i) < d).
  { intros i Hi. destruct (inb3s _ _ _ _ Hi) as (c & k & b & -> & Hc & Hk & Hb). cbn [o' tget hd]. specialize (Mb c Hc). assert (P : 0 <= tget o [c; k; b] <= w) by (apply Hw; rewrite So; exact Hi). set (x := tget o [c; k; b]) in *. set (y := m c) in *.
    split; [split; nra|]. replace ((1 - t) * x + t * y - x) with (t * (y - x)) by ring. apply (Rle_lt_trans _ (t * w)); [|lra]. rewrite Rabs_mult, (Rabs_pos_eq t) by lra. apply Rmult_le_compat_l; [lra|]. apply Rabs_le. lra. }
  exists o'. split; [|split; [|intros i Hi; apply In', Hi]].
  - split; [exact So|]. split; [intros i Hi; cbn [o' tshape] in Hi; rewrite So in Hi; destruct (In' i Hi) as (P & _); fold w; lra|]. split.
    + rewrite <- Ht. rewrite (total_channels o' (num_spin r) [K; B] So), (total_channels o (num_spin r) [K; B] So). apply sumR_ext. intros c Hc. apply in_seq in Hc. apply Ch. lia.
    + intros Hr. subst r. rewrite !Ch by (cbn; lia). apply Hs. reflexivity.
  - intros c k b k' b' Hc Hk Hb Hk' Hb' E0. exfalso. cbn [o' tshape] in Hc. rewrite So in Hc. cbn [hd] in Hc. destruct (In' [c; k; b]) as (P & _); [repeat constructor; assumption|]. lra.
Qed.
