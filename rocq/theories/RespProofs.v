(** The total energy depends on the orbitals through the density and the kinetic energy;
    gauge and translation invariance. *)
From Coq Require Import List Arith ZArith Reals Bool Lra Lia ZifyBool Permutation String.
From Coquelicot Require Import Complex.
From Verif Require Import Base Sums Tensor DFT GridModel GridProofs PadModel PadProofs Lin3 VecModel VecProofs OccModel OccSpec OccProofs PwModel PwSpec PwProofs BraketModel BraketSpec BraketProofs EnergyModel EnergySpec EnergyProofs ExtProofs TotalProofs.
From Coq Require Import List.
Import ListNotations.
Local Open Scope C_scope.

Lemma rteq_refl {X} (a : res (tensor X)) : rteq a a.
Proof. destruct a; cbn; [apply teq_refl|reflexivity]. Qed.
Lemma teq_sym {X} (a b : tensor X) : teq a b -> teq b a.
Proof. intros [H1 H2]. split; [congruence|]. intros i Hi. symmetry. apply H2. congruence. Qed.
Lemma teq_trans {X} (a b c : tensor X) : teq a b -> teq b c -> teq a c.
Proof. intros [H1 H2] [H3 H4]. split; [congruence|]. intros i Hi. rewrite H2 by exact Hi. apply H4. congruence. Qed.
Lemma tmap_teq {X Y} (f : X -> Y) a b : teq a b -> teq (tmap f a) (tmap f b).
Proof. intros [H1 H2]. split; [exact H1|]. intros i Hi. cbn in *. rewrite H2 by exact Hi. reflexivity. Qed.

Lemma bshape_rev_clip a b s r : (bshape_rev a b = Some s \/ bshape_rev b a = Some s) -> inb r s -> inb (clip1 a (firstn (length a) r)) a.
Proof.
  revert b s r. induction a as [|x a IH]; intros b s r H Hr; [constructor|].
  destruct b as [|y b].
  - assert (s = x :: a) by (destruct H as [H|H]; cbn in H; congruence). subst s.
    inversion Hr as [|k n i sh Hk Hi]; subst. cbn [length firstn clip1]. constructor.
    + destruct (Nat.eqb_spec x 1); lia.
    + rewrite firstn_all2 by (rewrite (inb_length _ _ Hi); lia). rewrite clip1_inb by exact Hi. exact Hi.
  - assert (E : exists s', (bshape_rev a b = Some s' \/ bshape_rev b a = Some s') /\ exists m, s = m :: s' /\ (x = 1 \/ m = x)%nat).
    { cbn [bshape_rev] in H. destruct H as [H|H].
      - destruct (bshape_rev a b) as [s'|]; [|discriminate]. exists s'. split; [auto|].
        destruct (Nat.eqb_spec x y); [injection H as <-; eauto|]. destruct (Nat.eqb_spec x 1); [injection H as <-; eauto|]. destruct (Nat.eqb_spec y 1); [injection H as <-; eauto|discriminate].
      - destruct (bshape_rev b a) as [s'|]; [|discriminate]. exists s'. split; [auto|].
        destruct (Nat.eqb_spec y x); [injection H as <-; subst; eauto|]. destruct (Nat.eqb_spec y 1); [injection H as <-; eauto|]. destruct (Nat.eqb_spec x 1); [injection H as <-; eauto|discriminate]. }
    destruct E as (s' & Hs' & m & -> & Hm). inversion Hr as [|k n i sh Hk Hi]; subst. cbn [length firstn clip1]. constructor.
    + destruct (Nat.eqb_spec x 1); lia.
    + apply (IH b s' i Hs' Hi).
Qed.

Lemma inb_rev i s : inb i s -> inb (rev i) (rev s).
Proof. induction 1 as [|k n i s Hk H IH]; [constructor|]. cbn [rev]. apply inb_app; [exact IH|]. repeat constructor; assumption. Qed.
Lemma clip1_app a1 a2 l1 l2 : length a1 = length l1 -> clip1 (a1 ++ a2) (l1 ++ l2) = clip1 a1 l1 ++ clip1 a2 l2.
Proof. revert l1. induction a1 as [|x a1 IH]; intros [|y l1] H; try discriminate; [reflexivity|]. cbn. injection H as H. rewrite IH by exact H. reflexivity. Qed.
Lemma clip1_rev a l : length a = length l -> clip1 (rev a) (rev l) = rev (clip1 a l).
Proof.
  revert l. induction a as [|x a IH]; intros [|y l] H; try discriminate; [reflexivity|]. injection H as H. cbn [rev].
  rewrite clip1_app by (rewrite !rev_length; exact H). rewrite IH by exact H. cbn [clip1 rev]. reflexivity.
Qed.
Lemma bshape_rev_len a b s : bshape_rev a b = Some s -> (length a <= length s)%nat /\ (length b <= length s)%nat.
Proof.
  revert b s. induction a as [|x a IH]; intros [|y b] s H; cbn in H; try (injection H as <-; cbn; lia).
  destruct (bshape_rev a b) as [s'|] eqn:E; [|discriminate]. destruct (IH b s' E).
  destruct (x =? y)%nat; [injection H as <-; cbn; lia|]. destruct (x =? 1)%nat; [injection H as <-; cbn; lia|]. destruct (y =? 1)%nat; [injection H as <-; cbn; lia|discriminate].
Qed.
Lemma bidx_in_range a b s i : (bshape a b = Some s \/ bshape b a = Some s) -> inb i s -> inb (bidx a i) a.
Proof.
  intros H Hi. assert (H' : bshape_rev (rev a) (rev b) = Some (rev s) \/ bshape_rev (rev b) (rev a) = Some (rev s)).
  { unfold bshape in H. destruct H as [H|H].
    - left. destruct (bshape_rev (rev a) (rev b)) as [r|]; [|discriminate]. injection H as <-. rewrite rev_involutive. reflexivity.
    - right. destruct (bshape_rev (rev b) (rev a)) as [r|]; [|discriminate]. injection H as <-. rewrite rev_involutive. reflexivity. }
  assert (Hl : (length a <= length i)%nat).
  { rewrite (inb_length _ _ Hi). destruct H' as [H'|H']; apply bshape_rev_len in H'; rewrite !rev_length in H'; lia. }
  pose proof (bshape_rev_clip (rev a) (rev b) (rev s) (rev i) H' (inb_rev _ _ Hi)) as Hc.
  rewrite rev_length, firstn_rev, clip1_rev in Hc by (rewrite skipn_length; lia).
  apply inb_rev in Hc. rewrite !rev_involutive in Hc. exact Hc.
Qed.

Lemma tzip_teq {X Y Z} (f : X -> Y -> Z) a a' b b' : teq a a' -> teq b b' -> rteq (tzip f a b) (tzip f a' b').
Proof.
  intros [Ha1 Ha2] [Hb1 Hb2]. unfold tzip. rewrite <- Ha1, <- Hb1. destruct (bshape (tshape a) (tshape b)) as [s|] eqn:E; [|reflexivity].
  split; [reflexivity|]. intros i Hi. cbn [tget tshape] in *. f_equal.
  - apply Ha2. apply (bidx_in_range _ (tshape b) s); auto.
  - apply Hb2. apply (bidx_in_range _ (tshape a) s); auto.
Qed.
Lemma tsum_all_teq a b : teq a b -> tsum_all a = tsum_all b.
Proof. intros [H1 H2]. unfold tsum_all. rewrite <- H1. apply sumC_ext. intros i Hi. apply H2, in_indices, Hi. Qed.
Lemma tsum0_teq a b : teq a b -> teq (tsum0 a) (tsum0 b).
Proof.
  intros [H1 H2]. unfold tsum0. rewrite <- H1. destruct (tshape a) as [|n sh] eqn:E.
  - split; [cbn; congruence|]. intros i Hi. cbn in *. apply H2. rewrite E in Hi. exact Hi.
  - split; [reflexivity|]. intros i Hi. cbn [tget tshape] in *. apply sumC_ext. intros s Hs. apply in_seq in Hs. apply H2. constructor; [lia|exact Hi].
Qed.
Lemma dft3_teq (tr : list nat -> (list nat -> C) -> list nat -> C) a b : (3 <= ndim a)%nat ->
  (forall ns f g x, (forall y, inb y ns -> f y = g y) -> tr ns f x = tr ns g x) -> teq a b ->
  teq (mkT (tshape a) (fun i => tr (grid3 a) (fun x => tget a (firstn (ndim a - 3) i ++ x)) (skipn (ndim a - 3) i)))
      (mkT (tshape b) (fun i => tr (grid3 b) (fun x => tget b (firstn (ndim b - 3) i ++ x)) (skipn (ndim b - 3) i))).
Proof.
  intros Hn Htr [H1 H2]. assert (Hd : ndim b = ndim a) by (unfold ndim; congruence). assert (Hg : grid3 b = grid3 a) by (unfold grid3, ndim; rewrite H1; reflexivity).
  split; [exact H1|]. intros i Hi. cbn [tget tshape] in *. rewrite Hd, Hg. apply Htr. intros y Hy. apply H2.
  assert (Es : tshape a = firstn (ndim a - 3) (tshape a) ++ grid3 a) by (unfold grid3; rewrite firstn_skipn; reflexivity). rewrite Es.
  apply inb_app; [|exact Hy]. rewrite Es in Hi. apply inb_split in Hi. destruct Hi as (p & q & -> & Hp & Hq).
  assert (L : length p = (ndim a - 3)%nat) by (rewrite (inb_length _ _ Hp), firstn_length; unfold ndim; lia).
  rewrite firstn_app_len by exact L. exact Hp.
Qed.
Lemma fftn3_teq a b : teq a b -> rteq (fftn3 a) (fftn3 b).
Proof.
  intros H. pose proof H as [H1 _]. unfold fftn3. assert (Hd : ndim b = ndim a) by (unfold ndim; congruence). rewrite Hd.
  destruct (ndim a <? 3)%nat eqn:E; [reflexivity|]. cbn [rteq]. pose proof (dft3_teq dft a b ltac:(lia) ltac:(intros; apply dft_ext; assumption) H) as T.
  rewrite Hd in T. exact T.
Qed.
Lemma ifftn3_teq a b : teq a b -> rteq (ifftn3 a) (ifftn3 b).
Proof.
  intros H. pose proof H as [H1 _]. unfold ifftn3. assert (Hd : ndim b = ndim a) by (unfold ndim; congruence). rewrite Hd.
  destruct (ndim a <? 3)%nat eqn:E; [reflexivity|]. cbn [rteq]. pose proof (dft3_teq idft a b ltac:(lia) ltac:(intros; apply idft_ext; assumption) H) as T.
  rewrite Hd in T. exact T.
Qed.

Lemma rteq_bind {X Y} (a b : res (tensor X)) (f g : tensor X -> res Y) : rteq a b -> (forall u v, teq u v -> f u = g v) -> bind a f = bind b g.
Proof. destruct a, b; cbn; intros H1 H2; try contradiction; [apply H2, H1|congruence]. Qed.
Lemma rteq_bind' {X Y} (a b : res (tensor X)) (f g : tensor X -> res (tensor Y)) : rteq a b -> (forall u v, teq u v -> rteq (f u) (g v)) -> rteq (bind a f) (bind b g).
Proof. destruct a, b; cbn; intros H1 H2; try contradiction; [apply H2, H1|congruence]. Qed.

Lemma braket_teq a a' b b' vol : teq a a' -> teq b b' -> reciprocal_braket a b vol = reciprocal_braket a' b' vol.
Proof.
  intros [Ha Ha'] [Hb Hb']. unfold reciprocal_braket. assert (E1 : grid3 a' = grid3 a) by (unfold grid3, ndim; rewrite Ha; reflexivity).
  assert (E2 : grid3 b' = grid3 b) by (unfold grid3, ndim; rewrite Hb; reflexivity). rewrite E1, E2, <- Ha.
  destruct (list_eq_dec _ _ _); [|reflexivity]. apply rteq_bind; [apply tzip_teq; split; assumption|]. intros u v H. rewrite (tsum_all_teq u v H). reflexivity.
Qed.
Lemma expand0_teq {X} (a b : tensor X) : teq a b -> teq (expand0 a) (expand0 b).
Proof. intros [H1 H2]. split; [cbn; congruence|]. intros i Hi. cbn in *. inversion Hi; subst. cbn. apply H2. assumption. Qed.
Lemma hartree_teq D D' G ks : teq D D' -> rteq (hartree_reciprocal D G ks) (hartree_reciprocal D' G ks).
Proof.
  intros H. unfold hartree_reciprocal. assert (Hd : ndim D' = ndim D) by (unfold ndim; rewrite (proj1 H); reflexivity). rewrite Hd.
  destruct (negb _); [reflexivity|]. destruct (negb _); [reflexivity|]. apply rteq_bind'; [apply tzip_teq; [apply tsum0_teq, H|apply teq_refl]|].
  intros u v [H1 H2]. split; [exact H1|]. intros i Hi. cbn [tget tshape] in *. rewrite H2 by exact Hi. reflexivity.
Qed.
Lemma e_hartree_teq D D' G vol ks : teq D D' -> e_hartree D G vol ks = e_hartree D' G vol ks.
Proof.
  intros H. unfold e_hartree. assert (Hd : ndim D' = ndim D) by (unfold ndim; rewrite (proj1 H); reflexivity). rewrite Hd.
  destruct (negb _); [reflexivity|]. apply rteq_bind; [apply hartree_teq, H|]. intros u v Huv. apply braket_teq; [apply expand0_teq, Huv|exact H].
Qed.
Lemma e_external_teq D D' pos ch G vol : teq D D' -> e_external D pos ch G vol = e_external D' pos ch G vol.
Proof.
  intros H. unfold e_external. assert (Hd : ndim D' = ndim D) by (unfold ndim; rewrite (proj1 H); reflexivity). rewrite Hd.
  destruct (negb _); [reflexivity|]. apply rteq_bind; [apply rteq_refl|]. intros u v Huv. apply braket_teq; [apply expand0_teq, Huv|exact H].
Qed.
Lemma e_xc_teq xcd d d' G vol xt ks : xc_local xcd ks xt -> teq d d' -> e_xc xcd d G vol xt ks = e_xc xcd d' G vol xt ks.
Proof.
  intros Hx H. unfold e_xc. assert (Hd : ndim d' = ndim d) by (unfold ndim; rewrite (proj1 H); reflexivity). rewrite Hd.
  assert (Hg : grid3 d' = grid3 d) by (unfold grid3, ndim; rewrite (proj1 H); reflexivity). rewrite Hg.
  destruct (negb _); [reflexivity|]. apply rteq_bind; [apply Hx, H|]. intros u v Huv. apply rteq_bind; [apply tzip_teq; [exact Huv|apply tmap_teq, H]|].
  intros p q Hpq. rewrite (tsum_all_teq p q Hpq). reflexivity.
Qed.

(** The energy of two sets of orbitals with the same density and the same kinetic energy. *)
Lemma total_from_density xcd c c' pos ch G kpts vol occ ks xt sp K B n1 n2 n3 : let ns := [n1; n2; n3] in xc_local xcd ks xt ->
  tshape c = [sp; K; B] ++ ns -> tshape c' = [sp; K; B] ++ ns -> tshape occ = [sp; K; B] ->
  (exists d d', density_grid c vol (Some occ) = Ok d /\ density_grid c' vol (Some occ) = Ok d' /\ teq d d') ->
  (rteq (e_kinetic G kpts c (Some occ)) (e_kinetic G kpts c' (Some occ))) ->
  (forall t, e_kinetic G kpts c (Some occ) = Ok t -> tshape t = []) ->
  total_energy_split xcd c pos ch G kpts vol (Some occ) ks xt = total_energy_split xcd c' pos ch G kpts vol (Some occ) ks xt.
Proof.
  intros ns Hx Sc Sc' So (d & d' & Ed & Ed' & Hd) Hk Hk0. unfold total_energy_split.
  destruct (wave_grid_eq c vol [sp; K; B] ns eq_refl Sc) as (w & Ew & _ & _). destruct (wave_grid_eq c' vol [sp; K; B] ns eq_refl Sc') as (w' & Ew' & _ & _).
  rewrite Ew, Ew'. cbn [bind]. destruct (wave_to_density_eq c vol occ sp K B n1 n2 n3 w d Sc So Ew Ed) as (e & Ee & He).
  destruct (wave_to_density_eq c' vol occ sp K B n1 n2 n3 w' d' Sc' So Ew' Ed') as (e' & Ee' & He').
  unfold wave_to_density_reciprocal. rewrite Ee, Ee'. cbn [bind].
  assert (T : teq e e') by (apply (teq_trans _ d); [exact He|]; apply (teq_trans _ d'); [exact Hd|apply teq_sym, He']).
  apply rteq_bind; [apply fftn3_teq, tmap_teq, T|]. intros D D' HD.
  destruct (e_kinetic G kpts c (Some occ)) as [t|x] eqn:Et; destruct (e_kinetic G kpts c' (Some occ)) as [t'|x'] eqn:Et'; cbn in Hk; try contradiction; [|subst; reflexivity].
  cbn [bind]. rewrite (e_external_teq D D' pos ch G vol HD). rewrite (e_hartree_teq D D' G vol ks HD). rewrite (e_xc_teq xcd e e' G vol xt ks Hx T).
  destruct Hk as [_ Hk]. rewrite (Hk []); [reflexivity|]. rewrite (Hk0 t eq_refl). constructor.
Qed.

Lemma kinetic_gauge G kpts c c' occ sp B n1 n2 n3 (U : nat -> nat -> nat -> nat -> C) : let ns := [n1; n2; n3] in let K := length kpts in
  tshape G = ns -> tshape c = [sp; K; B] ++ ns -> tshape c' = [sp; K; B] ++ ns -> tshape occ = [sp; K; B] ->
  (forall s k b1 b2, (s < sp)%nat -> (k < K)%nat -> (b1 < B)%nat -> (b2 < B)%nat ->
     sumC (seq 0 B) (fun b => Cconj (U s k b b1) * U s k b b2) = RtoC (if Nat.eqb b1 b2 then 1 else 0)) ->
  (forall s k b b', (s < sp)%nat -> (k < K)%nat -> (b < B)%nat -> (b' < B)%nat -> U s k b b' <> RtoC 0 -> tget occ [s; k; b] = tget occ [s; k; b']) ->
  (forall s k b g, (s < sp)%nat -> (k < K)%nat -> (b < B)%nat -> inb g ns ->
     tget c' ([s; k; b] ++ g) = sumC (seq 0 B) (fun b' => U s k b b' * tget c ([s; k; b'] ++ g))) ->
  exists t t', e_kinetic G kpts c (Some occ) = Ok t /\ e_kinetic G kpts c' (Some occ) = Ok t' /\ tshape t = [] /\ tshape t' = [] /\ tget t [] = tget t' [].
Proof.
  intros ns K SG Sc Sc' So HU HUo Hcc.
  destruct (kinetic_some G kpts c occ sp B n1 n2 n3 SG Sc So) as (t & E & S & V).
  destruct (kinetic_some G kpts c' occ sp B n1 n2 n3 SG Sc' So) as (t' & E' & S' & V').
  exists t, t'. repeat split; auto. rewrite V, V'. f_equal. apply sumR_ext. intros s Hs. apply sumR_ext. intros k Hk. apply in_seq in Hs, Hk.
  assert (X : forall c0, sumR (seq 0 B) (fun b => ekin G kpts c0 ns s k b * tget occ [s; k; b])%R =
    sumR (indices ns) (fun g => norm2 (vadd (tget G g) (nth k kpts vzero)) * sumR (seq 0 B) (fun b => tget occ [s; k; b] * Cnorm2 (tget c0 ([s; k; b] ++ g))))%R).
  { intros c0. unfold ekin. rewrite (sumR_ext (indices ns) _ (fun g => sumR (seq 0 B) (fun b => norm2 (vadd (tget G g) (nth k kpts vzero)) * (tget occ [s; k; b] * Cnorm2 (tget c0 ([s; k; b] ++ g)))))%R)
      by (intros g _; rewrite sumR_scal; reflexivity).
    rewrite (sumR_swap (indices ns) (seq 0 B)). apply sumR_ext. intros b _. rewrite <- sumR_scal_r. apply sumR_ext. intros g _. ring. }
  fold ns. rewrite !X. apply sumR_ext. intros g Hg. apply in_indices in Hg. f_equal.
  rewrite <- (mix_weights B (U s k) (fun b => tget occ [s; k; b]) (fun b => tget c ([s; k; b] ++ g))).
  - apply sumR_ext. intros b Hb. apply in_seq in Hb. f_equal. f_equal. symmetry. apply Hcc; auto; lia.
  - intros b1 b2 Hb1 Hb2. apply HU; auto; lia.
  - intros b b' Hb Hb' Hne. apply (HUo s k b b'); auto; lia.
Qed.

Lemma total_gauge xcd c c' pos ch G kpts vol occ ks xt sp B n1 n2 n3 (U : nat -> nat -> nat -> nat -> C) : let ns := [n1; n2; n3] in let K := length kpts in
  xc_local xcd ks xt -> tshape G = ns -> tshape c = [sp; K; B] ++ ns -> tshape c' = [sp; K; B] ++ ns -> tshape occ = [sp; K; B] ->
  (forall s k b1 b2, (s < sp)%nat -> (k < K)%nat -> (b1 < B)%nat -> (b2 < B)%nat ->
     sumC (seq 0 B) (fun b => Cconj (U s k b b1) * U s k b b2) = RtoC (if Nat.eqb b1 b2 then 1 else 0)) ->
  (forall s k b b', (s < sp)%nat -> (k < K)%nat -> (b < B)%nat -> (b' < B)%nat -> U s k b b' <> RtoC 0 -> tget occ [s; k; b] = tget occ [s; k; b']) ->
  (forall s k b g, (s < sp)%nat -> (k < K)%nat -> (b < B)%nat -> inb g ns ->
     tget c' ([s; k; b] ++ g) = sumC (seq 0 B) (fun b' => U s k b b' * tget c ([s; k; b'] ++ g))) ->
  total_energy_split xcd c' pos ch G kpts vol (Some occ) ks xt = total_energy_split xcd c pos ch G kpts vol (Some occ) ks xt.
Proof.
  intros ns K Hx SG Sc Sc' So HU HUo Hcc. symmetry.
  destruct (density_eq c vol occ sp K B n1 n2 n3 Sc So) as (d & Ed & _).
  destruct (density_gauge c c' vol occ sp K B n1 n2 n3 U d Sc Sc' So HU HUo Hcc Ed) as (d' & Ed' & Td).
  destruct (kinetic_gauge G kpts c c' occ sp B n1 n2 n3 U SG Sc Sc' So HU HUo Hcc) as (t & t' & Et & Et' & St & St' & V).
  apply (total_from_density xcd c c' pos ch G kpts vol occ ks xt sp K B n1 n2 n3); auto.
  - exists d, d'. repeat split; auto; apply teq_sym in Td; apply Td.
  - rewrite Et, Et'. split; [congruence|]. intros i Hi. rewrite St in Hi. inversion Hi. exact V.
  - intros t0 E0. rewrite Et in E0. injection E0 as <-. exact St.
Qed.
