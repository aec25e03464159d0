(** A lower bound of the energy (C143). *)
From Coq Require Import Reals Lra Lia.
From Coquelicot Require Import Coquelicot.
From Coq Require Import Ascii String List Arith ZArith Bool.
From Verif Require Import Base Sums Tensor DFT GridModel GridProofs PadModel PadProofs Lin3 VecModel VecProofs OccModel OccSpec PwModel PwSpec PwProofs BraketModel XcModel XcSpec EnergyModel EnergySpec EnergyProofs ExtProofs TotalProofs XcProofs SpinProofs BoundSpec.
Import ListNotations.
Local Open Scope R_scope.

Lemma Cmod_sum {X} (l : list X) f : Cmod (sumC l f) <= sumR l (fun x => Cmod (f x)).
Proof. induction l as [|a l IH]; cbn [sumC sumR]; [rewrite Cmod_0; lra|]. eapply Rle_trans; [apply Cmod_triangle|]. lra. Qed.
Lemma Re_le_Cmod z : Re z <= Cmod z.
Proof. eapply Rle_trans; [apply Rle_abs|]. eapply Rle_trans; [apply Rmax_l|exact (Rmax_Cmod z)]. Qed.
Lemma Cmod_cis a : Cmod (cis a) = 1.
Proof.
  pose proof (cis_norm a) as H. rewrite Cnorm2_Cmod in H. pose proof (Cmod_ge_0 (cis a)) as P. nra.
Qed.
Lemma le_sumR {X} (l : list X) f a : (forall x, In x l -> 0 <= f x) -> In a l -> f a <= sumR l f.
Proof.
  induction l as [|b l IH]; intros Hf Ha; [destruct Ha|]. cbn [sumR]. assert (P : 0 <= sumR l f) by (apply sumR_nonneg; intros x Hx; apply Hf; right; exact Hx). pose proof (Hf b (or_introl eq_refl)) as Pb.
  destruct Ha as [->|Ha]; [lra|]. specialize (IH (fun x Hx => Hf x (or_intror Hx)) Ha). lra.
Qed.
Lemma spin_sum_bound (D : tensor C) (d : tensor R) sp ns x : tshape D = sp :: ns ->
  (forall s g, (s < sp)%nat -> tget D (s :: g) = dft ns (fun y => RtoC (tget d (s :: y))) g) -> (forall s y, (s < sp)%nat -> inb y ns -> 0 <= tget d (s :: y)) ->
  Cmod (spin_sum D x) <= sumR (seq 0 sp) (fun s => sumR (indices ns) (fun y => tget d (s :: y))).
Proof.
  intros SD HD Hp. unfold spin_sum. rewrite SD. cbn [hd]. eapply Rle_trans; [apply Cmod_sum|]. apply sumR_le. intros s Hs. apply in_seq in Hs. rewrite HD by lia. unfold dft.
  eapply Rle_trans; [apply Cmod_sum|]. apply sumR_le. intros y Hy. apply in_indices in Hy. rewrite Cmod_mult, Cmod_cis, Cmod_R, Rabs_pos_eq by (apply Hp; [lia|exact Hy]). lra.
Qed.
Lemma structure_bound ch pos q : length ch = length pos -> Cmod (structure_factor ch pos q) <= sumR ch Rabs.
Proof.
  intros H. unfold structure_factor. eapply Rle_trans; [apply Cmod_sum|]. right. revert pos H. induction ch as [|z ch IH]; intros [|r pos] H; try discriminate; [reflexivity|]. injection H as H. cbn [combine sumR fst snd].
  rewrite (IH pos H), Cmod_mult, Cmod_cis, Cmod_R. ring.
Qed.
Lemma point_floor lib ts g (pol : bool) (v sg : list R) m fl : length v = (if pol then 2 else 1)%nat -> (forall t, In t ts -> per_electron_floor lib t (2 * m) fl) -> Forall (fun n => 0 <= n <= m) v ->
  - (INR (length ts) * fl) <= point_xc lib ts g pol v sg.
Proof.
  intros Lv Ht Hv. unfold point_xc. induction ts as [|t ts IH]; [cbn; lra|]. cbn [sumR]. specialize (IH (fun u Hu => Ht u (or_intror Hu))). change (length (t :: ts)) with (S (length ts)). rewrite S_INR.
  assert (T : - fl <= match pick lib t pol with Some f => if g then gga_at f pol (is_exchange t) v sg else lda_at f pol (is_exchange t) v | None => 0 end); [|lra].
  unfold pick. destruct (Ht t (or_introl eq_refl) (pol && negb (is_exchange t))) as (f & -> & Hf).
  assert (Hv2 : Forall (fun n => 0 <= n <= 2 * m) v) by (eapply Forall_impl; [|exact Hv]; cbn; intros; lra).
  unfold gga_at, lda_at. destruct (pol && is_exchange t) eqn:E.
  - apply andb_true_iff in E. destruct E as [-> E']. rewrite E' in Hf. destruct v as [|a [|b [|? ?]]]; try discriminate. inversion Hv as [|? ? Ha Hv']; subst. inversion Hv' as [|? ? Hb _]; subst. cbn [nth].
    assert (F : forall n sg', 0 <= n <= m -> - fl <= f [2 * n] sg') by (intros n sg' Hn; apply Hf; [reflexivity|constructor; [lra|constructor]]).
    destruct g; [pose proof (F a [4 * nth 0 sg 0] Ha); pose proof (F b [4 * nth 2 sg 0] Hb)|pose proof (F a [] Ha); pose proof (F b [] Hb)]; lra.
  - assert (Lp : length v = (if pol && negb (is_exchange t) then 2 else 1)%nat) by (rewrite Lv; destruct pol, (is_exchange t); try reflexivity; discriminate).
    destruct g; (apply Hf; [exact Lp|exact Hv2]).
Qed.
Lemma bounded_below lib vg xt A c pos ch G kpts vol occ sp B n1 n2 n3 fl : let ns := [n1; n2; n3] in let K := length kpts in let N := INR (nprod ns) in
  m3det A <> 0 -> g_vectors A ns = Ok G -> 0 < vol -> (sp = 1 \/ sp = 2)%nat -> length ch = length pos -> tshape c = [sp; K; B] ++ ns -> tshape occ = [sp; K; B] ->
  orthonormal_bands [sp; K] B ns c -> (forall i, inb i [sp; K; B] -> 0 <= tget occ i) ->
  (forall t, In t (split_on "+" xt) -> per_electron_floor lib t (2 * (electrons occ * N / vol)) fl) ->
  exists e, total_energy (xc_density lib vg) c pos ch G kpts vol (Some occ) false xt = Ok e /\
    - electrons occ * (attraction_limit ns G ch vol + INR (length (split_on "+" xt)) * fl) <= e.
Proof.
  intros ns K N HA HG Hv Hs Hl Sc So Hc Ho HL. destruct (g_vectors_dual A n1 n2 n3 G HA HG) as (SG & _). fold ns in SG.
  assert (Hn : Forall (fun n => (0 < n)%nat) ns) by (destruct (proj1 (g_vectors_ok A n1 n2 n3) (ex_intro _ G HG)) as (? & ? & ?); repeat constructor; lia).
  assert (HN : 0 < N) by (apply lt_0_INR, nprod_pos, Hn). assert (Hv0 : vol <> 0) by lra.
  set (ne := electrons occ) in *. set (m := ne * N / vol) in *. set (terms := split_on "+" xt) in *.
  unfold total_energy, total_energy_split.
  destruct (wave_grid_eq c vol [sp; K; B] ns eq_refl Sc) as (w & Ew & _). rewrite Ew. cbn [bind].
  destruct (density_eq c vol occ sp K B n1 n2 n3 Sc So) as (d0 & E0 & S0 & G0). destruct (wave_to_density_eq c vol occ sp K B n1 n2 n3 w d0 Sc So Ew E0) as (d & Ed & Eq).
  unfold wave_to_density_reciprocal. rewrite Ed. cbn [bind]. fold ns in S0. assert (Sd : tshape d = sp :: ns) by (rewrite (proj1 Eq); exact S0).
  assert (Gd : forall s x, (s < sp)%nat -> inb x ns -> tget d (s :: x) = tget d0 (s :: x)) by (intros s x Hx Hi; apply (proj2 Eq); rewrite Sd; constructor; [exact Hx|exact Hi]).
  destruct (density_charge c vol occ sp K B n1 n2 n3 d0 Hn Hv Sc So E0) as (_ & Dp & Dc). specialize (Dp Ho). specialize (Dc Hc).
  assert (Pd : forall s x, (s < sp)%nat -> inb x ns -> 0 <= tget d (s :: x)) by (intros s x Hx Hi; rewrite Gd by assumption; apply Dp; rewrite S0; constructor; [exact Hx|exact Hi]).
  assert (Tot : sumR (seq 0 sp) (fun s => sumR (indices ns) (fun y => tget d (s :: y))) = m).
  { unfold m, ne, electrons. rewrite So. cbn [hd]. unfold Rdiv. rewrite <- !sumR_scal_r. apply sumR_ext. intros s Hs'. apply in_seq in Hs'. rewrite <- (Dc s ltac:(lia)). fold ns. fold N.
    transitivity (sumR (indices ns) (fun x => tget d0 (s :: x))); [apply sumR_ext; intros x Hx; apply in_indices in Hx; apply Gd; [lia|exact Hx]|field; lra]. }
  assert (Nm : forall s x, (s < sp)%nat -> inb x ns -> 0 <= tget d (s :: x) <= m).
  { intros s x Hx Hi. split; [apply Pd; assumption|]. rewrite <- Tot. eapply Rle_trans; [apply (le_sumR (indices ns) (fun y => tget d (s :: y)))|].
    - intros y Hy. apply in_indices in Hy. apply Pd; assumption.
    - apply in_indices. exact Hi.
    - apply (le_sumR (seq 0 sp) (fun s => sumR (indices ns) (fun y => tget d (s :: y)))); [|apply in_seq; lia]. intros s' Hs'. apply in_seq in Hs'. apply sumR_nonneg. intros y Hy. apply in_indices in Hy. apply Pd; [lia|exact Hy]. }
  assert (Pne : 0 <= ne).
  { assert (Pm : 0 <= m) by (rewrite <- Tot; apply sumR_nonneg; intros s Hs'; apply in_seq in Hs'; apply sumR_nonneg; intros y Hy; apply in_indices in Hy; apply Pd; [lia|exact Hy]).
    replace ne with (m * (vol / N)) by (unfold m; field; lra). apply Rmult_le_pos; [exact Pm|]. apply Rlt_le, Rdiv_lt_0_compat; assumption. }
  destruct (fftn3_eq (tmap RtoC d) [sp] ns eq_refl Sd) as (D & -> & SD & GD). cbn [bind].
  destruct (kinetic_some G kpts c occ sp B n1 n2 n3 SG Sc So) as (t & -> & _ & Gt). cbn [bind].
  rewrite (e_external_eq D pos ch G vol sp n1 n2 n3 SD SG Hl Hv0 HN). cbn [bind].
  destruct (hartree_energy_facts A n1 n2 n3 G D sp vol HA HG SD Hv) as (eh & -> & Ph & _). cbn [bind].
  assert (HP : forall t, In t (split_on "+" xt) -> pick lib t (sp =? 2)%nat <> None).
  { intros t0 Ht. unfold pick. destruct (HL t0 Ht ((sp =? 2)%nat && negb (is_exchange t0))) as (f & -> & _). discriminate. }
  rewrite (e_xc_point lib vg xt d G vol sp n1 n2 n3 Hs Sd SG HP). cbn [bind]. eexists. split; [reflexivity|]. fold ns. fold N. fold terms.
  assert (Pk : 0 <= tget t []).
  { rewrite Gt. apply Rmult_le_pos; [|lra]. apply sumR_nonneg. intros s Hs'. apply in_seq in Hs'. apply sumR_nonneg. intros k Hk. apply in_seq in Hk. apply sumR_nonneg. intros b Hb. apply in_seq in Hb. apply Rmult_le_pos.
    - unfold ekin. apply sumR_nonneg. intros g _. apply Rmult_le_pos; [apply norm2_nonneg|apply Cnorm2_nonneg].
    - apply Ho. repeat constructor; lia. }
  assert (Pe : - ne * attraction_limit ns G ch vol <= - (4 * PI / N) * Re (sumC (indices ns) (fun x => if is_origin x then RtoC 0 else Cconj (structure_factor ch pos (tget G x)) * spin_sum D x * RtoC (/ (norm2 (tget G x) + / 10 ^ 10)))%C)).
  { set (S := sumR (filter (fun x => negb (forallb (Nat.eqb 0) x)) (indices ns)) (fun x => / (norm2 (tget G x) + / 10 ^ 10))).
    assert (PZ : 0 <= sumR ch Rabs) by (apply sumR_nonneg; intros; apply Rabs_pos).
    assert (U : Re (sumC (indices ns) (fun x => if is_origin x then RtoC 0 else Cconj (structure_factor ch pos (tget G x)) * spin_sum D x * RtoC (/ (norm2 (tget G x) + / 10 ^ 10)))%C) <= sumR ch Rabs * m * S).
    { eapply Rle_trans; [apply Re_le_Cmod|]. eapply Rle_trans; [apply Cmod_sum|]. unfold S. rewrite sumR_filter, <- sumR_scal. apply sumR_le. intros x _. unfold is_origin. destruct (forallb (Nat.eqb 0) x); cbn [negb]; [rewrite Cmod_0; lra|].
      assert (Pr : 0 < / (norm2 (tget G x) + / 10 ^ 10)). { apply Rinv_0_lt_compat. pose proof (norm2_nonneg (tget G x)). assert (0 < / 10 ^ 10) by (apply Rinv_0_lt_compat, pow_lt; lra). lra. }
      rewrite !Cmod_mult, Cmod_R, (Rabs_pos_eq (/ _)) by lra. apply Rmult_le_compat_r; [lra|].
      assert (Cc : forall z, Cmod (Cconj z) = Cmod z) by (intros [a b]; unfold Cmod, Cconj; cbn [fst snd]; f_equal; ring). rewrite Cc.
      apply Rmult_le_compat; [apply Cmod_ge_0|apply Cmod_ge_0|apply structure_bound; exact Hl|]. rewrite <- Tot. apply spin_sum_bound; [exact SD| |exact Pd].
      intros s g Hs'. change (s :: g) with ([s] ++ g). rewrite GD by reflexivity. reflexivity. }
    unfold attraction_limit. fold S. replace (- ne * (4 * PI / vol * sumR ch Rabs * S)) with (- (4 * PI / N) * (sumR ch Rabs * m * S)) by (unfold m; field; lra).
    assert (P4 : 0 < 4 * PI / N) by (apply Rdiv_lt_0_compat; [pose proof PI_RGT_0; lra|exact HN]). rewrite <- !Ropp_mult_distr_l. apply Ropp_le_contravar. apply Rmult_le_compat_l; lra. }
  assert (Px : - ne * (INR (length terms) * fl) <= vol / N * sumR (indices ns) (fun x => point_xc lib terms (contains "gga" xt) (sp =? 2)%nat (dens_at sp d x) (if contains "gga" xt then sig_at ns G sp d x else []) * sumR (seq 0 sp) (fun s => tget d (s :: x)))).
  { replace (- ne * (INR (length terms) * fl)) with (vol / N * (- (INR (length terms) * fl) * m)) by (unfold m; field; lra). apply Rmult_le_compat_l; [apply Rlt_le, Rdiv_lt_0_compat; assumption|].
    rewrite <- Tot. rewrite sumR_swap, <- sumR_scal. apply sumR_le. intros x Hx. apply in_indices in Hx. apply Rmult_le_compat_r; [apply sumR_nonneg; intros s Hs'; apply in_seq in Hs'; apply Pd; [lia|exact Hx]|].
    apply (point_floor lib terms _ _ _ _ m fl).
    - unfold dens_at. rewrite map_length, seq_length. destruct Hs as [-> | ->]; reflexivity.
    - exact HL.
    - unfold dens_at. apply Forall_forall. intros n Hn'. apply in_map_iff in Hn'. destruct Hn' as (s & <- & Hs'). apply in_seq in Hs'. apply Nm; [lia|exact Hx]. }
  lra.
Qed.
