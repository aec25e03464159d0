(** Scaling all lengths of a crystal. *)
From Coq Require Import Reals Lra Lia.
From Coquelicot Require Import Coquelicot.
From Coq Require Import Ascii String List Arith ZArith Bool FunctionalExtensionality.
From Verif Require Import Base Sums Tensor DFT GridModel GridProofs PadModel PadProofs Lin3 VecModel VecProofs OccModel PwModel PwSpec PwProofs BraketModel XcModel XcSpec EnergyModel EnergySpec EnergyProofs ExtProofs TotalProofs RespProofs XcProofs XcProofs2 XcProofs3 SpinSpec SpinProofs ScaleSpec.
Import ListNotations.
Local Open Scope R_scope.

(** ** Grids *)
Lemma volume_scale lam A : 0 < lam -> volume (m3scale lam A) = lam ^ 3 * volume A.
Proof. intros H. unfold volume. rewrite m3det_scale, Rabs_mult. rewrite (Rabs_pos_eq (lam ^ 3)); [reflexivity|]. apply pow_le. lra. Qed.
Lemma reciprocal_scale lam A : 0 < lam -> m3det A <> 0 -> reciprocal_vectors (m3scale lam A) = m3scale (/ lam) (reciprocal_vectors A).
Proof.
  intros H HA. unfold reciprocal_vectors. rewrite m3inv_scale by (lra || assumption). rewrite m3t_scale, !m3scale_scale. f_equal. ring.
Qed.
Lemma vector_grid_scale lam B sizes nz : vector_grid (m3scale lam B) sizes nz = rmap (tmap (vscale lam)) (vector_grid B sizes nz).
Proof.
  unfold vector_grid. destruct sizes as [|n1 [|n2 [|n3 [|]]]]; try reflexivity.
  destruct ((n1 =? 0)%nat || (n2 =? 0)%nat || (n3 =? 0)%nat); [reflexivity|]. cbn [rmap]. unfold tmap. cbn [tshape tget]. f_equal. f_equal.
  apply functional_extensionality. intros i. unfold m3scale. cbn [m0 m1 m2]. destruct B as [[? ? ?] [? ? ?] [? ? ?]]. unfold vadd, vscale. cbn. f_equal; ring.
Qed.
Lemma g_scale lam A sizes : 0 < lam -> m3det A <> 0 -> g_vectors (m3scale lam A) sizes = rmap (tmap (vscale (/ lam))) (g_vectors A sizes).
Proof. intros H HA. unfold g_vectors. rewrite reciprocal_scale by assumption. apply vector_grid_scale. Qed.
Lemma k_scale lam A sizes : 0 < lam -> m3det A <> 0 -> k_vectors (m3scale lam A) sizes = rmap (map (vscale (/ lam))) (k_vectors A sizes).
Proof.
  intros H HA. unfold k_vectors. destruct (monkhorst_pack sizes) as [ks|e]; [|reflexivity]. cbn [bind rmap]. f_equal. rewrite map_map.
  apply map_ext. intros k. rewrite reciprocal_scale by assumption. apply vmul_mscale.
Qed.
Lemma norm_scale lam v : 0 < lam -> norm (vscale lam v) = lam * norm v.
Proof.
  intros H. unfold norm. rewrite norm2_scale, sqrt_mult; [|nra|apply norm2_nonneg]. rewrite sqrt_square by lra. reflexivity.
Qed.
Lemma translation_scale lam A cutoff : 0 < lam -> translation_vectors (m3scale lam A) (lam ^ 2 * cutoff) = rmap (map (vscale lam)) (translation_vectors A cutoff).
Proof.
  intros H. unfold translation_vectors.
  assert (E : norm (vadd (vadd (m0 (m3scale lam A)) (m1 (m3scale lam A))) (m2 (m3scale lam A))) = lam * norm (vadd (vadd (m0 A) (m1 A)) (m2 A))).
  { rewrite <- norm_scale by exact H. f_equal. lin3; ring. }
  rewrite E. set (s := norm _).
  destruct (Req_EM_T (lam * s) 0) as [Z|Z]; destruct (Req_EM_T s 0) as [Z'|Z'].
  - assert (L : lam ^ 2 * cutoff = 0 <-> cutoff = 0) by (split; intros X; [apply Rmult_integral in X; destruct X as [X|X]; [pose proof (pow_lt lam 2 H); lra|exact X]|rewrite X; ring]). destruct (Req_EM_T (lam ^ 2 * cutoff) 0), (Req_EM_T cutoff 0); try reflexivity; exfalso; tauto.
  - exfalso. apply Rmult_integral in Z. destruct Z; [lra|contradiction].
  - exfalso. apply Z. rewrite Z'. ring.
  - replace (lam ^ 2 * cutoff / (lam * s) ^ 2) with (cutoff / s ^ 2) by (field; split; lra).
    destruct (_ <? 0)%Z; [reflexivity|]. rewrite vector_grid_scale. destruct (vector_grid A _ false) as [g|e]; [|reflexivity]. cbn [rmap bind]. f_equal.
    unfold tmap. cbn [tshape tget]. rewrite map_map. reflexivity.
Qed.
Lemma mask_scale lam A sizes cutoff : 0 < lam -> m3det A <> 0 -> spherical_mask (m3scale lam A) sizes (cutoff / lam ^ 2) = spherical_mask A sizes cutoff.
Proof.
  intros H HA. unfold spherical_mask. rewrite g_scale by assumption. destruct (g_vectors A sizes) as [g|e]; [|reflexivity]. cbn [rmap bind].
  f_equal. unfold tmap. cbn [tshape tget]. f_equal. apply functional_extensionality. intros i.
  assert (Hi : 0 < / lam) by (apply Rinv_0_lt_compat; exact H). rewrite norm_scale by exact Hi. set (q := norm _). 
  replace ((/ lam * q) ^ 2) with (/ lam ^ 2 * q ^ 2) by (field; lra). replace (cutoff / lam ^ 2 * 2) with (/ lam ^ 2 * (cutoff * 2)) by (field; lra).
  assert (P : 0 < / lam ^ 2) by (apply Rinv_0_lt_compat, pow_lt; exact H).
  unfold Rleb. destruct (Rle_dec (/ lam ^ 2 * q ^ 2) _) as [L|L], (Rle_dec (q ^ 2) _) as [M|M]; try reflexivity; exfalso.
  - apply M. apply Rmult_le_reg_l with (/ lam ^ 2); assumption.
  - apply L. apply Rmult_le_compat_l; [lra|exact M].
Qed.
Lemma grids_scale lam A sizes cutoff : 0 < lam -> m3det A <> 0 ->
  volume (m3scale lam A) = lam ^ 3 * volume A /\
  g_vectors (m3scale lam A) sizes = rmap (tmap (vscale (/ lam))) (g_vectors A sizes) /\
  r_vectors (m3scale lam A) sizes = rmap (tmap (vscale lam)) (r_vectors A sizes) /\
  k_vectors (m3scale lam A) sizes = rmap (map (vscale (/ lam))) (k_vectors A sizes) /\
  translation_vectors (m3scale lam A) (lam ^ 2 * cutoff) = rmap (map (vscale lam)) (translation_vectors A cutoff) /\
  spherical_mask (m3scale lam A) sizes (cutoff / lam ^ 2) = spherical_mask A sizes cutoff.
Proof.
  intros H HA. repeat split; [apply volume_scale|apply g_scale|apply vector_grid_scale|apply k_scale|apply translation_scale|apply mask_scale]; assumption.
Qed.

(** ** Energies *)
Lemma attraction_alt ns G D pos ch delta : attraction ns G D pos ch delta =
  - (4 * PI / INR (nprod ns)) * Re (sumC (indices ns) (fun x => if is_origin x then RtoC 0 else
        Cconj (structure_factor ch pos (tget G x)) * spin_sum D x * RtoC (/ (norm2 (tget G x) + delta)))%C).
Proof.
  unfold attraction. f_equal. f_equal. rewrite sumC_filter. apply sumC_ext. intros x _. rewrite is_origin_existsb. destruct (existsb _ x); reflexivity.
Qed.
Lemma nth_vscale a l k : nth k (map (vscale a) l) vzero = vscale a (nth k l vzero).
Proof. replace vzero with (vscale a vzero) at 1 by (lin3; ring). apply map_nth. Qed.
Lemma sf_scale lam ch pos q : lam <> 0 -> structure_factor ch (map (vscale lam) pos) (vscale (/ lam) q) = structure_factor ch pos q.
Proof.
  intros H. unfold structure_factor. revert pos. induction ch as [|z ch IH]; intros [|r pos]; try reflexivity. cbn [map combine sumC]. rewrite IH. f_equal. cbn [fst snd].
  rewrite dot_scale_l, dot_scale_r. rewrite <- Rmult_assoc, Rinv_l, Rmult_1_l by exact H. reflexivity.
Qed.
Lemma Cnorm2_real_scal (a : R) (z : C) : Cnorm2 (RtoC a * z)%C = a * a * Cnorm2 z.
Proof. destruct z. unfold Cnorm2, Cmult, RtoC. cbn [fst snd]. ring. Qed.
Lemma psi_scale ns lam vol c b x : 0 < lam -> 0 < vol -> Cnorm2 (psi ns (lam ^ 3 * vol) c b x) = Cnorm2 (psi ns vol c b x) / lam ^ 3.
Proof.
  intros H Hv. assert (P : 0 < lam ^ 3) by (apply pow_lt; exact H). unfold psi. rewrite !Cnorm2_real_scal.
  assert (S1 : sqrt (lam ^ 3 * vol) * sqrt (lam ^ 3 * vol) = lam ^ 3 * vol) by (apply sqrt_sqrt; nra).
  assert (S2 : sqrt vol * sqrt vol = vol) by (apply sqrt_sqrt; lra).
  assert (N1 : sqrt (lam ^ 3 * vol) <> 0) by (intros E; rewrite E in S1; nra). assert (N2 : sqrt vol <> 0) by (intros E; rewrite E in S2; nra).
  transitivity (INR (nprod ns) * INR (nprod ns) / (sqrt (lam ^ 3 * vol) * sqrt (lam ^ 3 * vol)) * Cnorm2 (idft ns (fun g => tget c (b ++ g)) x)); [field; exact N1|].
  transitivity (INR (nprod ns) * INR (nprod ns) / (sqrt vol * sqrt vol) * Cnorm2 (idft ns (fun g => tget c (b ++ g)) x) / lam ^ 3); [|field; split; [exact N2|lra]].
  rewrite S1, S2. field. split; lra.
Qed.
Lemma gradc_scale ns G lam f a x : 0 < lam -> gradc ns (tmap (vscale (/ lam)) G) (fun y => f y / lam ^ 3) a x = (RtoC (/ lam ^ 4) * gradc ns G f a x)%C.
Proof.
  intros H. unfold gradc, grad_component. rewrite <- idft_scal. apply idft_ext. intros g _.
  rewrite (dft_ext ns _ (fun y => RtoC (/ lam ^ 3) * RtoC (f y))%C) by (intros y _; rewrite <- RtoC_mult; f_equal; unfold Rdiv; ring).
  rewrite dft_scal. cbn [tmap tget]. replace (vcomp a (vscale (/ lam) (tget G g))) with (/ lam * vcomp a (tget G g)) by (destruct a as [|[|]]; reflexivity).
  replace (/ lam ^ 4) with (/ lam ^ 3 * / lam) by (field; lra). rewrite !RtoC_mult. ring.
Qed.
Lemma gprod_scale ns G lam f g x : 0 < lam ->
  gprod ns (tmap (vscale (/ lam)) G) (fun y => f y / lam ^ 3) (fun y => g y / lam ^ 3) x = gprod ns G f g x / lam ^ 8.
Proof.
  intros H. unfold gprod. rewrite (sumC_ext _ _ (fun a => RtoC (/ lam ^ 8) * (Cconj (gradc ns G f a x) * gradc ns G g a x))%C).
  - rewrite sumC_scal. destruct (sumC _ _) as [u w]. unfold Re, Cmult, RtoC. cbn [fst snd]. unfold Rdiv. ring.
  - intros a _. rewrite !gradc_scale, Cconj_mult by exact H. replace (/ lam ^ 8) with (/ lam ^ 4 * / lam ^ 4) by (field; lra).
    rewrite RtoC_mult. replace (Cconj (RtoC (/ lam ^ 4))) with (RtoC (/ lam ^ 4)) by (unfold Cconj, RtoC; cbn; f_equal; ring). ring.
Qed.

Lemma point_scale lib xt lam g pol v s : 0 < lam -> exchange_like lib xt lam -> (pol = true -> length v = 2%nat) -> (g = true -> pol = true -> length s = 3%nat) -> (g = false -> s = []) ->
  point_xc lib (split_on "+" xt) g pol (map (fun r => r / lam ^ 3) v) (map (fun r => r / lam ^ 8) s) = point_xc lib (split_on "+" xt) g pol v s / lam.
Proof.
  intros H HL Lv Ls Ln. unfold point_xc. match goal with |- _ = ?S / lam => change (S / lam) with (S * / lam) end. rewrite <- sumR_scal_r. apply sumR_ext. intros t Ht.
  unfold pick. destruct (HL t (pol && negb (is_exchange t)) Ht) as (f & -> & Hf).
  destruct g.
  - unfold gga_at. destruct pol; cbn [andb]; [|rewrite Hf; reflexivity]. destruct (is_exchange t); [|rewrite Hf; reflexivity].
    specialize (Lv eq_refl). specialize (Ls eq_refl eq_refl). destruct v as [|a [|b [|]]]; try discriminate. destruct s as [|p [|q [|r [|]]]]; try discriminate. cbn [map nth].
    assert (F1 : forall u w, f [2 * (u / lam ^ 3)] [4 * (w / lam ^ 8)] = f [2 * u] [4 * w] / lam).
    { intros u w. replace (2 * (u / lam ^ 3)) with (2 * u / lam ^ 3) by (field; lra). replace (4 * (w / lam ^ 8)) with (4 * w / lam ^ 8) by (field; lra). exact (Hf [2 * u] [4 * w]). }
    rewrite !F1. field. lra.
  - unfold lda_at. destruct pol; cbn [andb]; [|exact (Hf v [])]. destruct (is_exchange t); [|exact (Hf v [])].
    specialize (Lv eq_refl). destruct v as [|a [|b [|]]]; try discriminate. cbn [map nth].
    assert (F1 : forall u, f [2 * (u / lam ^ 3)] [] = f [2 * u] [] / lam).
    { intros u. replace (2 * (u / lam ^ 3)) with (2 * u / lam ^ 3) by (field; lra). exact (Hf [2 * u] []). }
    rewrite !F1. field. lra.
Qed.

Lemma energies_scale lib vg xt A lam c pos ch G G' kpts occ sp B n1 n2 n3 : let ns := [n1; n2; n3] in let K := length kpts in let vol := volume A in
  0 < lam -> exchange_like lib xt lam -> m3det A <> 0 -> g_vectors A ns = Ok G -> g_vectors (m3scale lam A) ns = Ok G' ->
  (sp = 1 \/ sp = 2)%nat -> length ch = length pos -> tshape c = [sp; K; B] ++ ns -> tshape occ = [sp; K; B] ->
  exists D t h x, density_grid_reciprocal c vol (Some occ) = Ok D /\
    total_energy_split (xc_density lib vg) c pos ch G kpts vol (Some occ) false xt = Ok (t, attraction ns G D pos ch (/ 10 ^ 10), h, x) /\
    total_energy_split (xc_density lib vg) c (map (vscale lam) pos) ch G' (map (vscale (/ lam)) kpts) (volume (m3scale lam A)) (Some occ) false xt =
      Ok (t / lam ^ 2, attraction ns G D pos ch (lam ^ 2 / 10 ^ 10) / lam, h / lam, x / lam).
Proof.
  intros ns K vol H HL HA HG HG' Hs Hp Sc So. destruct (g_vectors_dual A n1 n2 n3 G HA HG) as (SG & _). fold ns in SG.
  assert (EG : G' = tmap (vscale (/ lam)) G). { pose proof (g_scale lam A ns H HA) as E. rewrite HG, HG' in E. cbn [rmap] in E. injection E as ->. reflexivity. }
  assert (SG' : tshape G' = ns) by (rewrite EG; exact SG).
  assert (Hn : Forall (fun n => (0 < n)%nat) ns) by (destruct (proj1 (g_vectors_ok A n1 n2 n3) (ex_intro _ G HG)) as (? & ? & ?); repeat constructor; lia).
  assert (HN : 0 < INR (nprod ns)) by (apply lt_0_INR, nprod_pos, Hn).
  assert (Hv : 0 < vol) by (apply Rabs_pos_lt; exact HA). assert (P3 : 0 < lam ^ 3) by (apply pow_lt; exact H).
  rewrite volume_scale by exact H. fold vol. set (vol' := lam ^ 3 * vol). assert (Hv' : 0 < vol') by (unfold vol'; nra).
  assert (Lk : length (map (vscale (/ lam)) kpts) = K) by apply map_length.
  assert (Lp : length ch = length (map (vscale lam) pos)) by (rewrite map_length; exact Hp).
  unfold total_energy_split, density_grid_reciprocal.
  destruct (wave_grid_eq c vol [sp; K; B] ns eq_refl Sc) as (w & Ew & _). destruct (wave_grid_eq c vol' [sp; K; B] ns eq_refl Sc) as (w' & Ew' & _). rewrite Ew, Ew'. cbn [bind].
  destruct (density_eq c vol occ sp K B n1 n2 n3 Sc So) as (d0 & E0 & S0 & G0). destruct (density_eq c vol' occ sp K B n1 n2 n3 Sc So) as (d0' & E0' & S0' & G0').
  destruct (wave_to_density_eq c vol occ sp K B n1 n2 n3 w d0 Sc So Ew E0) as (d & Ed & Eq). destruct (wave_to_density_eq c vol' occ sp K B n1 n2 n3 w' d0' Sc So Ew' E0') as (d' & Ed' & Eq').
  unfold wave_to_density_reciprocal. rewrite Ed, Ed', E0. cbn [bind]. fold ns in S0, S0', G0, G0'.
  assert (Sd : tshape d = sp :: ns) by (rewrite (proj1 Eq); exact S0). assert (Sd' : tshape d' = sp :: ns) by (rewrite (proj1 Eq'); exact S0').
  assert (Gd : forall s x, (s < sp)%nat -> inb x ns -> tget d (s :: x) = tget d0 (s :: x)).
  { intros s x Hx Hi. apply (proj2 Eq). rewrite Sd. constructor; [exact Hx|exact Hi]. }
  assert (Gd' : forall s x, (s < sp)%nat -> inb x ns -> tget d' (s :: x) = tget d (s :: x) / lam ^ 3).
  { intros s x Hx Hi. rewrite Gd by assumption. rewrite (proj2 Eq') by (rewrite Sd'; constructor; [exact Hx|exact Hi]). rewrite G0, G0' by assumption.
    unfold Rdiv. rewrite <- sumR_scal_r. apply sumR_ext. intros k _. rewrite <- sumR_scal_r. apply sumR_ext. intros b _. unfold vol'. rewrite psi_scale by assumption. unfold Rdiv. ring. }
  destruct (fftn3_eq (tmap RtoC d0) [sp] ns eq_refl S0) as (D0 & ED0 & SD0 & GD0). rewrite ED0. cbn [bind].
  destruct (fftn3_eq (tmap RtoC d) [sp] ns eq_refl Sd) as (D & -> & SD & GD). cbn [bind].
  destruct (fftn3_eq (tmap RtoC d') [sp] ns eq_refl Sd') as (D' & -> & SD' & GD'). cbn [bind].
  assert (XD0 : forall x, spin_sum D x = spin_sum D0 x).
  { intros x. unfold spin_sum. rewrite SD, SD0. cbn [hd app]. apply sumC_ext. intros s Hs'. apply in_seq in Hs'.
    change (s :: x) with ([s] ++ x). rewrite GD, GD0 by reflexivity. apply dft_ext. intros y Hy. cbn [tmap tget app]. rewrite Gd by (lia || exact Hy). reflexivity. }
  assert (XD : forall x, spin_sum D' x = (RtoC (/ lam ^ 3) * spin_sum D0 x)%C).
  { intros x. rewrite <- XD0. unfold spin_sum. rewrite SD, SD'. cbn [hd app]. rewrite <- sumC_scal. apply sumC_ext. intros s Hs'. apply in_seq in Hs'.
    change (s :: x) with ([s] ++ x). rewrite GD, GD' by reflexivity. rewrite <- dft_scal. apply dft_ext. intros y Hy. cbn [tmap tget app]. rewrite Gd' by (lia || exact Hy).
    rewrite <- RtoC_mult. f_equal. unfold Rdiv. ring. }
  destruct (kinetic_some G kpts c occ sp B n1 n2 n3 SG Sc So) as (t & -> & _ & Gt).
  destruct (kinetic_some G' (map (vscale (/ lam)) kpts) c occ sp B n1 n2 n3 SG') as (t' & -> & _ & Gt'); [rewrite Lk; exact Sc|rewrite Lk; exact So|]. cbn [bind].
  rewrite (e_external_eq D pos ch G vol sp n1 n2 n3 SD SG Hp ltac:(lra) HN), (e_external_eq D' (map (vscale lam) pos) ch G' vol' sp n1 n2 n3 SD' SG' Lp ltac:(lra) HN). cbn [bind].
  assert (HA' : m3det (m3scale lam A) <> 0) by (rewrite m3det_scale; apply Rmult_integral_contrapositive_currified; [lra|exact HA]).
  rewrite (e_hartree_eq D G vol false sp n1 n2 n3 SD SG (fun x => g_nonzero A n1 n2 n3 G x HA HG)), (e_hartree_eq D' G' vol' false sp n1 n2 n3 SD' SG' (fun x => g_nonzero _ n1 n2 n3 G' x HA' HG')). cbn [bind].
  assert (HP : forall t, In t (split_on "+" xt) -> pick lib t (sp =? 2)%nat <> None).
  { intros t0 Ht. unfold pick. destruct (HL t0 ((sp =? 2)%nat && negb (is_exchange t0)) Ht) as (f & -> & _). discriminate. }
  rewrite (e_xc_point lib vg xt d G vol sp n1 n2 n3 Hs Sd SG HP), (e_xc_point lib vg xt d' G' vol' sp n1 n2 n3 Hs Sd' SG' HP). cbn [bind]. fold ns.
  exists D0. do 3 eexists. split; [reflexivity|]. split.
  - rewrite attraction_alt. repeat f_equal.
    apply functional_extensionality. intros x. rewrite XD0. reflexivity.
  - rewrite Gt, Gt'. f_equal. f_equal; [f_equal; [f_equal|]|].
    + rewrite Lk. fold K.
      match goal with |- ?l / 2 = ?r / 2 / _ => assert (Z : l = r / lam ^ 2) end; [|rewrite Z; field; lra].
      unfold Rdiv. rewrite <- sumR_scal_r. apply sumR_ext. intros s _. rewrite <- sumR_scal_r. apply sumR_ext. intros k _. rewrite <- sumR_scal_r. apply sumR_ext. intros b _.
      assert (Z : ekin G' (map (vscale (/ lam)) kpts) c ns s k b = ekin G kpts c ns s k b / lam ^ 2).
      { unfold ekin, Rdiv. rewrite <- sumR_scal_r. apply sumR_ext. intros g _. rewrite EG, nth_vscale. cbn [tmap tget].
        replace (vadd (vscale (/ lam) (tget G g)) (vscale (/ lam) (nth k kpts vzero))) with (vscale (/ lam) (vadd (tget G g) (nth k kpts vzero))) by (lin3; ring).
        rewrite norm2_scale. field. lra. }
      change [n1; n2; n3] with ns. rewrite Z. unfold Rdiv. ring.
    + rewrite attraction_alt, !Re_sumC. unfold Rdiv. rewrite !Rmult_assoc. f_equal. f_equal. rewrite <- sumR_scal_r. apply sumR_ext. intros x Hx. rewrite EG. cbn [tmap tget].
      destruct (is_origin x) eqn:Ox; [unfold Re, RtoC; cbn; ring|]. rewrite sf_scale, XD, norm2_scale by lra.
      assert (N0 : 0 < norm2 (tget G x)). { apply in_indices in Hx. pose proof (g_nonzero A n1 n2 n3 G x HA HG Hx Ox). pose proof (norm2_nonneg (tget G x)). lra. }
      pose proof (pow_lt 10 10 ltac:(lra)) as P10. assert (Pd : 0 < / 10 ^ 10) by (apply Rinv_0_lt_compat; exact P10). set (dl := / 10 ^ 10) in *.
      assert (E : / lam ^ 3 * / (/ lam * / lam * norm2 (tget G x) + dl) = / (norm2 (tget G x) + lam ^ 2 * dl) * / lam).
      { assert (Q : / lam * / lam * norm2 (tget G x) + dl = / lam ^ 2 * (norm2 (tget G x) + lam ^ 2 * dl)) by (field; lra). rewrite Q.
        assert (0 < norm2 (tget G x) + lam ^ 2 * dl). { pose proof (pow_lt lam 2 H). nra. } field. split; lra. }
      set (a := Cconj _). set (b := spin_sum D0 x).
      replace (a * (RtoC (/ lam ^ 3) * b) * RtoC (/ (/ lam * / lam * norm2 (tget G x) + dl)))%C with (a * b * RtoC (/ lam ^ 3 * / (/ lam * / lam * norm2 (tget G x) + dl)))%C by (rewrite RtoC_mult; ring).
      rewrite E. destruct (a * b)%C as [u1 u2]. unfold Re, Cmult, RtoC. cbn [fst snd]. ring.
    + rewrite !coulomb_sum_alt.
      assert (Z : sumR (indices ns) (fun x => if is_origin x then 0 else Cnorm2 (spin_sum D' x) / norm2 (tget G' x)) = sumR (indices ns) (fun x => if is_origin x then 0 else Cnorm2 (spin_sum D x) / norm2 (tget G x)) / lam ^ 4).
      { unfold Rdiv. rewrite <- sumR_scal_r. apply sumR_ext. intros x Hx. destruct (is_origin x) eqn:Ox; [ring|]. rewrite EG. cbn [tmap tget]. rewrite XD, XD0, Cnorm2_real_scal, norm2_scale.
        apply in_indices in Hx. pose proof (g_nonzero A n1 n2 n3 G x HA HG Hx Ox). field. split; [lra|assumption]. }
      change [n1; n2; n3] with ns. rewrite Z. unfold vol'. field. split; lra.
    + assert (Z : sumR (indices ns) (fun x => point_xc lib (split_on "+" xt) (contains "gga" xt) (sp =? 2)%nat (dens_at sp d' x) (if contains "gga" xt then sig_at ns G' sp d' x else []) * sumR (seq 0 sp) (fun s => tget d' (s :: x)))
        = sumR (indices ns) (fun x => point_xc lib (split_on "+" xt) (contains "gga" xt) (sp =? 2)%nat (dens_at sp d x) (if contains "gga" xt then sig_at ns G sp d x else []) * sumR (seq 0 sp) (fun s => tget d (s :: x))) / lam ^ 4).
      { unfold Rdiv. rewrite <- sumR_scal_r. apply sumR_ext. intros x Hx. apply in_indices in Hx.
        rewrite (sumR_ext (seq 0 sp) (fun s => tget d' (s :: x)) (fun s => tget d (s :: x) * / lam ^ 3)) by (intros s Hs'; apply in_seq in Hs'; apply Gd'; [lia|exact Hx]).
        rewrite sumR_scal_r.
        assert (V : dens_at sp d' x = map (fun r => r / lam ^ 3) (dens_at sp d x)).
        { unfold dens_at. rewrite map_map. apply map_ext_in. intros s Hs'. apply in_seq in Hs'. apply Gd'; [lia|exact Hx]. }
        assert (W : forall i j, (i < sp)%nat -> (j < sp)%nat -> gprod ns G' (fun y => tget d' (i :: y)) (fun y => tget d' (j :: y)) x = gprod ns G (fun y => tget d (i :: y)) (fun y => tget d (j :: y)) x / lam ^ 8).
        { intros i j Hi Hj. rewrite <- gprod_scale by exact H. rewrite EG. unfold gprod. f_equal. apply sumC_ext. intros a _.
          assert (Q : forall i, (i < sp)%nat -> gradc ns (tmap (vscale (/ lam)) G) (fun y => tget d' (i :: y)) a x = gradc ns (tmap (vscale (/ lam)) G) (fun y => tget d (i :: y) / lam ^ 3) a x).
          { intros i' Hi'. unfold gradc, grad_component. apply idft_ext. intros g _. rewrite (dft_ext ns _ (fun y => RtoC (tget d (i' :: y) / lam ^ 3))); [reflexivity|]. intros y Hy. rewrite Gd' by assumption. reflexivity. }
          rewrite !Q by assumption. reflexivity. }
        assert (U : (if contains "gga" xt then sig_at ns G' sp d' x else []) = map (fun r => r / lam ^ 8) (if contains "gga" xt then sig_at ns G sp d x else [])).
        { destruct (contains "gga" xt); [|reflexivity]. unfold sig_at. destruct Hs as [-> | ->]; cbn [Nat.eqb map]; rewrite !W by lia; reflexivity. }
        rewrite V, U, point_scale; [field; lra|exact H|exact HL|..].
        - intros E. apply Nat.eqb_eq in E. unfold dens_at. rewrite map_length, seq_length. exact E.
        - intros E1 E2. rewrite E1. unfold sig_at. rewrite E2. reflexivity.
        - intros E1. rewrite E1. reflexivity. }
      change [n1; n2; n3] with ns. rewrite Z. unfold vol'. field. split; lra.
Qed.
