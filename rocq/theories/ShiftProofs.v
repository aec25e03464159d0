(** Translation invariance of the total energy. *)
From Coq Require Import List Arith ZArith Reals Bool Lra Lia ZifyBool Permutation String.
From Coquelicot Require Import Complex.
From Verif Require Import Base Sums Tensor DFT GridModel GridProofs PadModel PadProofs Lin3 VecModel VecProofs OccModel OccSpec OccProofs PwModel PwSpec PwProofs BraketModel BraketSpec BraketProofs EnergyModel EnergySpec EnergyProofs ExtProofs TotalProofs RespProofs.
From Coq Require Import List.
Import ListNotations.
Local Open Scope C_scope.

Lemma shift_inj ns t x y : inb x ns -> inb y ns -> length t = length ns -> shift_index ns x t = shift_index ns y t -> x = y.
Proof.
  intros Hx. revert t y. induction Hx as [|a n x ns Ha Hx IH]; intros t y Hy Hl E; [inversion Hy; reflexivity|].
  inversion Hy as [|b ? y' ? Hb Hy']; subst. destruct t as [|z t]; [discriminate|]. cbn [shift_index combine map fst snd] in E. injection E as E1 E2.
  f_equal; [|apply (IH t y' Hy'); [injection Hl; auto|exact E2]].
  assert (E3 : ((Z.of_nat a - z) mod Z.of_nat n = (Z.of_nat b - z) mod Z.of_nat n)%Z).
  { pose proof (Z.mod_pos_bound (Z.of_nat a - z) (Z.of_nat n) ltac:(lia)). pose proof (Z.mod_pos_bound (Z.of_nat b - z) (Z.of_nat n) ltac:(lia)). lia. }
  pose proof (Z.div_mod (Z.of_nat a - z) (Z.of_nat n) ltac:(lia)) as D1. pose proof (Z.div_mod (Z.of_nat b - z) (Z.of_nat n) ltac:(lia)) as D2.
  rewrite E3 in D1. set (qa := ((Z.of_nat a - z) / Z.of_nat n)%Z) in *. set (qb := ((Z.of_nat b - z) / Z.of_nat n)%Z) in *.
  assert (Z.of_nat a - Z.of_nat b = Z.of_nat n * (qa - qb))%Z by lia. assert (qa - qb = 0)%Z by nia. nia.
Qed.

Lemma sumC_shift ns t F : length t = length ns -> sumC (indices ns) (fun x => F (shift_index ns x t)) = sumC (indices ns) F.
Proof.
  intros Hl. apply sumC_reindex.
  - apply NoDup_indices.
  - intros x Hx. apply in_indices in Hx. apply in_indices. apply (congr_shift ns x t Hx Hl).
  - intros x y Hx Hy. apply in_indices in Hx, Hy. apply shift_inj; assumption.
Qed.

Lemma dft_shift ns t f g : length t = length ns -> inb g ns ->
  dft ns (fun x => f (shift_index ns x t)) g = cis (- (2 * PI * phase ns (zs g) t)) * dft ns f g.
Proof.
  intros Hl Hg. unfold dft. rewrite <- (sumC_shift ns t (fun y => f y * cis (- (2 * PI * phase ns (zs g) (zs y)))) Hl), <- sumC_scal.
  apply sumC_ext. intros x Hx. apply in_indices in Hx. destruct (congr_shift ns x t Hx Hl) as [Hc Hin].
  replace (cis (- (2 * PI * phase ns (zs g) (zs (shift_index ns x t))))) with (cis (- (2 * PI * phase ns (zs g) (zs x))) * cis (2 * PI * phase ns (zs g) t)).
  - replace (cis (- (2 * PI * phase ns (zs g) t)) * (f (shift_index ns x t) * (cis (- (2 * PI * phase ns (zs g) (zs x))) * cis (2 * PI * phase ns (zs g) t))))
      with (cis (- (2 * PI * phase ns (zs g) t)) * cis (2 * PI * phase ns (zs g) t) * (f (shift_index ns x t) * cis (- (2 * PI * phase ns (zs g) (zs x))))) by ring.
    rewrite cis_inv. ring.
  - rewrite <- cis_plus.
    transitivity (Cconj (cis (2 * PI * phase ns (zs (shift_index ns x t)) (zs g)))).
    + rewrite (cis_phase_congr ns _ _ (zs g) (inb_pos _ _ Hx) Hc) by (rewrite zs_length; apply (inb_length _ _ Hg)).
      rewrite cis_conj, phase_sub_l by (rewrite zs_length, Hl; apply (inb_length _ _ Hx)). f_equal.
      rewrite (phase_comm ns (zs g) t), (phase_comm ns (zs g) (zs x)). ring.
    + rewrite cis_conj, phase_comm. reflexivity.
Qed.

Lemma g_step A n1 n2 n3 G x t1 t2 t3 : m3det A <> 0%R -> g_vectors A [n1; n2; n3] = Ok G -> inb x [n1; n2; n3] ->
  cis (- dot (tget G x) (grid_step A n1 n2 n3 t1 t2 t3)) = cis (- (2 * PI * phase [n1; n2; n3] (zs x) [t1; t2; t3])).
Proof.
  intros HA HG Hx. destruct (g_vectors_dual A n1 n2 n3 G HA HG) as (_ & _ & _ & Hd).
  assert (Hp : Forall (fun n => (0 < n)%nat) [n1; n2; n3]) by apply (inb_pos _ _ Hx).
  assert (Hc : congr [n1; n2; n3] (zs x) (freqs [n1; n2; n3] x)).
  { destruct (inb3 _ _ _ _ Hx) as (i & j & k & -> & Hi & Hj & Hk). cbn.
    assert (F : forall n i, (i < n)%nat -> exists q, (Z.of_nat i = fftfreq (Z.of_nat n) (Z.of_nat i) + q * Z.of_nat n)%Z).
    { intros n i0 Hi0. destruct (fftfreq_congr n i0 ltac:(lia) Hi0) as (q & E). exists (- q)%Z. lia. }
    repeat split; auto. }
  rewrite <- !cis_conj. f_equal. rewrite (cis_phase_congr [n1; n2; n3] _ _ [t1; t2; t3] Hp Hc eq_refl). f_equal.
  destruct (inb3 _ _ _ _ Hx) as (i & j & k & -> & Hi & Hj & Hk). destruct (Hd i j k Hi Hj Hk) as (D0 & D1 & D2).
  unfold grid_step. rewrite !dot_add_r, !dot_scale_r, D0, D1, D2. cbn [freqs combine map fst snd phase].
  rewrite !mult_IZR. pose proof (INR_pos n1 ltac:(lia)). pose proof (INR_pos n2 ltac:(lia)). pose proof (INR_pos n3 ltac:(lia)). field. lra.
Qed.

Lemma tsum_all_4 (p : tensor C) sp ns : tshape p = sp :: ns -> tsum_all p = sumC (seq 0 sp) (fun s => sumC (indices ns) (fun x => tget p (s :: x))).
Proof. intros S. unfold tsum_all. rewrite S, sumC_indices_cons. reflexivity. Qed.

Lemma tzip_trail (f : C -> C -> C) (a : tensor C) (b : tensor C) sp n1 n2 n3 : let ns := [n1; n2; n3] in tshape a = ns -> tshape b = sp :: ns ->
  exists t, tzip f a b = Ok t /\ tshape t = sp :: ns /\ forall s x, (s < sp)%nat -> inb x ns -> tget t (s :: x) = f (tget a x) (tget b (s :: x)).
Proof.
  intros ns Ha Hb. unfold tzip. rewrite Ha, Hb. change (sp :: ns) with ([sp] ++ ns). rewrite bshape_suffix2. eexists. split; [reflexivity|]. split; [reflexivity|].
  intros s x Hs Hx. cbn [tget]. rewrite (bidx_inb ([sp] ++ ns)) by (constructor; assumption). change (s :: x) with ([s] ++ x) at 1. rewrite bidx_suffix by exact Hx. reflexivity.
Qed.

Lemma e_xc_shift xcd d d' G vol xt ks sp n1 n2 n3 t : let ns := [n1; n2; n3] in xc_translates xcd ks xt ->
  length t = 3%nat -> tshape G = ns -> tshape d = sp :: ns -> tshape d' = sp :: ns ->
  (forall s x, (s < sp)%nat -> inb x ns -> tget d' (s :: x) = tget d (s :: shift_index ns x t)) ->
  e_xc xcd d' G vol xt ks = e_xc xcd d G vol xt ks.
Proof.
  intros ns Hx Hl SG Sd Sd' Hd. specialize (Hx n1 n2 n3 sp t d d' G Hl SG Sd Sd' Hd). fold ns in Hx.
  unfold e_xc, ndim. rewrite Sd, Sd'. cbn [length ns Nat.eqb negb].
  rewrite (grid3_app d [sp] ns eq_refl Sd), (grid3_app d' [sp] ns eq_refl Sd').
  destruct (xcd d G ks xt) as [e|a]; destruct (xcd d' G ks xt) as [e'|b]; try contradiction; [|subst; reflexivity]. cbn [bind].
  destruct Hx as [Se Hx].
  assert (X : exists p p', tzip Cmult e (tmap RtoC d) = Ok p /\ tzip Cmult e' (tmap RtoC d') = Ok p' /\ tsum_all p' = tsum_all p).
  { destruct Hx as [[S1 Hx]|[S1 Hx]].
    - destruct (tzip_trail Cmult e (tmap RtoC d) sp n1 n2 n3 S1 Sd) as (p & Ep & Sp & Gp). assert (S1' : tshape e' = ns) by congruence.
      destruct (tzip_trail Cmult e' (tmap RtoC d') sp n1 n2 n3 S1' Sd') as (p' & Ep' & Sp' & Gp').
      exists p, p'. repeat split; auto. rewrite (tsum_all_4 p sp ns Sp), (tsum_all_4 p' sp ns Sp'). apply sumC_ext. intros s Hs. apply in_seq in Hs.
      rewrite <- (sumC_shift ns t (fun x => tget p (s :: x)) Hl). apply sumC_ext. intros x Hx'. apply in_indices in Hx'.
      destruct (congr_shift ns x t Hx' Hl) as [_ Hin]. fold ns in Gp, Gp'. rewrite Gp, Gp' by (auto; lia). cbn [tmap tget]. rewrite Hx, Hd by (auto; lia). reflexivity.
    - destruct (tzip_same Cmult e (tmap RtoC d)) as (p & Ep & Sp & Gp); [cbn; congruence|].
      destruct (tzip_same Cmult e' (tmap RtoC d')) as (p' & Ep' & Sp' & Gp'); [cbn; congruence|].
      exists p, p'. repeat split; auto. rewrite (tsum_all_4 p sp ns), (tsum_all_4 p' sp ns) by congruence. apply sumC_ext. intros s Hs. apply in_seq in Hs.
      rewrite <- (sumC_shift ns t (fun x => tget p (s :: x)) Hl). apply sumC_ext. intros x Hx'. apply in_indices in Hx'.
      destruct (congr_shift ns x t Hx' Hl) as [_ Hin].
      rewrite Gp by (rewrite S1; constructor; [lia|exact Hin]). rewrite Gp' by (rewrite <- Se, S1; constructor; [lia|exact Hx']).
      cbn [tmap tget]. rewrite Hx, Hd by (auto; lia). reflexivity. }
  destruct X as (p & p' & -> & -> & E). cbn [bind]. rewrite E. reflexivity.
Qed.

Lemma total_shift xcd A c c' pos ch G kpts vol occ ks xt sp B n1 n2 n3 t1 t2 t3 : let ns := [n1; n2; n3] in let K := length kpts in
  xc_translates xcd ks xt -> m3det A <> 0%R -> (0 < vol)%R -> g_vectors A ns = Ok G -> length ch = length pos ->
  tshape c = [sp; K; B] ++ ns -> tshape c' = [sp; K; B] ++ ns -> tshape occ = [sp; K; B] ->
  (forall b g, inb b [sp; K; B] -> inb g ns -> tget c' (b ++ g) = tget c (b ++ g) * cis (- dot (tget G g) (grid_step A n1 n2 n3 t1 t2 t3))) ->
  total_energy_split xcd c' (map (fun p => vadd p (grid_step A n1 n2 n3 t1 t2 t3)) pos) ch G kpts vol (Some occ) ks xt =
  total_energy_split xcd c pos ch G kpts vol (Some occ) ks xt.
Proof.
  intros ns K Hx HA Hv HG Hch Sc Sc' So Hcc. set (tau := grid_step A n1 n2 n3 t1 t2 t3) in *. set (t := [t1; t2; t3]).
  destruct (g_vectors_dual A n1 n2 n3 G HA HG) as (SG & _).
  assert (Hnz := fun x => g_nonzero A n1 n2 n3 G x HA HG).
  assert (Hstep : forall g, inb g ns -> cis (- dot (tget G g) tau) = cis (- (2 * PI * phase ns (zs g) t))) by (intros g Hg; apply g_step; assumption).
  assert (Hcc' : forall b g, inb b [sp; K; B] -> inb g ns -> tget c' (b ++ g) = tget c (b ++ g) * cis (- (2 * PI * phase ns (zs g) t))%R)
    by (intros b g Hb Hg; rewrite Hcc, Hstep by assumption; reflexivity).
  destruct (density_eq c vol occ sp K B n1 n2 n3 Sc So) as (d & Ed & Sd & _).
  destruct (density_shift c c' vol occ sp K B n1 n2 n3 t d Sc Sc' So eq_refl Hcc' Ed) as (d' & Ed' & Sd' & Gd'). fold ns in Gd', Sd. rewrite Sd in Sd'.
  destruct (wave_grid_eq c vol [sp; K; B] ns eq_refl Sc) as (w & Ew & _ & _). destruct (wave_grid_eq c' vol [sp; K; B] ns eq_refl Sc') as (w' & Ew' & _ & _).
  unfold total_energy_split. rewrite Ew, Ew'. cbn [bind].
  destruct (wave_to_density_eq c vol occ sp K B n1 n2 n3 w d Sc So Ew Ed) as (e & Ee & Te).
  destruct (wave_to_density_eq c' vol occ sp K B n1 n2 n3 w' d' Sc' So Ew' Ed') as (e' & Ee' & Te').
  unfold wave_to_density_reciprocal. rewrite Ee, Ee'. cbn [bind].
  assert (Se : tshape e = sp :: ns) by (rewrite (proj1 Te); exact Sd). assert (Se' : tshape e' = sp :: ns) by (rewrite (proj1 Te'); exact Sd').
  assert (Ge : forall s x, (s < sp)%nat -> inb x ns -> tget e' (s :: x) = tget e (s :: shift_index ns x t)).
  { intros s x Hs Hx'. destruct (Gd' s x Hs Hx') as [Hin E1]. rewrite (proj2 Te') by (rewrite Se'; constructor; assumption).
    rewrite (proj2 Te) by (rewrite Se; constructor; assumption). exact E1. }
  destruct (fftn3_eq (tmap RtoC e) [sp] ns eq_refl Se) as (D & ED & SD & GD). destruct (fftn3_eq (tmap RtoC e') [sp] ns eq_refl Se') as (D' & ED' & SD' & GD').
  rewrite ED, ED'. cbn [bind].
  assert (HD : forall s g, (s < sp)%nat -> inb g ns -> tget D' (s :: g) = tget D (s :: g) * cis (- dot (tget G g) tau)).
  { intros s g Hs Hg. rewrite Hstep by exact Hg. change (s :: g) with ([s] ++ g). rewrite GD, GD' by reflexivity.
    rewrite Cmult_comm, <- (dft_shift ns t _ g eq_refl Hg). apply dft_ext. intros x Hx'. cbn [tmap tget app]. rewrite Ge by assumption. reflexivity. }
  destruct (kinetic_some G kpts c occ sp B n1 n2 n3 SG Sc So) as (k & Ek & Sk & Vk).
  destruct (kinetic_some G kpts c' occ sp B n1 n2 n3 SG Sc' So) as (k' & Ek' & Sk' & Vk'). rewrite Ek, Ek'. cbn [bind].
  assert (EV : tget k' [] = tget k []).
  { rewrite Vk, Vk'. f_equal. apply sumR_ext. intros s Hs. apply sumR_ext. intros q Hq. apply sumR_ext. intros b Hb. apply in_seq in Hs, Hq, Hb. f_equal.
    unfold ekin. apply sumR_ext. intros g Hg. apply in_indices in Hg. f_equal. rewrite Hcc by (try exact Hg; repeat constructor; unfold K; lia).
    rewrite Cnorm2_mult, cis_norm. ring. }
  rewrite EV. destruct (e_external_shift A n1 n2 n3 G pos ch tau D D' sp vol HA HG Hch ltac:(lra) SD SD' HD) as (x1 & -> & ->). cbn [bind].
  rewrite (e_hartree_eq D' G vol ks sp n1 n2 n3 SD' SG Hnz), (e_hartree_eq D G vol ks sp n1 n2 n3 SD SG Hnz). cbn [bind].
  assert (Ec : coulomb_sum [n1; n2; n3] G D' = coulomb_sum [n1; n2; n3] G D).
  { rewrite !coulomb_sum_alt. apply sumR_ext. intros g Hg. apply in_indices in Hg. destruct (is_origin g); [reflexivity|]. f_equal.
    replace (spin_sum D' g) with (spin_sum D g * cis (- dot (tget G g) tau)); [rewrite Cnorm2_mult, cis_norm; ring|].
    unfold spin_sum. rewrite SD, SD'. cbn [app hd]. rewrite <- sumC_scal_r. apply sumC_ext. intros s Hs. apply in_seq in Hs. symmetry. apply HD; [lia|exact Hg]. }
  rewrite Ec. rewrite (e_xc_shift xcd e e' G vol xt ks sp n1 n2 n3 t Hx eq_refl SG Se Se' Ge). reflexivity.
Qed.
