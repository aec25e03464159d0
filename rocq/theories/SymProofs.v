(** Symmetries of potentials and of the total energy. *)
From Coq Require Import List Arith ZArith Reals Bool Lra Lia ZifyBool Permutation String.
From Coquelicot Require Import Complex.
From Verif Require Import Base Sums Tensor DFT GridModel GridProofs Lin3 VecModel VecProofs OccModel OccSpec OccProofs PwModel PwSpec PwProofs BraketModel BraketSpec BraketProofs EnergyModel EnergySpec EnergyProofs ExtProofs TotalProofs.
From Coq Require Import List.
Import ListNotations.
Local Open Scope C_scope.

(** ** C82: reality on odd grids *)
Lemma fr_neg n i : Nat.odd n = true -> (i < n)%nat -> fr n ((n - i) mod n) = (- fr n i)%R.
Proof.
  intros Ho Hi. apply Nat.odd_spec in Ho. destruct Ho as [m ->]. unfold fr. rewrite <- opp_IZR. f_equal.
  destruct (Nat.eq_dec i 0) as [->|Hne].
  - rewrite Nat.sub_0_r, Nat.mod_same by lia. unfold fftfreq. destruct (_ <=? _)%Z eqn:E; lia.
  - rewrite Nat.mod_small by lia. unfold fftfreq. pose proof (Z.div_mod (Z.of_nat (2 * m + 1) - 1) 2 ltac:(lia)).
    destruct (Z.of_nat (2 * m + 1 - i) <=? _)%Z eqn:E1; destruct (Z.of_nat i <=? _)%Z eqn:E2; lia.
Qed.

Lemma g_neg A n1 n2 n3 G x : g_vectors A [n1; n2; n3] = Ok G -> Nat.odd n1 = true -> Nat.odd n2 = true -> Nat.odd n3 = true ->
  inb x [n1; n2; n3] -> tget G (neg_index [n1; n2; n3] x) = vneg (tget G x).
Proof.
  intros HG H1 H2 H3 Hx. unfold g_vectors in HG. destruct (vector_grid_get _ _ _ _ _ _ HG) as [_ Hv].
  destruct (inb3 _ _ _ _ Hx) as (i & j & k & -> & Hi & Hj & Hk). cbn [neg_index combine map fst snd]. rewrite !Hv. cbn [coef].
  rewrite !fr_neg by assumption. lin3; ring.
Qed.
Lemma norm2_neg v : norm2 (vneg v) = norm2 v.
Proof. unfold norm2. lin3; ring. Qed.
Lemma origin_neg ns x : inb x ns -> is_origin (neg_index ns x) = is_origin x.
Proof.
  induction 1 as [|a n x ns Ha H IH]; [reflexivity|]. cbn [neg_index combine map fst snd].
  change (map (fun p : nat * nat => (fst p - snd p) mod fst p) (combine ns x))%nat with (neg_index ns x).
  assert (U : forall h t, is_origin (h :: t) = ((0 =? h)%nat && is_origin t)) by reflexivity. rewrite !U, IH. f_equal.
  destruct (Nat.eq_dec a 0) as [->|Hne]; [rewrite Nat.sub_0_r, Nat.mod_same by lia; reflexivity|].
  rewrite Nat.mod_small by lia. destruct (Nat.eqb_spec 0 (n - a)); destruct (Nat.eqb_spec 0 a); lia || reflexivity.
Qed.
Lemma sf_neg ch pos q : structure_factor ch pos (vneg q) = Cconj (structure_factor ch pos q).
Proof.
  unfold structure_factor. rewrite Cconj_sum. apply sumC_ext. intros [z p] _. cbn [fst snd].
  rewrite Cconj_mult, Cconj_R, cis_conj, dot_neg_l. reflexivity.
Qed.

Lemma external_real_odd A n1 n2 n3 G pos ch vol : let ns := [n1; n2; n3] in
  g_vectors A ns = Ok G -> Nat.odd n1 = true -> Nat.odd n2 = true -> Nat.odd n3 = true -> length ch = length pos ->
  exists v, external_real pos ch G vol = Ok v /\ tshape v = ns /\ real_valued v.
Proof.
  intros ns HG H1 H2 H3 Hl.
  assert (SG : tshape G = ns) by (unfold g_vectors in HG; apply (vector_grid_get _ _ _ _ _ _ HG)).
  destruct (external_eq pos ch G vol n1 n2 n3 SG Hl) as (u & Eu & Su & Gu).
  destruct (ifftn3_eq u [] ns eq_refl Su) as (v & Ev & Sv & Gv). exists v. unfold external_real. rewrite Eu. split; [exact Ev|]. split; [exact Sv|].
  intros x Hx. rewrite Sv in Hx. cbn [app] in Hx. rewrite (Gv [] x eq_refl : tget v x = _). apply idft_real; [exact Hx|].
  intros g Hg. cbn [app]. rewrite !Gu, (origin_neg ns g Hg). destruct (is_origin g); [rewrite Cconj_R; reflexivity|].
  pose proof (g_neg A n1 n2 n3 G g HG H1 H2 H3 Hg) as Hn. fold ns in Hn. rewrite Hn. unfold ext_coef. rewrite norm2_neg, sf_neg, Cconj_mult, Cconj_R. reflexivity.
Qed.

Lemma effective_real_odd xcd dens A pos ch G vol xt ks sp n1 n2 n3 vxc : let ns := [n1; n2; n3] in
  m3det A <> 0%R -> g_vectors A ns = Ok G -> Nat.odd n1 = true -> Nat.odd n2 = true -> Nat.odd n3 = true ->
  tshape dens = sp :: ns -> length ch = length pos -> xcd dens G ks xt = Ok vxc ->
  exists vh ve, effective_split xcd dens pos ch G vol xt ks = Ok (vh, ve, vxc) /\ real_valued vh /\ real_valued ve.
Proof.
  intros ns HA HG H1 H2 H3 Sd Hl Hx. destruct (g_vectors_dual A n1 n2 n3 G HA HG) as (SG & _).
  destruct (effective_parts xcd dens pos ch G vol xt ks sp n1 n2 n3 vxc Sd SG Hl Hx)
    as (D & vhr & ver & vh & ve & ED & Eh & Eih & Ee & Eie & Svh & Sve & SD & GD & Gh & Ge & E).
  exists vh, ve. split; [exact E|]. split.
  - intros x Hx'. rewrite Svh in Hx'. rewrite Gh. apply idft_real; [exact Hx'|]. intros g Hg.
    destruct (hartree_eq D G ks sp n1 n2 n3 SD SG (fun x => g_nonzero A n1 n2 n3 G x HA HG)) as (v & Ev & Sv & Gv). rewrite Eh in Ev. injection Ev as <-.
    fold ns in Gv. rewrite !Gv by (try apply neg_index_inb; exact Hg). fold ns. rewrite (origin_neg ns g Hg). destruct (is_origin g); [rewrite Cconj_R; reflexivity|].
    pose proof (g_neg A n1 n2 n3 G g HG H1 H2 H3 Hg) as Hn. fold ns in Hn. rewrite Hn, norm2_neg, Cconj_mult, Cconj_R. f_equal. unfold spin_sum. rewrite SD. cbn [hd].
    rewrite Cconj_sum. apply sumC_ext. intros s Hs. rewrite !GD. fold ns. apply dft_real_sym, Hg.
  - destruct (external_real_odd A n1 n2 n3 G pos ch vol HG H1 H2 H3 Hl) as (v & Ev & _ & Rv). unfold external_real in Ev. rewrite Ee in Ev. cbn [bind] in Ev.
    rewrite Eie in Ev. injection Ev as <-. exact Rv.
Qed.

Lemma recip_m3id_row x : vmul (V3 x 0 0) (reciprocal_vectors m3id) = V3 (2 * PI * x) 0 0.
Proof. rewrite recip_id. lin3; ring. Qed.
Lemma external_even_complex : exists A G v, m3det A <> 0%R /\ g_vectors A [2; 1; 1]%nat = Ok G /\
  external_real [V3 (1/4) 0 0] [1%R] G 1 = Ok v /\ ~ real_valued v.
Proof.
  destruct (proj2 (g_vectors_ok m3id 2 1 1) ltac:(lia)) as [G HG].
  destruct (vector_grid_get _ _ _ _ _ _ HG) as [SG Hv].
  destruct (external_eq [V3 (1/4) 0 0] [1%R] G 1 2 1 1 SG eq_refl) as (u & Eu & Su & Gu).
  destruct (ifftn3_eq u [] [2; 1; 1]%nat eq_refl Su) as (v & Ev & Sv & Gv).
  exists m3id, G, v. split; [rewrite m3det_id; lra|]. split; [exact HG|]. split; [unfold external_real; rewrite Eu; exact Ev|].
  intros R. assert (Hi : inb [0; 0; 0]%nat (tshape v)) by (rewrite Sv; repeat constructor).
  specialize (R _ Hi). rewrite (Gv [] [0; 0; 0]%nat eq_refl : tget v [0; 0; 0]%nat = _) in R. revert R.
  unfold idft. cbn [indices seq flat_map map app nprod sumC]. rewrite !Gu. cbn [is_origin forallb Nat.eqb andb].
  assert (EG : tget G [1; 0; 0]%nat = V3 (- (2 * PI)) 0 0).
  { rewrite Hv. cbn [coef]. unfold fr. replace (fftfreq (Z.of_nat 2) (Z.of_nat 1)) with (-1)%Z by reflexivity.
    replace (fftfreq (Z.of_nat 1) (Z.of_nat 0)) with 0%Z by reflexivity. change (IZR 0) with 0%R. rewrite recip_m3id_row. f_equal. ring. }
  rewrite EG. unfold structure_factor. cbn [combine sumC fst snd].
  replace (- dot (V3 (- (2 * PI)) 0 0) (V3 (1 / 4) 0 0))%R with (PI / 2)%R by (unfold dot; cbn; field).
  assert (E1 : cis (PI / 2) = Ci) by (unfold cis; rewrite cos_PI2, sin_PI2; reflexivity). rewrite E1.
  replace (phase [2; 1; 1]%nat (zs [1; 0; 0]%nat) (zs [0; 0; 0]%nat)) with 0%R by (cbn; field).
  replace (2 * PI * 0)%R with 0%R by ring. rewrite cis_0.
  set (w := ext_coef _ _ _). assert (Hw : w <> 0%R).
  { unfold w, ext_coef. pose proof PI_RGT_0. assert (He : (0 < / 10 ^ 10)%R) by (apply Rinv_0_lt_compat, pow_lt; lra).
    pose proof (norm2_ge0 (V3 (- (2 * PI)) 0 0)). generalize dependent (/ 10 ^ 10)%R. intros e He. apply Rmult_integral_contrapositive. split.
    - intros Q. simpl INR in Q. lra.
    - apply Rinv_neq_0_compat. lra. }
  clearbody w. clear - Hw. unfold Im, Cmult, Cplus, RtoC, Ci. cbn [fst snd]. intros Q. apply Hw. simpl in Q. lra.
Qed.
