(** Plane waves as orbitals: the empty lattice and what calculations reach (C154). *)
From Coq Require Import Reals Lra Lia.
From Coquelicot Require Import Coquelicot.
From Coq Require Import Ascii String List Arith ZArith Bool.
From Verif Require Import Base Sums Tensor DFT GridModel PadModel Lin3 VecModel VecProofs OccModel OccSpec OccProofs PwModel PwSpec PwProofs BraketModel XcModel XcSpec EnergyModel EnergySpec EnergyProofs HamModel HamSpec HamProofs2 XcProofs XcProofs3 TotalProofs PadProofs DFT DerProofs ExtProofs
  CalcModel CalcSpec DrvModel DrvSpec DrvProofs2 DrvProofs3 DrvProofs4 DrvProofs6 CalcProofs3 BoundProofs2 ReachSpec ReachProofs2 ReachProofs3 IdemSpec IdemProofs2 AttProofs2 AttProofs5 FreeSpec FreeProofs.
Import ListNotations.
Local Open Scope R_scope.

(** The local Kohn-Sham potential of a uniform density. *)
Definition uniform_potential (lib : xclib) (ts : list string) (r : R) : R := Derive (local_particle lib ts) r * r + local_particle lib ts r.

Lemma uniform_effective lib vg xt A pos ch G vol dens r n1 n2 n3 : let ns := [n1; n2; n3] in let xcd := xc_density lib vg in
  contains "gga" xt = false -> (forall t b, In t (split_on "+" xt) -> lib t b <> None) -> m3det A <> 0 -> g_vectors A ns = Ok G -> length ch = length pos -> (forall z, In z ch -> z = 0) ->
  tshape dens = 1%nat :: ns -> (forall x, inb x ns -> tget dens (0%nat :: x) = r) ->
  exists v, effective_sum xcd dens pos ch G vol xt true = Ok v /\ tshape v = 1%nat :: ns /\ forall x, inb x ns -> tget v (0%nat :: x) = RtoC (uniform_potential lib (split_on "+" xt) r).
Proof.
  intros ns xcd Hg Hl HA HG Hp Hz Sd Gd. pose proof (proj1 (g_vectors_dual A n1 n2 n3 G HA HG)) as SG. fold ns in SG. set (ts := split_on "+" xt) in *.
  destruct (lda_known lib ts dens 1 ns (or_introl eq_refl) Sd Hl) as (e & E & Se).
  assert (X : exists vx : tensor R, xcd dens G true xt = Ok (tmap RtoC vx) /\ tshape vx = 1%nat :: ns /\ forall x, inb x ns -> tget vx (0%nat :: x) = uniform_potential lib ts r).
  { unfold xcd, xc_density. rewrite Hg. fold ts. rewrite E. cbn [bind rmap]. unfold vxc_lda. rewrite Sd. cbn [Nat.eqb orb rmap]. eexists. split; [reflexivity|]. split; [reflexivity|]. intros x Hx. cbn [tget tl hd]. unfold XcModel.column. rewrite Sd. cbn [hd seq map nth upd]. rewrite Gd by exact Hx. reflexivity. }
  destruct X as (vx & Ex & Sx & Gx). set (vxc := tmap RtoC vx) in *. assert (Sx' : tshape vxc = 1%nat :: ns) by exact Sx.
  destruct (effective_parts xcd dens pos ch G vol xt true 1 n1 n2 n3 vxc Sd SG Hp Ex) as (D & vhr & ver & vh & ve & ED & Eh & Eih & Ee & Eie & Svh & Sve & SD & GD & Gh & Ge & Es).
  destruct (effective_adds xcd dens pos ch G vol xt true 1 n1 n2 n3 vxc Sd SG Hp Ex (or_introl Sx')) as (h1 & h2 & v & Eu & _ & _ & Ev & Cases). rewrite Es in Eu. injection Eu as <- <-.
  destruct Cases as [(_ & Sv & Gv)|(S1 & _)]; [|exfalso; rewrite Sx' in S1; apply (f_equal (@length nat)) in S1; cbn in S1; lia].
  exists v. split; [exact Ev|]. split; [exact Sv|]. intros x Hx. fold ns in Gv. rewrite Gv by (try lia; exact Hx).
  assert (Zs : forall q, structure_factor ch pos q = RtoC 0).
  { intros q. unfold structure_factor. apply sumC_zero. intros (z & p) Hin. apply in_combine_l in Hin. cbn [fst]. rewrite (Hz z Hin). ring. }
  assert (Ze : tget ve x = RtoC 0).
  { rewrite Ge. destruct (external_eq pos ch G vol n1 n2 n3 SG Hp) as (u & Eu & _ & Gu). rewrite Ee in Eu. injection Eu as <-.
    unfold idft. rewrite sumC_zero; [ring|]. intros g _. rewrite Gu. destruct (is_origin g); [ring|]. rewrite Zs. ring. }
  assert (Zh : tget vh x = RtoC 0).
  { rewrite Gh. destruct (hartree_eq D G true 1 n1 n2 n3 SD SG (fun y Hy Oy => g_nonzero A n1 n2 n3 G y HA HG Hy Oy)) as (u & Eu & _ & Gu). rewrite Eh in Eu. injection Eu as <-.
    unfold idft. rewrite sumC_zero; [ring|]. intros g Hgi. apply in_indices in Hgi. rewrite Gu by exact Hgi. destruct (is_origin g) eqn:Og; [ring|]. unfold spin_sum. rewrite SD. cbn [hd seq sumC]. rewrite GD.
    rewrite (dft_ext _ _ (fun _ => RtoC r)) by (intros y Hy; rewrite Gd by exact Hy; reflexivity). fold ns. rewrite dft_const by assumption. ring. }
  rewrite Ze, Zh. unfold vxc. cbn [tmap tget]. rewrite Gx by exact Hx. ring.
Qed.

(** Without nuclear charges and with a uniform density the Hamiltonian in the plane-wave basis is
    diagonal, with the free-electron energies. *)
Lemma empty_lattice lib vg xt A mask pos ch G kpts vol dens r n1 n2 n3 : let ns := [n1; n2; n3] in let n := length (mask_positions mask) in
  contains "gga" xt = false -> (forall t b, In t (split_on "+" xt) -> lib t b <> None) -> m3det A <> 0 -> 0 < vol -> g_vectors A ns = Ok G -> length ch = length pos -> (forall z, In z ch -> z = 0) ->
  tshape mask = ns -> tshape dens = 1%nat :: ns -> (forall x, inb x ns -> tget dens (0%nat :: x) = r) ->
  exists M, hamiltonian_matrix_basis (xc_density lib vg) mask pos ch dens G kpts vol xt true = Ok M /\
    forall k i j, (k < length kpts)%nat -> (i < n)%nat -> (j < n)%nat ->
      tget M [k; i; j] = if (i =? j)%nat then RtoC (free_energy G kpts k (nth i (mask_positions mask) []) + uniform_potential lib (split_on "+" xt) r) else RtoC 0.
Proof.
  intros ns n Hg Hl HA Hv HG Hp Hz Sm Sd Gd. pose proof (proj1 (g_vectors_dual A n1 n2 n3 G HA HG)) as SG. fold ns in SG.
  destruct (uniform_effective lib vg xt A pos ch G vol dens r n1 n2 n3 Hg Hl HA HG Hp Hz Sd Gd) as (v & Ev & Sv & Gv). fold ns in Sv, Gv.
  destruct (basis_value (xc_density lib vg) mask pos ch dens G kpts vol xt true 1 n1 n2 n3 v Sm SG Ev Sv Hv) as (M & EM & _ & GM). exists M. split; [exact EM|]. intros k i j Hk Hi Hj.
  rewrite GM by assumption. unfold pw_element. cbn [seq sumC]. rewrite Cplus_0_r. fold ns. set (mu := uniform_potential lib (split_on "+" xt) r) in *.
  assert (Hin : forall a, (a < n)%nat -> inb (nth a (mask_positions mask) []) ns) by (intros a Ha; rewrite <- Sm; apply mask_positions_in, nth_In; exact Ha).
  set (p := fun a => nth a (mask_positions mask) []) in *. change (nth i (mask_positions mask) []) with (p i). change (nth j (mask_positions mask) []) with (p j).
  assert (Lp : forall a, (a < n)%nat -> length (p a) = 3%nat) by (intros a Ha; exact (inb_length _ _ (Hin a Ha))).
  assert (S0 : sumC (indices ns) (fun x => RtoC (chan v 0 x) * cis (- (2 * PI * phase ns (zsub (zs (p i)) (zs (p j))) (zs x)))%R)%C = (RtoC mu * if (i =? j)%nat then RtoC (INR (nprod ns)) else RtoC 0)%C).
  { rewrite (sumC_ext _ _ (fun x => RtoC mu * (cis (2 * PI * phase ns (zs (p j)) (zs x))%R * cis (- (2 * PI * phase ns (zs (p i)) (zs x)))%R))%C).
    - rewrite sumC_scal. f_equal. rewrite dft_orth by (apply Hin; assumption). destruct (Nat.eqb_spec i j) as [<-|N]; [destruct (list_eq_dec _ _ _) as [_|N]; [reflexivity|contradiction]|].
      destruct (list_eq_dec _ _ _) as [E|_]; [|reflexivity]. exfalso. apply N. symmetry. apply (NoDup_nth (mask_positions mask) []); [apply mask_positions_NoDup|assumption|assumption|exact E].
    - intros x Hx. apply in_indices in Hx. unfold chan. rewrite (Gv x Hx). change (Re (RtoC mu)) with mu. f_equal. rewrite <- cis_plus. f_equal.
      rewrite phase_sub_l by (unfold zs; rewrite !map_length, !Lp by assumption; reflexivity). ring. }
  rewrite S0. unfold free_energy. destruct (Nat.eqb_spec i j) as [<-|N]; [|ring].
  assert (HN : INR (nprod ns) <> 0) by (apply not_0_INR; pose proof (nprod_pos ns (inb_pos _ ns (Hin i Hi))); lia).
  rewrite RtoC_plus. f_equal. rewrite <- !RtoC_mult. f_equal. field. exact HN.
Qed.

(** Different plane waves of the basis are orbitals of the basis. *)
Lemma waves_basis sp K B mask sel c : plane_waves sp K B (tshape mask) sel c -> (forall s k b, (s < sp)%nat -> (k < K)%nat -> (b < B)%nat -> tget mask (sel s k b) = true) ->
  (forall s k b b', (s < sp)%nat -> (k < K)%nat -> (b < B)%nat -> (b' < B)%nat -> sel s k b = sel s k b' -> b = b') -> basis_orbitals sp K B mask c.
Proof.
  intros (Sc & H) Hm Inj. split; [exact Sc|]. split.
  - intros b k k' Hb Hk Hk'. inversion Hb as [|s ? l ? Hs Hb1]; subst. inversion Hb1 as [|q ? l1 ? Hq Hb2]; subst. inversion Hb2; subst. cbn [app].
    destruct (H s q k Hs Hq Hk) as (Hi & u & Hu & Eu & Z). destruct (H s q k' Hs Hq Hk') as (Hi' & u' & Hu' & Eu' & Z').
    unfold inner. rewrite (sumC_single _ (sel s q k)); [|apply NoDup_indices|apply in_indices, Hi|intros g Hg Ng; apply in_indices in Hg; pose proof (Z g Hg Ng) as Zg; cbn [app] in Zg |- *; rewrite Zg, Cconj_R; ring].
    destruct (Nat.eqb_spec k k') as [<-|N].
    + cbn [app] in *. rewrite Eu. apply conj_unit, Hu.
    + assert (Ns : sel s q k <> sel s q k') by (intros E; apply N, (Inj s q k k' Hs Hq Hk Hk' E)). pose proof (Z' _ Hi Ns) as Z0. cbn [app] in *. rewrite Z0. ring.
  - intros b i Hb Hi Mi. inversion Hb as [|s ? l ? Hs Hb1]; subst. inversion Hb1 as [|q ? l1 ? Hq Hb2]; subst. inversion Hb2 as [|a ? l2 ? Ha Hb3]; subst. inversion Hb3; subst.
    destruct (H s q a Hs Hq Ha) as (_ & u & _ & _ & Z). apply Z; [exact Hi|]. intros ->. rewrite (Hm s q a Hs Hq Ha) in Mi. discriminate.
Qed.
Definition waves (sp K B : nat) (ns : list nat) (sel : nat -> nat -> nat -> list nat) : tensor C :=
  mkT ([sp; K; B] ++ ns) (fun i => if list_eq_dec Nat.eq_dec (skipn 3 i) (sel (nth 0 i 0%nat) (nth 1 i 0%nat) (nth 2 i 0%nat)) then RtoC 1 else RtoC 0).
Lemma waves_ok sp K B ns sel : (forall s k b, (s < sp)%nat -> (k < K)%nat -> (b < B)%nat -> inb (sel s k b) ns) -> plane_waves sp K B ns sel (waves sp K B ns sel).
Proof.
  intros H. split; [reflexivity|]. intros s k b Hs Hk Hb. split; [apply H; assumption|]. exists (RtoC 1). split; [rewrite Cmod_R; apply Rabs_R1|]. unfold waves. cbn [tget app nth skipn]. split.
  - destruct (list_eq_dec _ _ _) as [_|N]; [reflexivity|contradiction].
  - intros g _ N. destruct (list_eq_dec _ _ _) as [E|_]; [contradiction|reflexivity].
Qed.

(** Spin-restricted all-electron calculations reach the energy of any plane waves of the basis. *)
Lemma waves_reached erfc pkg read devices rnd rpw c pb p0 p qr cqr lib vg sel occ : let K := length (pb_k pb) in let B := pb_bands pb in
  reduced_qr qr -> complex_qr cqr -> qr_factors cqr -> shape_ok rnd -> pair_shape_ok rpw ->
  ae_problem erfc pkg read devices c = Ok pb -> m3det (cr_cell (pb_crystal pb)) <> 0 -> length (cr_charges (pb_crystal pb)) = length (cr_positions (pb_crystal pb)) ->
  ae_init rnd rpw pb = Ok p0 -> bands_hold (pb_method pb) (pb_electrons pb) (pb_spin pb) (pb_bands pb) -> bands_fit_basis pb ->
  pb_restricted pb = true -> contains "gga" (pb_xc pb) = false -> (forall t b, In t (split_on "+" (pb_xc pb)) -> lib t b <> None) ->
  reachable pb p0 p -> get_occupation qr pb p = Ok occ ->
  (forall k b, (k < K)%nat -> (b < B)%nat -> inb (sel k b) (tshape (pb_mask pb)) /\ tget (pb_mask pb) (sel k b) = true) ->
  (forall k b b', (k < K)%nat -> (b < B)%nat -> (b' < B)%nat -> sel k b = sel k b' -> b = b') ->
  exists p' co, reachable pb p0 p' /\ get_occupation qr pb p' = Ok occ /\ get_coeff cqr pb p' = Ok co /\ plane_waves 1 K B (tshape (pb_mask pb)) (fun _ => sel) co /\
    objective qr cqr (xc_density lib vg) pb p' = Ok (sumR (seq 0 K) (fun k => sumR (seq 0 B) (fun b => tget occ [0%nat; k; b] * free_energy (pb_G pb) (pb_k pb) k (sel k b)))
      + IZR (kept_electrons (pb_method pb) (pb_electrons pb) (pb_spin pb)) * local_particle lib (split_on "+" (pb_xc pb)) (IZR (kept_electrons (pb_method pb) (pb_electrons pb) (pb_spin pb)) / pb_vol pb)).
Proof.
  intros K B Hq Hcq Hf Hr Hrp Hpb HA Hl Hi Hb Hfit Er Hg Hlib Hre Eo Hsel Hinj. pose proof (setup_grids _ _ _ _ _ _ _ _ _ Hpb) as Hgr. destruct (ae_parity _ _ _ _ _ _ Hpb) as (_ & Hpar & _ & Hir).
  destruct (grid_facts pb Hgr HA) as (n1 & n2 & n3 & HG & Sm & SG & Hp & Hv).
  set (co0 := waves 1 K B (tshape (pb_mask pb)) (fun _ => sel)).
  assert (W : plane_waves 1 K B (tshape (pb_mask pb)) (fun _ => sel) co0) by (apply waves_ok; intros s k b _ Hk Hb'; apply Hsel; assumption).
  assert (Hbo : basis_orbitals 1 K B (pb_mask pb) co0).
  { apply (waves_basis 1 K B (pb_mask pb) (fun _ => sel) co0 W); [intros s k b _ Hk Hb'; apply Hsel; assumption|intros s k b b' _; apply Hinj]. }
  assert (Hbo' : basis_orbitals (num_spin (pb_restricted pb)) K B (pb_mask pb) co0) by (rewrite Er; exact Hbo).
  destruct (occ_along rnd rpw pb p0 p qr Hq Hr Hgr Hi Hre Hpar (fun _ => Hir) Hb) as (o' & Eo' & So & _ & Tt & _). rewrite Eo in Eo'. injection Eo' as <-. rewrite Er in So. cbn [num_spin] in So.
  destruct (reach_driver erfc pkg read devices rnd rpw c pb p0 p qr cqr (xc_density lib vg) co0 Hq Hcq Hf Hr Hrp Hpb Hi Hre Hb Hfit (xc_density_local lib vg false _ (or_intror eq_refl)) Hbo') as (p' & co & o3 & Hre' & _ & Eo3 & Eo4 & Ec & Hph & Hob).
  rewrite Eo in Eo3. injection Eo3 as <-. exists p', co. split; [exact Hre'|]. split; [exact Eo4|]. split; [exact Ec|]. split.
  - rewrite Er in Hph. cbn [num_spin] in Hph. destruct Hph as (Sco & Hph). destruct W as (Sc0 & W). split; [rewrite Sco; exact Sc0|]. intros s k b Hs Hk Hb'. destruct (W s k b Hs Hk Hb') as (Hin & u & Hu & Eu & Z). split; [exact Hin|].
    destruct (Hph s k b Hs Hk Hb') as (u' & Hu' & G'). exists (u' * u)%C. split; [rewrite Cmod_mult, Hu, Hu'; ring|]. split; [rewrite G' by exact Hin; rewrite Eu; reflexivity|]. intros g Hgi Ng. rewrite G' by exact Hgi. rewrite (Z g Hgi Ng). ring.
  - apply Hob. rewrite Sm in W. assert (Hl' : length (map IZR (cr_charges (pb_crystal pb))) = length (cr_positions (pb_crystal pb))) by (rewrite map_length; exact Hl).
    rewrite (wave_energy B n1 n2 n3 (fun _ => sel) co0 (pb_vol pb) lib vg (pb_xc pb) (cr_cell (pb_crystal pb)) _ _ (pb_G pb) (pb_k pb) occ W Hv Hg Hlib HA HG Hl' So). rewrite Tt. reflexivity.
Qed.
