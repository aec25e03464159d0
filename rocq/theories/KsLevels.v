(** In a state of lowest energy the occupied levels are the lowest of the whole basis (C151). *)
From Coq Require Import Reals Lra Lia FunctionalExtensionality.
From Coquelicot Require Import Coquelicot.
From Coq Require Import Ascii String List Arith ZArith Bool.
From Verif Require Import Base Sums Tensor DFT GridModel PadModel Lin3 VecModel VecProofs OccModel OccSpec PwModel PwSpec PwProofs BraketModel XcModel XcSpec EnergyModel EnergySpec EnergyProofs TotalProofs HamModel HamSpec XcProofs XcProofs3 HamProofs3 DerProofs ReachSpec KsSpec KsProofs KsProofs2 KsProofs3 KsProofs4.
Import ListNotations.
Local Open Scope R_scope.

(** The potential is determined by the density on the grid. *)
Lemma potential_ext lib vg xt A pos ch G vol d d' n1 n2 n3 v v' : let ns := [n1; n2; n3] in
  contains "gga" xt = false -> (forall t b, In t (split_on "+" xt) -> lib t b <> None) -> m3det A <> 0 -> g_vectors A ns = Ok G -> length ch = length pos -> tshape d = 1%nat :: ns -> teq d d' ->
  effective_sum (xc_density lib vg) d pos ch G vol xt true = Ok v -> tshape v = 1%nat :: ns ->
  effective_sum (xc_density lib vg) d' pos ch G vol xt true = Ok v' -> tshape v' = 1%nat :: ns -> forall x, inb x ns -> tget v (0%nat :: x) = tget v' (0%nat :: x).
Proof.
  intros ns Hg Hl HA HG Hp Sd T Ev Sv Ev' Sv' x Hx. destruct (g_vectors_dual A n1 n2 n3 G HA HG) as (SG & _). fold ns in SG.
  assert (Sd' : tshape d' = 1%nat :: ns) by (rewrite <- (proj1 T); exact Sd).
  pose proof (xc_density_local lib vg true xt (or_introl Hg) d d' G T) as HX.
  destruct (xc_lda_returns lib vg xt G true 1 ns d (or_introl eq_refl) Hg Hl Sd) as (vx0 & Ex & Sx0). rewrite Ex in HX. set (vx := tmap RtoC vx0) in *.
  assert (Sx : tshape vx = 1%nat :: ns \/ tshape vx = ns) by (destruct Sx0 as [S|S]; [right|left]; exact S).
  destruct (xc_density lib vg d' G true xt) as [vx'|] eqn:Ex'; [|contradiction]. cbn [rteq] in HX.
  destruct (effective_parts (xc_density lib vg) d pos ch G vol xt true 1 n1 n2 n3 _ Sd SG Hp Ex) as (D & vhr & ver & vh & ve & ED & Ehr & _ & Eer & _ & Svh & Sve & SD & GD & Gvh & Gve & Es).
  destruct (effective_parts (xc_density lib vg) d' pos ch G vol xt true 1 n1 n2 n3 _ Sd' SG Hp Ex') as (D' & vhr' & ver' & vh' & ve' & ED' & Ehr' & _ & Eer' & _ & Svh' & Sve' & SD' & GD' & Gvh' & Gve' & Es').
  rewrite Eer in Eer'. injection Eer' as <-.
  assert (Sx' : tshape vx' = 1%nat :: ns \/ tshape vx' = ns) by (rewrite <- (proj1 HX); exact Sx).
  destruct (effective_adds (xc_density lib vg) d pos ch G vol xt true 1 n1 n2 n3 _ Sd SG Hp Ex Sx) as (h1 & h2 & u & Eu & _ & _ & Ev1 & Cases). rewrite Es in Eu. injection Eu as <- <-. rewrite Ev in Ev1. injection Ev1 as <-.
  destruct (effective_adds (xc_density lib vg) d' pos ch G vol xt true 1 n1 n2 n3 _ Sd' SG Hp Ex' Sx') as (h1 & h2 & u & Eu & _ & _ & Ev1 & Cases'). rewrite Es' in Eu. injection Eu as <- <-. rewrite Ev' in Ev1. injection Ev1 as <-.
  assert (Eh : tget vh x = tget vh' x).
  { rewrite Gvh, Gvh'. apply idft_ext. intros g Hgi.
    destruct (hartree_eq D G true 1 n1 n2 n3 SD SG (fun x => g_nonzero A n1 n2 n3 G x HA HG)) as (r & Er & _ & Gr). rewrite Ehr in Er. injection Er as <-.
    destruct (hartree_eq D' G true 1 n1 n2 n3 SD' SG (fun x => g_nonzero A n1 n2 n3 G x HA HG)) as (r & Er & _ & Gr'). rewrite Ehr' in Er. injection Er as <-.
    rewrite Gr, Gr' by exact Hgi. destruct (is_origin g); [reflexivity|].
    rewrite (spin_sum_one D d n1 n2 n3 g SD GD), (spin_sum_one D' d' n1 n2 n3 g SD' GD'). unfold fhat.
    rewrite (dft_ext [n1; n2; n3] (fun y => RtoC (tget d (0%nat :: y))) (fun y => RtoC (tget d' (0%nat :: y)))); [reflexivity|].
    intros y Hy. f_equal. apply (proj2 T). rewrite Sd. constructor; [lia|exact Hy]. }
  assert (Lc : 1%nat :: ns <> ns) by (intros E; apply (f_equal (@length nat)) in E; cbn in E; lia).
  pose proof (proj1 HX) as SX.
  destruct Cases as [(S1 & _ & Gv)|(S1 & _ & Gv)]; destruct Cases' as [(S2 & _ & Gv')|(S2 & _ & Gv')]; try (exfalso; congruence);
    rewrite Gv, Gv' by (try lia; exact Hx); rewrite Eh, Gve, Gve'; f_equal; apply (proj2 HX); rewrite S1; [constructor; [lia|exact Hx]|exact Hx].
Qed.

Lemma hv_ext ns vol V V' G q a a' b b' : (forall x, inb x ns -> V x = V' x) -> (forall g, inb g ns -> a g = a' g) -> (forall g, inb g ns -> b g = b' g) -> hv ns vol V G q a b = hv ns vol V' G q a' b'.
Proof.
  intros HV Ha Hb. unfold hv. f_equal; [|f_equal]; apply sumC_ext; intros g Hg; apply in_indices in Hg.
  - rewrite Ha, Hb by exact Hg. reflexivity.
  - rewrite HV by exact Hg. rewrite (idft_ext ns a a' g Ha), (idft_ext ns b b' g Hb). reflexivity.
Qed.

(** Orbitals that differ in empty bands only have the same density and energy. *)
Lemma same_filled lib vg xt A c c' pos ch G kpts vol occ B n1 n2 n3 : let ns := [n1; n2; n3] in let K := length kpts in let ts := split_on "+" xt in
  contains "gga" xt = false -> (forall t b, In t ts -> lib t b <> None) ->
  m3det A <> 0 -> 0 < vol -> g_vectors A ns = Ok G -> length ch = length pos -> tshape c = [1%nat; K; B] ++ ns -> tshape c' = [1%nat; K; B] ++ ns -> tshape occ = [1%nat; K; B] ->
  (forall k b g, (k < K)%nat -> (b < B)%nat -> inb g ns -> tget occ [0%nat; k; b] <> 0 -> tget c' ([0%nat; k; b] ++ g) = tget c ([0%nat; k; b] ++ g)) ->
  total_energy (xc_density lib vg) c' pos ch G kpts vol (Some occ) false xt = total_energy (xc_density lib vg) c pos ch G kpts vol (Some occ) false xt /\
  forall d d', density_grid c vol (Some occ) = Ok d -> density_grid c' vol (Some occ) = Ok d' -> teq d d'.
Proof.
  intros ns K ts Hg Hl HA Hv HG Hp Sc Sc' So Hc.
  assert (Ep : forall k b x, In k (seq 0 K) -> In b (seq 0 B) -> tget occ [0%nat; k; b] * Cnorm2 (psi ns vol c' [0%nat; k; b] x) = tget occ [0%nat; k; b] * Cnorm2 (psi ns vol c [0%nat; k; b] x)).
  { intros k b x Hk Hb. apply in_seq in Hk, Hb. destruct (Req_dec (tget occ [0%nat; k; b]) 0) as [->|N]; [ring|]. do 2 f_equal. unfold psi. f_equal. apply idft_ext. intros g Hgi. apply Hc; try assumption; lia. }
  assert (ER : rho [n1; n2; n3] (length kpts) B vol c' occ = rho [n1; n2; n3] (length kpts) B vol c occ).
  { apply functional_extensionality. intros x. unfold rho. apply sumR_ext. intros k Hk. apply sumR_ext. intros b Hb. apply Ep; assumption. }
  split.
  - rewrite (total_formula lib vg xt A c pos ch G kpts vol occ B n1 n2 n3 Hg Hl HA Hv HG Hp Sc So), (total_formula lib vg xt A c' pos ch G kpts vol occ B n1 n2 n3 Hg Hl HA Hv HG Hp Sc' So).
    rewrite ER. f_equal. do 3 f_equal. unfold fT. f_equal. apply sumR_ext. intros k Hk. apply sumR_ext. intros b Hb. apply in_seq in Hk, Hb.
    destruct (Req_dec (tget occ [0%nat; k; b]) 0) as [->|N]; [ring|]. f_equal. unfold ekin. apply sumR_ext. intros g Hgi. apply in_indices in Hgi. rewrite (Hc k b g) by (try assumption; lia). reflexivity.
  - intros d d' Ed Ed'. destruct (density_eq c vol occ 1 K B n1 n2 n3 Sc So) as (e & Ee & Se & Ge). rewrite Ed in Ee. injection Ee as <-. destruct (density_eq c' vol occ 1 K B n1 n2 n3 Sc' So) as (e & Ee & Se' & Ge'). rewrite Ed' in Ee. injection Ee as <-.
    split; [congruence|]. intros i Hi. rewrite Se in Hi. inversion Hi as [|s ? x ? Hs Hx]; subst. assert (s = 0%nat) by lia. subst s. rewrite (Ge 0%nat x) by (try lia; exact Hx). rewrite (Ge' 0%nat x) by (try lia; exact Hx).
    exact (f_equal (fun f => f x) (eq_sym ER)).
Qed.

Lemma lowest_basis lib vg xt A c pos ch G kpts vol occ d B n1 n2 n3 mask w e0 : let ns := [n1; n2; n3] in let K := length kpts in let ts := split_on "+" xt in let xcd := xc_density lib vg in
  contains "gga" xt = false -> (forall t b, In t ts -> lib t b <> None) -> m3det A <> 0 -> 0 < vol -> g_vectors A ns = Ok G -> length ch = length pos ->
  tshape mask = ns -> basis_orbitals 1 K B mask c -> tshape occ = [1%nat; K; B] -> density_grid c vol (Some occ) = Ok d ->
  (forall x, inb x ns -> ex_derive (local_particle lib ts) (tget d (0%nat :: x))) -> within 0 w occ ->
  total_energy xcd c pos ch G kpts vol (Some occ) false xt = Ok e0 ->
  (forall c' occ', basis_orbitals 1 K B mask c' -> tshape occ' = [1%nat; K; B] -> within 0 w occ' -> total occ' = total occ -> exists e', total_energy xcd c' pos ch G kpts vol (Some occ') false xt = Ok e' /\ e0 <= e') ->
  lowest_levels (fun x => hamiltonian_matrix xcd x pos ch d G kpts vol xt true) ns K B mask w c occ.
Proof.
  intros ns K ts xcd Hg Hl HA Hv HG Hp Sm Hc So Hd Hex Hw He0 Hmin c' M' Hc' Hag HM' k b k' b' Hk Hb Hk' Hb' Po Lo.
  assert (SG : tshape G = ns) by exact (proj1 (g_vectors_dual A n1 n2 n3 G HA HG)).
  assert (Sc : tshape c = [1%nat; K; B] ++ ns) by (destruct Hc as (S & _); rewrite Sm in S; exact S). assert (Sc' : tshape c' = [1%nat; K; B] ++ ns) by (destruct Hc' as (S & _); rewrite Sm in S; exact S).
  destruct (same_filled lib vg xt A c c' pos ch G kpts vol occ B n1 n2 n3 Hg Hl HA Hv HG Hp Sc Sc' So Hag) as (Eq & Td).
  destruct (density_eq c' vol occ 1 K B n1 n2 n3 Sc' So) as (d' & Hd' & Sd' & _). specialize (Td d d' Hd Hd').
  assert (Sd : tshape d = 1%nat :: ns) by (rewrite (proj1 Td); exact Sd').
  assert (Hex' : forall x, inb x ns -> ex_derive (local_particle lib ts) (tget d' (0%nat :: x))).
  { intros x Hx. rewrite <- (proj2 Td) by (rewrite Sd; constructor; [lia|exact Hx]). apply Hex, Hx. }
  destruct (potential_exists lib vg xt A c pos ch G kpts vol occ d B n1 n2 n3 mask Hg Hl HA Hv HG Hp Sm Hc So Hd Hex) as (v & Ev & Sv).
  destruct (potential_exists lib vg xt A c' pos ch G kpts vol occ d' B n1 n2 n3 mask Hg Hl HA Hv HG Hp Sm Hc' So Hd' Hex') as (v' & Ev' & Sv').
  destruct (occupation_derivative lib vg xt A c' pos ch G kpts vol occ occ d' B n1 n2 n3 Hg Hl HA Hv HG Hp Sc' So Hd' Hex') as (M & _ & HM & _).
  assert (EM : forall k0 b0, (k0 < K)%nat -> (b0 < B)%nat -> tget M [0%nat; k0; b0; b0] = tget M' [0%nat; k0; b0; b0]).
  { intros k0 b0 Hk0 Hb0. rewrite (proj1 (matrix_hv xcd c' pos ch d' G kpts vol xt B n1 n2 n3 v' M Sc' SG Ev' Sv' HM k0 b0 b0 Hk0 Hb0 Hb0)), (proj1 (matrix_hv xcd c' pos ch d G kpts vol xt B n1 n2 n3 v M' Sc' SG Ev Sv HM' k0 b0 b0 Hk0 Hb0 Hb0)).
    apply hv_ext; try reflexivity. intros x Hx. f_equal. symmetry. exact (potential_ext lib vg xt A pos ch G vol d d' n1 n2 n3 v v' Hg Hl HA HG Hp Sd Td Ev Sv Ev' Sv' x Hx). }
  rewrite <- !EM by assumption.
  apply (move_levels lib vg xt A c' pos ch G kpts vol occ d' B n1 n2 n3 w e0 Hg Hl HA Hv HG Hp Sc' So Hd' Hex' Hw); try assumption.
  - rewrite Eq. exact He0.
  - intros occ' S1 W1 T1. apply Hmin; assumption.
Qed.
