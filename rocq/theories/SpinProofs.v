(** Two spin channels against one, and the exchange of the two. *)
From Coq Require Import Reals Lra Lia.
From Coquelicot Require Import Coquelicot.
From Coq Require Import Ascii String List Arith ZArith Bool.
From Verif Require Import Base Sums Tensor DFT GridModel GridProofs PadModel PadProofs Lin3 VecModel VecProofs OccModel PwModel PwSpec PwProofs BraketModel XcModel XcSpec EnergyModel EnergySpec EnergyProofs ExtProofs TotalProofs RespProofs XcProofs XcProofs2 XcProofs3 SpinSpec.
Import ListNotations.
Local Open Scope R_scope.

(** Density of one channel. *)
Definition rho_s (ns : list nat) (K B : nat) (vol : R) (c : tensor C) (occ : tensor R) (s : nat) (x : list nat) : R :=
  sumR (seq 0 K) (fun k => sumR (seq 0 B) (fun b => tget occ [s; k; b] * Cnorm2 (psi ns vol c [s; k; b] x))).

Lemma total_spin xcd A c c' pos ch G kpts vol occ occ' xt sp sp' B n1 n2 n3 ks : let ns := [n1; n2; n3] in let K := length kpts in
  m3det A <> 0 -> 0 < vol -> g_vectors A ns = Ok G -> length ch = length pos ->
  tshape c = [sp; K; B] ++ ns -> tshape occ = [sp; K; B] -> tshape c' = [sp'; K; B] ++ ns -> tshape occ' = [sp'; K; B] ->
  (forall x, inb x ns -> sumR (seq 0 sp) (fun s => rho_s ns K B vol c occ s x) = sumR (seq 0 sp') (fun s => rho_s ns K B vol c' occ' s x)) ->
  sumR (seq 0 sp) (fun s => sumR (seq 0 K) (fun k => sumR (seq 0 B) (fun b => ekin G kpts c ns s k b * tget occ [s; k; b]))) =
  sumR (seq 0 sp') (fun s => sumR (seq 0 K) (fun k => sumR (seq 0 B) (fun b => ekin G kpts c' ns s k b * tget occ' [s; k; b]))) ->
  (forall d d', tshape d = sp :: ns -> tshape d' = sp' :: ns -> (forall s x, (s < sp)%nat -> inb x ns -> tget d (s :: x) = rho_s ns K B vol c occ s x) ->
    (forall s x, (s < sp')%nat -> inb x ns -> tget d' (s :: x) = rho_s ns K B vol c' occ' s x) -> e_xc xcd d G vol xt ks = e_xc xcd d' G vol xt ks) ->
  total_energy_split xcd c pos ch G kpts vol (Some occ) ks xt = total_energy_split xcd c' pos ch G kpts vol (Some occ') ks xt.
Proof.
  intros ns K HA Hv HG Hp Sc So Sc' So' HD HK HX. destruct (g_vectors_dual A n1 n2 n3 G HA HG) as (SG & _). fold ns in SG.
  assert (Hn : Forall (fun n => (0 < n)%nat) ns) by (destruct (proj1 (g_vectors_ok A n1 n2 n3) (ex_intro _ G HG)) as (? & ? & ?); repeat constructor; lia).
  assert (HN : 0 < INR (nprod ns)) by (apply lt_0_INR, nprod_pos, Hn).
  unfold total_energy_split. destruct (wave_grid_eq c vol [sp; K; B] ns eq_refl Sc) as (w & Ew & _). destruct (wave_grid_eq c' vol [sp'; K; B] ns eq_refl Sc') as (w' & Ew' & _).
  rewrite Ew, Ew'. cbn [bind].
  destruct (density_eq c vol occ sp K B n1 n2 n3 Sc So) as (d0 & E0 & S0 & G0). destruct (density_eq c' vol occ' sp' K B n1 n2 n3 Sc' So') as (d0' & E0' & S0' & G0').
  destruct (wave_to_density_eq c vol occ sp K B n1 n2 n3 w d0 Sc So Ew E0) as (d & Ed & Eq). destruct (wave_to_density_eq c' vol occ' sp' K B n1 n2 n3 w' d0' Sc' So' Ew' E0') as (d' & Ed' & Eq').
  unfold wave_to_density_reciprocal. rewrite Ed, Ed'. cbn [bind].
  assert (Sd : tshape d = sp :: ns) by (rewrite (proj1 Eq); exact S0). assert (Sd' : tshape d' = sp' :: ns) by (rewrite (proj1 Eq'); exact S0').
  assert (Gd : forall s x, (s < sp)%nat -> inb x ns -> tget d (s :: x) = rho_s ns K B vol c occ s x).
  { intros s x Hs Hx. rewrite (proj2 Eq) by (rewrite Sd; constructor; [lia|exact Hx]). apply (G0 s x); assumption. }
  assert (Gd' : forall s x, (s < sp')%nat -> inb x ns -> tget d' (s :: x) = rho_s ns K B vol c' occ' s x).
  { intros s x Hs Hx. rewrite (proj2 Eq') by (rewrite Sd'; constructor; [lia|exact Hx]). apply (G0' s x); assumption. }
  destruct (fftn3_eq (tmap RtoC d) [sp] ns eq_refl Sd) as (D & -> & SD & GD). destruct (fftn3_eq (tmap RtoC d') [sp'] ns eq_refl Sd') as (D' & -> & SD' & GD'). cbn [bind].
  destruct (kinetic_some G kpts c occ sp B n1 n2 n3 SG Sc So) as (t & -> & _ & Gt). destruct (kinetic_some G kpts c' occ' sp' B n1 n2 n3 SG Sc' So') as (t' & -> & _ & Gt'). cbn [bind].
  rewrite (e_external_eq D pos ch G vol sp n1 n2 n3 SD SG Hp ltac:(lra) HN), (e_external_eq D' pos ch G vol sp' n1 n2 n3 SD' SG Hp ltac:(lra) HN). cbn [bind].
  rewrite (e_hartree_eq D G vol ks sp n1 n2 n3 SD SG (fun x => g_nonzero A n1 n2 n3 G x HA HG)), (e_hartree_eq D' G vol ks sp' n1 n2 n3 SD' SG (fun x => g_nonzero A n1 n2 n3 G x HA HG)). cbn [bind].
  rewrite (HX d d' Sd Sd' Gd Gd'). fold ns.
  assert (Gs : forall x, spin_sum D x = spin_sum D' x).
  { intros x. unfold spin_sum. rewrite SD, SD'. cbn [app hd].
    rewrite (sumC_ext _ _ (fun s => dft ns (fun y => RtoC (tget d (s :: y))) x)) by (intros s _; change (s :: x) with ([s] ++ x); rewrite GD by reflexivity; reflexivity).
    rewrite (sumC_ext (seq 0 sp') _ (fun s => dft ns (fun y => RtoC (tget d' (s :: y))) x)) by (intros s _; change (s :: x) with ([s] ++ x); rewrite GD' by reflexivity; reflexivity).
    unfold dft. rewrite (sumC_swap (seq 0 sp)), (sumC_swap (seq 0 sp')). apply sumC_ext. intros y Hy. apply in_indices in Hy. rewrite !sumC_scal_r, !sumC_RtoC. f_equal. f_equal.
    rewrite (sumR_ext _ _ (fun s => rho_s ns K B vol c occ s y)) by (intros s Hs; apply in_seq in Hs; apply Gd; [lia|exact Hy]). rewrite HD by exact Hy.
    apply sumR_ext. intros s Hs. apply in_seq in Hs. symmetry. apply Gd'; [lia|exact Hy]. }
  fold K ns in Gt, Gt'. rewrite Gt, Gt', HK.
  replace (coulomb_sum ns G D) with (coulomb_sum ns G D') by (rewrite !coulomb_sum_alt; apply sumR_ext; intros x _; rewrite Gs; reflexivity).
  f_equal. rewrite (sumC_ext _ _ (fun x => if is_origin x then RtoC 0 else Cconj (structure_factor ch pos (tget G x)) * spin_sum D' x * RtoC (/ (norm2 (tget G x) + / 10 ^ 10)))%C) by (intros x _; rewrite Gs; reflexivity).
  reflexivity.
Qed.

(** ** Exchange-correlation energy point by point. *)
Definition point_xc (lib : xclib) (ts : list string) (g pol : bool) (v sg : list R) : R :=
  sumR ts (fun t => match pick lib t pol with Some f => if g then gga_at f pol (is_exchange t) v sg else lda_at f pol (is_exchange t) v | None => 0 end).

Lemma lda_point lib ts (d : tensor R) sp ns : (sp = 1 \/ sp = 2)%nat -> tshape d = sp :: ns -> (forall t, In t ts -> pick lib t (sp =? 2)%nat <> None) ->
  exists e, lda_sum lib ts d = Ok e /\ tshape e = ns /\ forall x, tget e x = point_xc lib ts false (sp =? 2)%nat (column d x) [].
Proof.
  intros Hs Sd Hl. unfold lda_sum.
  assert (M : exists l, mapM (fun t => lda lib t d) ts = Ok l /\ forall x, sumR l (fun t => tget t x) = point_xc lib ts false (sp =? 2)%nat (column d x) []).
  { induction ts as [|t ts IH]; [exists []; split; [reflexivity|intros; reflexivity]|].
    destruct IH as (l & E & Hx); [intros u Hu; apply Hl; right; exact Hu|]. specialize (Hl t (or_introl eq_refl)).
    destruct (pick lib t (sp =? 2)%nat) as [f|] eqn:Ef; [|contradiction]. cbn [mapM]. rewrite E.
    assert (L : lda lib t d = Ok (mkT ns (fun x => lda_at f (sp =? 2)%nat (is_exchange t) (column d x)))).
    { unfold lda. rewrite Sd. rewrite Ef. destruct Hs as [-> | ->]; reflexivity. }
    rewrite L. cbn [bind]. eexists. split; [reflexivity|]. intros x. cbn [sumR tget]. rewrite Hx. unfold point_xc. cbn [sumR]. rewrite Ef. reflexivity. }
  destruct M as (l & -> & Hx). cbn [bind]. eexists. split; [reflexivity|]. rewrite Sd. split; [reflexivity|]. intros x. apply Hx.
Qed.
Lemma gga_point lib ts (d sg : tensor R) sp ns : (sp = 1 \/ sp = 2)%nat -> tshape d = sp :: ns -> tshape sg = (if (sp =? 2)%nat then 3%nat else 1%nat) :: ns ->
  (forall t, In t ts -> pick lib t (sp =? 2)%nat <> None) ->
  exists e, gga_sum lib ts d sg = Ok e /\ tshape e = ns /\ forall x, tget e x = point_xc lib ts true (sp =? 2)%nat (column d x) (column sg x).
Proof.
  intros Hs Sd Ss Hl. unfold gga_sum.
  assert (M : exists l, mapM (fun t => gga lib t d sg) ts = Ok l /\ forall x, sumR l (fun t => tget t x) = point_xc lib ts true (sp =? 2)%nat (column d x) (column sg x)).
  { induction ts as [|t ts IH]; [exists []; split; [reflexivity|intros; reflexivity]|].
    destruct IH as (l & E & Hx); [intros u Hu; apply Hl; right; exact Hu|]. specialize (Hl t (or_introl eq_refl)).
    destruct (pick lib t (sp =? 2)%nat) as [f|] eqn:Ef; [|contradiction]. cbn [mapM]. rewrite E.
    assert (L : gga lib t d sg = Ok (mkT ns (fun x => gga_at f (sp =? 2)%nat (is_exchange t) (column d x) (column sg x)))).
    { unfold gga. rewrite Sd. rewrite Ef, Ss. destruct (list_eq_dec Nat.eq_dec _ _) as [_|N]; [|contradiction]. destruct Hs as [-> | ->]; reflexivity. }
    rewrite L. cbn [bind]. eexists. split; [reflexivity|]. intros x. cbn [sumR tget]. rewrite Hx. unfold point_xc. cbn [sumR]. rewrite Ef. reflexivity. }
  destruct M as (l & -> & Hx). cbn [bind]. eexists. split; [reflexivity|]. rewrite Sd. split; [reflexivity|]. intros x. apply Hx.
Qed.

Lemma column3 (d : tensor R) ns x : tshape d = 3%nat :: ns -> column d x = [tget d (0%nat :: x); tget d (1%nat :: x); tget d (2%nat :: x)].
Proof. intros S. unfold column. rewrite S. reflexivity. Qed.

(** The values of the densities at one point and of the products of their gradients. *)
Definition dens_at (sp : nat) (d : tensor R) (x : list nat) : list R := map (fun s => tget d (s :: x)) (seq 0 sp).
Definition sig_at (ns : list nat) (G : tensor v3) (sp : nat) (d : tensor R) (x : list nat) : list R :=
  let f s y := tget d (s :: y) in
  if (sp =? 2)%nat then [gprod ns G (f 0%nat) (f 0%nat) x; gprod ns G (f 0%nat) (f 1%nat) x; gprod ns G (f 1%nat) (f 1%nat) x] else [gprod ns G (f 0%nat) (f 0%nat) x].

Lemma e_xc_point lib vg xt d G vol sp n1 n2 n3 : let ns := [n1; n2; n3] in let ts := split_on "+" xt in let g := contains "gga" xt in
  (sp = 1 \/ sp = 2)%nat -> tshape d = sp :: ns -> tshape G = ns -> (forall t, In t ts -> pick lib t (sp =? 2)%nat <> None) ->
  e_xc (xc_density lib vg) d G vol xt false = Ok (vol / INR (nprod ns) * sumR (indices ns) (fun x =>
    point_xc lib ts g (sp =? 2)%nat (dens_at sp d x) (if g then sig_at ns G sp d x else []) * sumR (seq 0 sp) (fun s => tget d (s :: x)))).
Proof.
  intros ns ts g Hs Sd SG Hl.
  assert (Cd : forall x, column d x = dens_at sp d x) by (intros x; unfold column, dens_at; rewrite Sd; reflexivity).
  assert (E : exists e, xc_density lib vg d G false xt = Ok (tmap RtoC (mkT ns e)) /\ forall x, e x = point_xc lib ts g (sp =? 2)%nat (dens_at sp d x) (if g then sig_at ns G sp d x else [])).
  { unfold xc_density. fold ts. fold g. destruct g.
    - destruct (sigma_eq d G sp n1 n2 n3 SG Sd) as (sg & -> & Hsg). cbn [bind].
      assert (Ss : tshape sg = (if (sp =? 2)%nat then 3%nat else 1%nat) :: ns) by (destruct Hs as [-> | ->]; exact (proj1 Hsg)).
      destruct (gga_point lib ts d sg sp ns Hs Sd Ss Hl) as (e & -> & Se & Ve). cbn [rmap]. exists (tget e). split; [destruct e as [se te]; cbn in Se; subst se; reflexivity|].
      intros x. rewrite Ve, Cd. f_equal. unfold sig_at. destruct Hs as [-> | ->]; cbn [Nat.eqb] in Hsg, Ss |- *.
      + rewrite (column1 sg ns x Ss). rewrite (proj2 Hsg). reflexivity.
      + rewrite (column3 sg ns x Ss). destruct (proj2 Hsg x) as (-> & -> & ->). reflexivity.
    - destruct (lda_point lib ts d sp ns Hs Sd Hl) as (e & -> & Se & Ve). cbn [rmap]. exists (tget e). split; [destruct e as [se te]; cbn in Se; subst se; reflexivity|].
      intros x. rewrite Ve, Cd. reflexivity. }
  destruct E as (e & E & Ve). rewrite (e_xc_real _ d G vol xt false sp n1 n2 n3 e ns Sd eq_refl E). f_equal. f_equal. apply sumR_ext. intros x _. rewrite Ve. reflexivity.
Qed.

Lemma both_xc lib vg xt d d' G vol n1 n2 n3 : let ns := [n1; n2; n3] in (forall t, In t (split_on "+" xt) -> spin_consistent lib t) ->
  tshape G = ns -> tshape d = 1%nat :: ns -> tshape d' = 2%nat :: ns -> (forall s x, (s < 2)%nat -> inb x ns -> tget d' (s :: x) = tget d (0%nat :: x) / 2) ->
  e_xc (xc_density lib vg) d G vol xt false = e_xc (xc_density lib vg) d' G vol xt false.
Proof.
  intros ns Hl SG Sd Sd' Hd.
  assert (P1 : forall t, In t (split_on "+" xt) -> pick lib t (1 =? 2)%nat <> None) by (intros t Ht; destruct (Hl t Ht) as (f & E & _); unfold pick; cbn [Nat.eqb andb]; rewrite E; discriminate).
  assert (P2 : forall t, In t (split_on "+" xt) -> pick lib t (2 =? 2)%nat <> None).
  { intros t Ht. destruct (Hl t Ht) as (f & E & [Hx|(g & Eg & _)]); unfold pick; cbn [Nat.eqb andb].
    - rewrite Hx. cbn [negb]. rewrite E. discriminate.
    - destruct (is_exchange t); cbn [negb]; [rewrite E|rewrite Eg]; discriminate. }
  rewrite (e_xc_point lib vg xt d G vol 1 n1 n2 n3 (or_introl eq_refl) Sd SG P1), (e_xc_point lib vg xt d' G vol 2 n1 n2 n3 (or_intror eq_refl) Sd' SG P2).
  f_equal. f_equal. apply sumR_ext. intros x Hx. apply in_indices in Hx. cbn [seq sumR]. rewrite !Hd by (auto; lia). f_equal; [|field].
  unfold dens_at. cbn [seq map]. rewrite !Hd by (auto; lia). set (r := tget d (0%nat :: x) / 2). replace (tget d (0%nat :: x)) with (2 * r) by (unfold r; field).
  assert (GP : forall s s', (s < 2)%nat -> (s' < 2)%nat -> 4 * gprod ns G (fun y => tget d' (s :: y)) (fun y => tget d' (s' :: y)) x = gprod ns G (fun y => tget d (0%nat :: y)) (fun y => tget d (0%nat :: y)) x).
  { intros s s' Hs Hs'. pose proof (gprod_lin ns G (fun y => tget d' (s :: y)) (fun y => tget d' (s' :: y)) 1 1 x Hx) as L. 
    assert (E1 : forall s, (s < 2)%nat -> gprod ns G (fun y => tget d' (s :: y)) (fun y => tget d' (s :: y)) x = / 4 * gprod ns G (fun y => tget d (0%nat :: y)) (fun y => tget d (0%nat :: y)) x).
    { intros u Hu. unfold gprod. rewrite !Re_sumC, <- sumR_scal. apply sumR_ext. intros a _. unfold gradc. rewrite (grad_ext ns G _ (fun y => / 2 * tget d (0%nat :: y) + 0 * 0)) by (intros y Hy; rewrite Hd by assumption; field).
      fold (gradc ns G (fun y => / 2 * tget d (0%nat :: y) + 0 * 0) a x). rewrite (grad_lin ns G (fun y => tget d (0%nat :: y)) (fun _ => 0) (/ 2) 0 a x Hx). unfold gradc.
      destruct (grad_component ns G (fun y => tget d (0%nat :: y)) a x) as [p q], (grad_component ns G (fun _ => 0) a x) as [p' q']. unfold Cconj, Re. cbn. field. }
    assert (E2 : gprod ns G (fun y => tget d' (s :: y)) (fun y => tget d' (s' :: y)) x = gprod ns G (fun y => tget d' (s :: y)) (fun y => tget d' (s :: y)) x).
    { unfold gprod. rewrite !Re_sumC. apply sumR_ext. intros a _. unfold gradc. rewrite (grad_ext ns G (fun y => tget d' (s' :: y)) (fun y => tget d' (s :: y)) a x) by (intros y Hy; rewrite !Hd by assumption; reflexivity). reflexivity. }
    rewrite E2, E1 by assumption. field. }
  unfold point_xc. apply sumR_ext. intros t Ht. destruct (Hl t Ht) as (f & E & Hx'). unfold pick. cbn [Nat.eqb andb]. rewrite E.
  destruct (is_exchange t) eqn:Et; cbn [negb].
  - rewrite E. unfold gga_at, lda_at. cbn [andb nth]. destruct (contains "gga" xt).
    + unfold sig_at. cbn [Nat.eqb nth]. change [n1; n2; n3] with ns. rewrite !GP by lia. field.
    + field.
  - destruct Hx' as [Hx'|(g & Eg & Hg1 & Hg2)]; [discriminate|]. rewrite Eg. unfold gga_at, lda_at. cbn [andb]. destruct (contains "gga" xt).
    + unfold sig_at. cbn [Nat.eqb]. change [n1; n2; n3] with ns. pose proof (GP 0%nat 0%nat ltac:(lia) ltac:(lia)) as G0. pose proof (GP 0%nat 1%nat ltac:(lia) ltac:(lia)) as G1. pose proof (GP 1%nat 1%nat ltac:(lia) ltac:(lia)) as G2.
      rewrite <- G0. set (s0 := gprod ns G (fun y => tget d' (0%nat :: y)) (fun y => tget d' (0%nat :: y)) x) in *.
      replace (gprod ns G (fun y => tget d' (0%nat :: y)) (fun y => tget d' (1%nat :: y)) x) with s0 by lra. replace (gprod ns G (fun y => tget d' (1%nat :: y)) (fun y => tget d' (1%nat :: y)) x) with s0 by lra.
      symmetry. apply Hg2.
    + symmetry. apply Hg1.
Qed.

Lemma psi_eq ns vol c c' b b' x : (forall g, inb g ns -> tget c (b ++ g) = tget c' (b' ++ g)) -> psi ns vol c b x = psi ns vol c' b' x.
Proof. intros H. unfold psi. f_equal. apply idft_ext. intros g Hg. apply H. exact Hg. Qed.

Lemma closed_shell lib vg A c pos ch G kpts vol occ xt B n1 n2 n3 : let ns := [n1; n2; n3] in let K := length kpts in
  (forall t, In t (split_on "+" xt) -> spin_consistent lib t) ->
  m3det A <> 0 -> 0 < vol -> g_vectors A ns = Ok G -> length ch = length pos -> tshape c = [1%nat; K; B] ++ ns -> tshape occ = [1%nat; K; B] ->
  total_energy_split (xc_density lib vg) (both_channels c) pos ch G kpts vol (Some (half_occupation occ)) false xt =
  total_energy_split (xc_density lib vg) c pos ch G kpts vol (Some occ) false xt.
Proof.
  intros ns K Hl HA Hv HG Hp Sc So. symmetry.
  destruct (g_vectors_dual A n1 n2 n3 G HA HG) as (SG & _). fold ns in SG.
  assert (Hr : forall s x, inb x ns -> rho_s ns K B vol (both_channels c) (half_occupation occ) s x = rho_s ns K B vol c occ 0 x / 2).
  { intros s x Hx. unfold rho_s, Rdiv. rewrite <- sumR_scal_r. apply sumR_ext. intros k _. rewrite <- sumR_scal_r. apply sumR_ext. intros b _.
    rewrite (psi_eq ns vol (both_channels c) c [s; k; b] [0%nat; k; b] x) by (intros; reflexivity). unfold half_occupation. cbn [tget tl]. field. }
  apply (total_spin (xc_density lib vg) A c (both_channels c) pos ch G kpts vol occ (half_occupation occ) xt 1 2 B n1 n2 n3 false HA Hv HG Hp Sc So).
  - unfold both_channels. cbn [tshape]. rewrite Sc. reflexivity.
  - unfold half_occupation. cbn [tshape]. rewrite So. reflexivity.
  - intros x Hx. fold ns K. cbn [seq sumR]. rewrite !Hr by exact Hx. field.
  - fold ns K. cbn [seq sumR]. rewrite !Rplus_0_r.
    assert (E : forall s, sumR (seq 0 K) (fun k => sumR (seq 0 B) (fun b => ekin G kpts (both_channels c) ns s k b * tget (half_occupation occ) [s; k; b])) =
                          sumR (seq 0 K) (fun k => sumR (seq 0 B) (fun b => ekin G kpts c ns 0 k b * tget occ [0%nat; k; b])) / 2).
    { intros s. unfold Rdiv. rewrite <- sumR_scal_r. apply sumR_ext. intros k _. rewrite <- sumR_scal_r. apply sumR_ext. intros b _. unfold half_occupation. cbn [tget tl].
      replace (ekin G kpts (both_channels c) ns s k b) with (ekin G kpts c ns 0 k b) by reflexivity. field. }
    rewrite !E. field.
  - intros d d' Sd Sd' Vd Vd'. apply (both_xc lib vg xt d d' G vol n1 n2 n3 Hl SG Sd Sd'). intros s x Hs Hx. rewrite Vd' by assumption. rewrite Hr by exact Hx. rewrite (Vd 0%nat x) by (auto; lia). reflexivity.
Qed.

Lemma swap_xc lib vg xt d d' G vol n1 n2 n3 : let ns := [n1; n2; n3] in (forall t, In t (split_on "+" xt) -> spin_symmetric lib t) ->
  tshape G = ns -> tshape d = 2%nat :: ns -> tshape d' = 2%nat :: ns -> (forall s x, (s < 2)%nat -> inb x ns -> tget d' (s :: x) = tget d ((1 - s)%nat :: x)) ->
  e_xc (xc_density lib vg) d G vol xt false = e_xc (xc_density lib vg) d' G vol xt false.
Proof.
  intros ns Hl SG Sd Sd' Hd.
  assert (P2 : forall t, In t (split_on "+" xt) -> pick lib t (2 =? 2)%nat <> None).
  { intros t Ht. specialize (Hl t Ht). unfold spin_symmetric in Hl. unfold pick. cbn [Nat.eqb andb]. destruct (is_exchange t); cbn [negb]; [exact Hl|]. destruct Hl as (g & -> & _). discriminate. }
  rewrite (e_xc_point lib vg xt d G vol 2 n1 n2 n3 (or_intror eq_refl) Sd SG P2), (e_xc_point lib vg xt d' G vol 2 n1 n2 n3 (or_intror eq_refl) Sd' SG P2).
  f_equal. f_equal. apply sumR_ext. intros x Hx. apply in_indices in Hx. cbn [seq sumR]. rewrite !Hd by (auto; lia). cbn [Nat.sub]. f_equal; [|ring].
  unfold dens_at. cbn [seq map]. rewrite !Hd by (auto; lia). cbn [Nat.sub]. change [n1; n2; n3] with ns.
  assert (GP : forall s s', (s < 2)%nat -> (s' < 2)%nat -> gprod ns G (fun y => tget d' (s :: y)) (fun y => tget d' (s' :: y)) x = gprod ns G (fun y => tget d ((1 - s)%nat :: y)) (fun y => tget d ((1 - s')%nat :: y)) x).
  { intros s s' Hs Hs'. unfold gprod. rewrite !Re_sumC. apply sumR_ext. intros a _. unfold gradc.
    rewrite (grad_ext ns G (fun y => tget d' (s :: y)) (fun y => tget d ((1 - s)%nat :: y)) a x) by (intros y Hy; apply Hd; assumption).
    rewrite (grad_ext ns G (fun y => tget d' (s' :: y)) (fun y => tget d ((1 - s')%nat :: y)) a x) by (intros y Hy; apply Hd; assumption). reflexivity. }
  unfold point_xc. apply sumR_ext. intros t Ht. specialize (Hl t Ht). unfold spin_symmetric in Hl. unfold pick. cbn [Nat.eqb andb].
  unfold gga_at, lda_at, sig_at. cbn [Nat.eqb]. rewrite !GP by lia. cbn [Nat.sub].
  destruct (is_exchange t) eqn:Et; cbn [negb andb nth].
  - destruct (lib t false) as [f|]; [|reflexivity]. destruct (contains "gga" xt); cbn [nth]; ring.
  - destruct Hl as (g & -> & H1 & H2). destruct (contains "gga" xt); [|apply H1]. rewrite H2. f_equal. f_equal. f_equal. apply gprod_sym.
Qed.

Lemma swapped lib vg A c pos ch G kpts vol occ xt B n1 n2 n3 : let ns := [n1; n2; n3] in let K := length kpts in
  (forall t, In t (split_on "+" xt) -> spin_symmetric lib t) ->
  m3det A <> 0 -> 0 < vol -> g_vectors A ns = Ok G -> length ch = length pos -> tshape c = [2%nat; K; B] ++ ns -> tshape occ = [2%nat; K; B] ->
  total_energy_split (xc_density lib vg) (swap_channels c) pos ch G kpts vol (Some (swap_channels occ)) false xt =
  total_energy_split (xc_density lib vg) c pos ch G kpts vol (Some occ) false xt.
Proof.
  intros ns K Hl HA Hv HG Hp Sc So. symmetry.
  destruct (g_vectors_dual A n1 n2 n3 G HA HG) as (SG & _). fold ns in SG.
  assert (Hr : forall s x, (s < 2)%nat -> inb x ns -> rho_s ns K B vol (swap_channels c) (swap_channels occ) s x = rho_s ns K B vol c occ (1 - s) x) by (intros; reflexivity).
  apply (total_spin (xc_density lib vg) A c (swap_channels c) pos ch G kpts vol occ (swap_channels occ) xt 2 2 B n1 n2 n3 false HA Hv HG Hp Sc So Sc So).
  - intros x Hx. fold ns K. cbn [seq sumR]. rewrite !Hr by (auto; lia). cbn [Nat.sub]. ring.
  - fold ns K. cbn [seq sumR].
    assert (E : forall s, sumR (seq 0 K) (fun k => sumR (seq 0 B) (fun b => ekin G kpts (swap_channels c) ns s k b * tget (swap_channels occ) [s; k; b])) =
                          sumR (seq 0 K) (fun k => sumR (seq 0 B) (fun b => ekin G kpts c ns (1 - s) k b * tget occ [(1 - s)%nat; k; b]))) by (intros; reflexivity).
    rewrite !E. cbn [Nat.sub]. ring.
  - intros d d' Sd Sd' Vd Vd'. apply (swap_xc lib vg xt d d' G vol n1 n2 n3 Hl SG Sd Sd'). intros s x Hs Hx. rewrite Vd' by assumption. rewrite Hr by assumption. symmetry. apply Vd; [lia|exact Hx].
Qed.

(** ** The Kohn-Sham potential of two equal channels. *)
Lemma potential_gap lib vg xt (d : tensor R) G ns : let ts := split_on "+" xt in let F r := lda_sum_at lib ts [r] in
  contains "gga" xt = false -> (forall t, In t ts -> is_exchange t = true /\ lib t false <> None) -> tshape d = 1%nat :: ns ->
  (forall x, inb x ns -> ex_derive F (tget d (0%nat :: x))) ->
  exists v v2, xc_density lib vg d G true xt = Ok v /\ xc_density lib vg (half_occupation d) G true xt = Ok v2 /\ tshape v = 1%nat :: ns /\ tshape v2 = 2%nat :: ns /\
    forall s x, (s < 2)%nat -> inb x ns -> let r := tget d (0%nat :: x) in
      is_derive (fun r => r * F r) r (Re (tget v (0%nat :: x))) /\
      tget v2 (s :: x) = (tget v (0%nat :: x) - RtoC (r / 2 * Derive F r))%C.
Proof.
  intros ts F Hg Hl Sd HF.
  assert (S2 : tshape (half_occupation d) = 2%nat :: ns) by (unfold half_occupation; cbn [tshape]; rewrite Sd; reflexivity).
  assert (P : forall p t, In t ts -> pick lib t p <> None) by (intros p t Ht; destruct (Hl t Ht) as [E N]; unfold pick; rewrite E, andb_false_r; exact N).
  destruct (lda_point lib ts d 1 ns (or_introl eq_refl) Sd (P _)) as (e & E & _). destruct (lda_point lib ts (half_occupation d) 2 ns (or_intror eq_refl) S2 (P _)) as (e2 & E2 & _).
  assert (F2 : forall a b, lda_sum_at lib ts [a; b] = / 2 * (F (2 * a) + F (2 * b))).
  { intros a b. unfold F, lda_sum_at. cbn [length Nat.eqb]. rewrite <- sumR_plus, <- sumR_scal. apply sumR_ext. intros t Ht. destruct (Hl t Ht) as [Et N]. unfold pick, lda_at. rewrite Et. cbn [andb negb nth].
    destruct (lib t false); [reflexivity|contradiction]. }
  set (V := fun (d : tensor R) (n : nat) => mkT (n :: ns) (fun i => let v := column d (tl i) in let k := hd 0%nat i in Derive (fun x => lda_sum_at lib ts (upd k (fun _ => x) v)) (nth k v 0) * nth k v 0 + lda_sum_at lib ts v)).
  exists (tmap RtoC (V d 1%nat)), (tmap RtoC (V (half_occupation d) 2%nat)).
  split; [unfold xc_density; rewrite Hg; fold ts; rewrite E; cbn [bind]; unfold vxc_lda; rewrite Sd; reflexivity|].
  split; [unfold xc_density; rewrite Hg; fold ts; rewrite E2; cbn [bind]; unfold vxc_lda; rewrite S2; reflexivity|]. split; [reflexivity|]. split; [reflexivity|].
  intros s x Hs Hx r. unfold V, tmap. cbn [tget tl hd]. rewrite (column1 d ns x Sd), (column2 (half_occupation d) ns x S2). cbn [upd nth].
  unfold half_occupation. cbn [tget tl]. fold r. specialize (HF x Hx). fold r in HF.
  assert (HF' : Derive (fun x0 => F x0) r = Derive F r) by reflexivity.
  split.
  - change (Re (RtoC ?a)) with a. change (is_derive (fun r0 : R => r0 * F r0) r (Derive F r * r + F r)). apply derive_r_mult. exact HF.
  - rewrite F2. replace (2 * (r / 2)) with r by field.
    assert (D : forall s, (s < 2)%nat -> Derive (fun x0 => lda_sum_at lib ts (upd s (fun _ => x0) [r / 2; r / 2])) (nth s [r / 2; r / 2] 0) = Derive F r).
    { intros u Hu. assert (U : u = 0%nat \/ u = 1%nat) by lia. apply is_derive_unique.
      apply (is_derive_ext (fun x0 => / 2 * (F (2 * x0) + F r))).
      - intros y. destruct U as [-> | ->]; cbn [upd]; rewrite F2; replace (2 * (r / 2)) with r by field; [reflexivity|]. rewrite (Rplus_comm (F r)). reflexivity.
      - replace (nth u [r / 2; r / 2] 0) with (r / 2) by (destruct U as [-> | ->]; reflexivity).
        assert (H : is_derive (fun x0 => F (2 * x0)) (r / 2) (2 * Derive F r)).
        { apply (is_derive_comp F (fun x0 => 2 * x0) (r / 2)); [replace (2 * (r / 2)) with r by field; apply Derive_correct; exact HF|]. auto_derive; [exact I|ring]. }
        assert (H' : is_derive (fun x0 => F (2 * x0) + F r) (r / 2) (2 * Derive F r + 0)) by (apply (is_derive_plus (fun x0 => F (2 * x0)) (fun _ => F r)); [exact H|apply (is_derive_const (F r))]).
        replace (Derive F r) with (/ 2 * (2 * Derive F r + 0)) by field. apply (is_derive_scal (fun x0 => F (2 * x0) + F r) (r / 2) (/ 2) _ H'). }
    specialize (D s Hs). cbn [upd nth] in D. rewrite D.
    change (Derive (fun x0 => lda_sum_at lib ts [x0]) r) with (Derive F r). change (lda_sum_at lib ts [r]) with (F r). rewrite <- RtoC_minus. f_equal. cbv beta. unfold F. assert (U : s = 0%nat \/ s = 1%nat) by lia. destruct U as [-> | ->]; field.
Qed.
Lemma potential_gap_strict lib vg xt (d : tensor R) G ns : let ts := split_on "+" xt in let F r := lda_sum_at lib ts [r] in
  contains "gga" xt = false -> (forall t, In t ts -> is_exchange t = true /\ lib t false <> None) -> tshape d = 1%nat :: ns ->
  (forall x, inb x ns -> 0 < tget d (0%nat :: x) /\ ex_derive F (tget d (0%nat :: x)) /\ Derive F (tget d (0%nat :: x)) < 0) ->
  exists v v2, xc_density lib vg d G true xt = Ok v /\ xc_density lib vg (half_occupation d) G true xt = Ok v2 /\
    forall s x, (s < 2)%nat -> inb x ns -> Re (tget v (0%nat :: x)) < Re (tget v2 (s :: x)).
Proof.
  intros ts F Hg Hl Sd HF. destruct (potential_gap lib vg xt d G ns Hg Hl Sd) as (v & v2 & E & E2 & _ & _ & H); [intros x Hx; apply HF; exact Hx|].
  exists v, v2. split; [exact E|]. split; [exact E2|]. intros s x Hs Hx. destruct (H s x Hs Hx) as [_ ->]. destruct (HF x Hx) as (Hp & _ & Hd). fold ts.
  change (fun r => lda_sum_at lib ts [r]) with F. destruct (tget v (0%nat :: x)) as [a b]. unfold Re. cbn. fold F. set (q := Derive F _) in *. nra.
Qed.

(** The two channels of a system without spin hold half the restricted occupation each. *)
Lemma uniform_halves K N nb o o2 : uniform K N 0 nb true = Ok o -> uniform K N 0 nb false = Ok o2 -> teq o2 (half_occupation o).
Proof.
  unfold uniform. destruct (match nb with Some b => Some b | None => if (N <? 0)%Z then None else Some (Z.to_nat N) end) as [B|]; [|discriminate].
  destruct (K =? 0)%nat; [discriminate|]. intros E E2. injection E as <-. injection E2 as <-. split; [reflexivity|]. intros i Hi. cbn [tshape] in Hi.
  destruct i as [|s i]; [inversion Hi|]. cbn [half_occupation tget tl sum_spin nth Nat.eqb]. rewrite Z.add_0_r, Z.sub_0_r.
  set (v := 1 / INR K). destruct (s =? 0)%nat; destruct (_ <? _)%Z; lra.
Qed.
Lemma gamma_halves K N nb o o2 : gamma K N 0 nb true = Ok o -> gamma K N 0 nb false = Ok o2 -> teq o2 (half_occupation o).
Proof.
  unfold gamma. destruct (match nb with Some b => Some b | None => if (N <? 0)%Z then None else Some (Z.to_nat N) end) as [B|]; [|discriminate].
  intros E E2. injection E as <-. injection E2 as <-. split; [reflexivity|]. intros i Hi. cbn [tshape] in Hi.
  destruct i as [|s i]; [inversion Hi|]. cbn [half_occupation tget tl sum_spin nth Nat.eqb]. rewrite Z.add_0_r, Z.sub_0_r.
  destruct (s =? 0)%nat; destruct (_ && _)%bool; lra.
Qed.
