(** The gradient-dependent potential: when it is right. *)
From Coq Require Import Reals Lra Lia.
From Coquelicot Require Import Coquelicot.
From Coq Require Import Ascii String List Arith ZArith Bool.
From Verif Require Import Base Sums Tensor DFT GridModel PadModel Lin3 VecModel VecProofs PwModel XcModel EnergyModel GgaModel XcProofs XcProofs2 XcProofs3 GgaProofs.
Import ListNotations.
Local Open Scope R_scope.

Lemma idft_null ns (F : list nat -> C) k : (forall x, inb x ns -> F x = RtoC 0) -> idft ns F k = RtoC 0.
Proof.
  intros H. rewrite (idft_ext ns F (fun x => RtoC 0 * RtoC 0)%C) by (intros x Hx; rewrite (H x Hx); ring). rewrite idft_scal. ring.
Qed.
Lemma dft_null ns (F : list nat -> C) k : (forall x, inb x ns -> F x = RtoC 0) -> dft ns F k = RtoC 0.
Proof.
  intros H. rewrite (dft_ext ns F (fun x => RtoC 0 * RtoC 0)%C) by (intros x Hx; rewrite (H x Hx); ring). rewrite dft_scal. ring.
Qed.
Lemma code_grad_null n2 n3 gs F x1 x2 x3 d : (forall b c, (b < n2)%nat -> (c < n3)%nat -> F [x1; b; c] = RtoC 0 \/ tget gs [x1; b; c] = vzero) ->
  code_grad n2 n3 gs F x1 x2 x3 d = RtoC 0.
Proof.
  intros H. unfold code_grad. apply idft_null. intros y Hy. destruct (inb3 _ _ _ _ Hy) as (a & b & c & -> & Ha & Hb & _). cbn [removelast last].
  destruct (H a b Ha Hb) as [-> | ->]; [ring|]. assert (E : vcomp c vzero = 0) by (destruct c as [|[|c]]; reflexivity). rewrite E. ring.
Qed.
Lemma code_term_null n1 n2 n3 gs t f x1 x2 x3 : (x1 < n1)%nat ->
  (forall y, inb y [n1; n2; n3] -> dft [n1; n2; n3] (fun y => RtoC (f y)) y = RtoC 0 \/ tget gs y = vzero) ->
  code_term n1 n2 n3 gs t f x1 x2 x3 = RtoC 0.
Proof.
  intros H1 H. unfold code_term. rewrite sumC_zero.
  2:{ intros d _. rewrite (code_grad_null n2 n3 gs (dft [n1; n2; n3] (fun y => RtoC (f y)))) by (intros b c Hb Hc; apply H; apply inb3_intro; assumption). ring. }
  rewrite idft_null; [ring|]. intros y Hy. destruct (H y Hy) as [-> | ->]; [ring|]. replace (norm2 vzero) with 0 by (unfold norm2, dot, vzero; cbn; ring).
  replace (-1 * 0) with 0 by ring. ring.
Qed.
Lemma code_term_null_weight n1 n2 n3 gs t f x1 x2 x3 : inb [x1; x2; x3] [n1; n2; n3] -> (forall y, inb y [n1; n2; n3] -> t y = 0) ->
  code_term n1 n2 n3 gs t f x1 x2 x3 = RtoC 0.
Proof.
  intros Hx H. unfold code_term. rewrite sumC_zero.
  2:{ intros d _. rewrite (code_grad_null n2 n3 gs (part_dft n3 t)); [ring|]. intros b c Hb Hc. left. unfold part_dft. apply dft_null. intros z Hz. cbn [removelast last app].
      inversion Hz as [|z1 ? z' ? Hz1 Hz']; subst. inversion Hz'; subst. destruct (inb3 _ _ _ _ Hx) as (a' & b' & c' & E & Ha & _). injection E as <- <- <-.
      rewrite (H [x1; b; z1]) by (apply inb3_intro; assumption). reflexivity. }
  rewrite (H _ Hx). ring.
Qed.

(** *** the branch of xc_density *)
Lemma gga_known lib ts (d sg : tensor R) sp ns : (sp = 1 \/ sp = 2)%nat -> tshape d = sp :: ns -> tshape sg = (if (sp =? 2)%nat then 3%nat else 1%nat) :: ns ->
  (forall t b, In t ts -> lib t b <> None) -> exists e, gga_sum lib ts d sg = Ok e.
Proof.
  intros Hs Sd Ss Hl. unfold gga_sum.
  assert (M : exists l, mapM (fun t => gga lib t d sg) ts = Ok l).
  { induction ts as [|t ts IH]; [eexists; reflexivity|]. destruct IH as (l & E); [intros u b Hu; apply Hl; right; exact Hu|]. cbn [mapM]. rewrite E.
    assert (L : exists a, gga lib t d sg = Ok a).
    { unfold gga. rewrite Sd, Ss. unfold pick. pose proof (Hl t ((sp =? 2)%nat && negb (is_exchange t))%bool (or_introl eq_refl)) as Q. destruct (lib t _); [|contradiction].
      destruct (list_eq_dec Nat.eq_dec _ _) as [_|N]; [|exfalso; apply N; reflexivity].
      destruct Hs as [-> | ->]; cbn [Nat.eqb orb]; eexists; reflexivity. }
    destruct L as (a & ->). cbn [bind]. eexists. reflexivity. }
  destruct M as (l & ->). cbn [bind]. eexists. reflexivity.
Qed.

Lemma gga_full lib xt G d sp n1 n2 n3 : let ns := [n1; n2; n3] in let ts := split_on "+" xt in
  (sp = 1 \/ sp = 2)%nat -> contains "gga" xt = true -> (forall t b, In t ts -> lib t b <> None) -> tshape d = sp :: ns -> tshape G = ns ->
  exists sg v, sigma_r_fn d G = Ok sg /\ tshape sg = (if (sp =? 2)%nat then 3%nat else 1%nat) :: ns /\
    xc_density_full lib d G true xt = Ok v /\ tshape v = sp :: ns /\
    forall k x1 x2 x3, (k < sp)%nat -> inb [x1; x2; x3] ns -> tget v [k; x1; x2; x3] = gga_value (gga_sum_at lib ts) d sg G sp n1 n2 n3 k x1 x2 x3.
Proof.
  intros ns ts Hs Hg Hl Sd SG. destruct (sigma_eq d G sp n1 n2 n3 SG Sd) as (sg & E & H).
  assert (Ss : tshape sg = (if (sp =? 2)%nat then 3%nat else 1%nat) :: ns) by (destruct Hs as [-> | ->]; cbn [Nat.eqb] in *; apply H).
  destruct (vxc_gga_eq (gga_sum_at lib ts) d sg G sp n1 n2 n3 Hs Sd Ss SG) as (v & Ev & Sv & Hv).
  destruct (gga_known lib ts d sg sp ns Hs Sd Ss Hl) as (e & Ee).
  exists sg, v. split; [exact E|]. split; [exact Ss|]. split; [|split; [exact Sv|exact Hv]].
  unfold xc_density_full, xc_density. rewrite Hg, E. cbn [bind]. unfold gga_potential. fold ts. rewrite Ee. exact Ev.
Qed.

(** *** a uniform density *)
Lemma dft_const_or ns n1 n2 n3 A G c y : ns = [n1; n2; n3] -> m3det A <> 0 -> g_vectors A ns = Ok G -> inb y ns ->
  dft ns (fun _ => c) y = RtoC 0 \/ tget G y = vzero.
Proof.
  intros -> HA HG Hy. destruct (g_vectors_dual A n1 n2 n3 G HA HG) as (_ & H0 & _). destruct (is_origin y) eqn:E.
  - right. destruct (inb3 _ _ _ _ Hy) as (a & b & e & -> & _). unfold is_origin in E. cbn [forallb] in E. apply andb_prop in E. destruct E as [Ea E]. apply andb_prop in E. destruct E as [Eb E]. apply andb_prop in E. destruct E as [Ec _].
    apply Nat.eqb_eq in Ea, Eb, Ec. subst. exact H0.
  - left. apply dft_const; assumption.
Qed.

Lemma column_unpol (d : tensor R) ns x : tshape d = 1%nat :: ns -> column d x = [tget d (0%nat :: x)].
Proof. intros S. unfold column. rewrite S. reflexivity. Qed.
Lemma column_pol (d : tensor R) ns x : tshape d = 2%nat :: ns -> column d x = [tget d (0%nat :: x); tget d (1%nat :: x)].
Proof. intros S. unfold column. rewrite S. reflexivity. Qed.
Lemma column_three (d : tensor R) ns x : tshape d = 3%nat :: ns -> column d x = [tget d (0%nat :: x); tget d (1%nat :: x); tget d (2%nat :: x)].
Proof. intros S. unfold column. rewrite S. reflexivity. Qed.

Lemma gprod_const ns n1 n2 n3 A G c f x : ns = [n1; n2; n3] -> m3det A <> 0 -> g_vectors A ns = Ok G ->
  gprod ns G f (fun _ => c) x = 0.
Proof.
  intros E HA HG. unfold gprod. rewrite sumC_zero; [reflexivity|]. intros a _. unfold gradc at 2. unfold grad_component. rewrite idft_null; [ring|].
  intros y Hy. destruct (dft_const_or ns n1 n2 n3 A G (RtoC c) y E HA HG Hy) as [-> | ->]; [ring|]. assert (V : vcomp a vzero = 0) by (destruct a as [|[|a]]; reflexivity). rewrite V. ring.
Qed.

Lemma gprod_ext ns G f f' g g' x : (forall y, inb y ns -> f y = f' y) -> (forall y, inb y ns -> g y = g' y) -> gprod ns G f g x = gprod ns G f' g' x.
Proof.
  intros Hf Hg. assert (K : forall u u' a, (forall y, inb y ns -> u y = u' y) -> gradc ns G u a x = gradc ns G u' a x).
  { intros u u' a Hu. unfold gradc, grad_component. apply idft_ext. intros y Hy. f_equal. f_equal. apply dft_ext. intros z Hz. rewrite (Hu z Hz). reflexivity. }
  unfold gprod. f_equal. apply sumC_ext. intros a _. rewrite (K f f' a Hf), (K g g' a Hg). reflexivity.
Qed.

Lemma gga_uniform lib xt A G (d : tensor R) (c : R) n1 n2 n3 : let ns := [n1; n2; n3] in let ts := split_on "+" xt in
  m3det A <> 0 -> g_vectors A ns = Ok G -> contains "gga" xt = true -> (forall t b, In t ts -> lib t b <> None) ->
  tshape d = 1%nat :: ns -> (forall x, inb x ns -> tget d (0%nat :: x) = c) ->
  ex_derive (fun r : R => gga_sum_at lib ts [r] [0]) c ->
  exists v e, xc_density_full lib d G true xt = Ok v /\ tshape v = 1%nat :: ns /\
    is_derive (fun r : R => r * gga_sum_at lib ts [r] [0]) c e /\ forall x, inb x ns -> tget v (0%nat :: x) = RtoC e.
Proof.
  intros ns ts HA HG Hg Hl Sd Hc Hd. destruct (g_vectors_dual A n1 n2 n3 G HA HG) as (SG & _).
  destruct (gga_full lib xt G d 1 n1 n2 n3 (or_introl eq_refl) Hg Hl Sd SG) as (sg & v & Es & Ss & Ev & Sv & Hv).
  destruct (sigma_eq d G 1 n1 n2 n3 SG Sd) as (sg' & Es' & H'). rewrite Es in Es'. injection Es' as <-. cbn [Nat.eqb] in H', Ss. destruct H' as [_ H'].
  assert (Hs0 : forall x, tget sg (0%nat :: x) = 0).
  { intros x. etransitivity; [apply (H' 0%nat x)|]. etransitivity; [exact (gprod_ext ns G _ (fun _ => c) _ (fun _ => c) x Hc Hc)|]. eapply gprod_const; [reflexivity|exact HA|exact HG]. }
  exists v, (Derive (fun r : R => gga_sum_at lib ts [r] [0]) c * c + gga_sum_at lib ts [c] [0]).
  split; [exact Ev|]. split; [exact Sv|]. split.
  { apply (derive_r_mult (fun r => gga_sum_at lib ts [r] [0])), Hd. }
  intros x Hx. destruct (inb3 _ _ _ _ Hx) as (x1 & x2 & x3 & -> & H1 & _). rewrite (Hv 0%nat x1 x2 x3 (Nat.lt_0_1) Hx). unfold gga_value. cbn [Nat.eqb].
  rewrite code_term_null; [|exact H1|].
  2:{ intros y Hy. rewrite (dft_ext ns _ (fun _ => RtoC c)) by (intros z Hz; exact (f_equal RtoC (Hc z Hz))). apply (dft_const_or ns n1 n2 n3 A G (RtoC c) y eq_refl HA HG Hy). }
  unfold gga_local. rewrite (column_unpol d ns _ Sd), (column_unpol sg ns _ Ss), Hs0, (Hc _ Hx). unfold dexc_drho. cbn [upd nth].
  fold ts. match goal with |- (?a - RtoC 2 * RtoC 0)%C = _ => replace (a - RtoC 2 * RtoC 0)%C with a by ring end. reflexivity.
Qed.

(** *** a functional that ignores the gradients *)
Lemma gga_value_no_gradient exc (d sg : tensor R) G s n1 n2 n3 k x1 x2 x3 z : let ns := [n1; n2; n3] in
  (s = 1 \/ s = 2)%nat -> tshape d = s :: ns -> tshape sg = (if (s =? 2)%nat then 3%nat else 1%nat) :: ns -> length z = (if (s =? 2)%nat then 3%nat else 1%nat) ->
  (forall u a b, length a = length z -> length b = length z -> exc u a = exc u b) -> inb [x1; x2; x3] ns -> (k < s)%nat ->
  gga_value exc d sg G s n1 n2 n3 k x1 x2 x3 = RtoC (Derive (fun x => exc (upd k (fun _ => x) (column d [x1; x2; x3])) z) (nth k (column d [x1; x2; x3]) 0) * nth k (column d [x1; x2; x3]) 0 + exc (column d [x1; x2; x3]) z).
Proof.
  intros ns Hs Sd Ss Lz Hz Hx Hk.
  assert (Lc : forall x, length (column sg x) = length z) by (intros x; unfold column; rewrite map_length, seq_length, Ss; cbn [hd]; symmetry; exact Lz).
  assert (Lu : forall j f (l : list R), length (upd j f l) = length l) by (intros j f l; revert j; induction l as [|a l IH]; intros [|j]; cbn; auto).
  assert (W : forall j l y, gga_weight exc d sg j l y = 0).
  { intros j l y. unfold gga_weight, dexc_dsigma. rewrite (Derive_ext _ (fun _ => exc (column d y) z)) by (intros t; apply Hz; [rewrite Lu; apply Lc|reflexivity]). rewrite Derive_const. ring. }
  assert (M : forall j l y, gga_masked exc d sg j l y = 0) by (intros j l y; unfold gga_masked, where_pos; rewrite W; destruct (Rlt_dec _ _); reflexivity).
  assert (T : forall j l f, code_term n1 n2 n3 G (gga_weight exc d sg j l) f x1 x2 x3 = RtoC 0) by (intros j l f; apply code_term_null_weight; [exact Hx|intros; apply W]).
  assert (T' : forall j l f, code_term n1 n2 n3 G (gga_masked exc d sg j l) f x1 x2 x3 = RtoC 0) by (intros j l f; apply code_term_null_weight; [exact Hx|intros; apply M]).
  unfold gga_value. cbv zeta. rewrite !T, !T'.
  assert (Loc : gga_local exc d sg k [x1; x2; x3] = Derive (fun x => exc (upd k (fun _ => x) (column d [x1; x2; x3])) z) (nth k (column d [x1; x2; x3]) 0) * nth k (column d [x1; x2; x3]) 0 + exc (column d [x1; x2; x3]) z).
  { unfold gga_local. f_equal; [|apply Hz; [apply Lc|reflexivity]].
    assert (N : nth k (column d [x1; x2; x3]) 0 = tget d (k :: [x1; x2; x3])).
    { destruct Hs as [-> | ->]; [rewrite (column_unpol d ns _ Sd)|rewrite (column_pol d ns _ Sd)]; destruct k as [|[|k]]; try lia; reflexivity. }
    rewrite <- N. f_equal. unfold dexc_drho. apply Derive_ext. intros t. apply Hz; [apply Lc|reflexivity]. }
  rewrite Loc. destruct (s =? 2)%nat; [destruct k|]; ring.
Qed.

Lemma gga_no_gradient lib xt G d sp n1 n2 n3 z : let ns := [n1; n2; n3] in let ts := split_on "+" xt in
  (sp = 1 \/ sp = 2)%nat -> contains "gga" xt = true -> (forall t b, In t ts -> lib t b <> None) -> tshape d = sp :: ns -> tshape G = ns ->
  length z = (if (sp =? 2)%nat then 3%nat else 1%nat) ->
  (forall u a b, length a = length z -> length b = length z -> gga_sum_at lib ts u a = gga_sum_at lib ts u b) ->
  exists v w, xc_density_full lib d G true xt = Ok v /\ tshape v = sp :: ns /\ vxc_lda (fun u => gga_sum_at lib ts u z) d = Ok w /\ tshape w = sp :: ns /\
    forall i, inb i (sp :: ns) -> tget v i = RtoC (tget w i).
Proof.
  intros ns ts Hs Hg Hl Sd SG Lz Hz. destruct (gga_full lib xt G d sp n1 n2 n3 Hs Hg Hl Sd SG) as (sg & v & Es & Ss & Ev & Sv & Hv).
  assert (Eb : ((sp =? 1) || (sp =? 2))%nat = true) by (destruct Hs; subst; reflexivity).
  eexists v, _. split; [exact Ev|]. split; [exact Sv|]. split; [unfold vxc_lda; rewrite Sd, Eb; reflexivity|]. split; [reflexivity|].
  intros i Hi. inversion Hi as [|k ? x ? Hk Hx]; subst. destruct (inb3 _ _ _ _ Hx) as (x1 & x2 & x3 & -> & _). rewrite (Hv k x1 x2 x3 Hk Hx).
  cbn [tget hd tl]. exact (gga_value_no_gradient _ d sg G sp n1 n2 n3 k x1 x2 x3 z Hs Sd Ss Lz Hz Hx Hk).
Qed.
