(** Rotated orbitals stay orthonormal; the Hamiltonian as a form on vectors. *)
From Coq Require Import Reals Lra Lia.
From Coquelicot Require Import Coquelicot.
From Coq Require Import Ascii String List Arith ZArith Bool.
From Verif Require Import Base Sums Tensor DFT GridModel PadModel Lin3 VecModel VecProofs OccModel PwModel PwSpec PwProofs BraketModel XcModel XcSpec EnergyModel HamModel HamSpec XcProofs XcProofs3 HamProofs3 DerProofs ReachSpec KsProofs.
Import ListNotations.
Local Open Scope R_scope.

(** A function that does not fall to the right of 0 has no negative slope there. *)
Lemma slope_right (E : R -> R) l h : is_derive E 0 l -> 0 < h -> (forall t, 0 < t < h -> E 0 <= E t) -> 0 <= l.
Proof.
  intros D Hh H. apply is_derive_Reals in D. destruct (Rle_or_lt 0 l) as [|Hl]; [assumption|exfalso].
  destruct (D (- l / 2) ltac:(lra)) as (d & Hd). set (t := Rmin (d / 2) (h / 2)). pose proof (cond_pos d) as Pd.
  assert (Ht : 0 < t) by (unfold t; apply Rmin_glb_lt; lra). assert (Ht1 : t <= d / 2) by apply Rmin_l. assert (Ht2 : t <= h / 2) by apply Rmin_r.
  specialize (Hd t ltac:(lra) ltac:(rewrite Rabs_pos_eq; lra)). rewrite Rplus_0_l in Hd. specialize (H t ltac:(lra)).
  assert (0 <= (E t - E 0) / t) by (apply Rmult_le_pos; [lra|left; apply Rinv_0_lt_compat; exact Ht]).
  apply Rabs_def2 in Hd. lra.
Qed.
Lemma slope_zero (E : R -> R) l : is_derive E 0 l -> (forall t, E 0 <= E t) -> l = 0.
Proof.
  intros D H. assert (0 <= l) by (apply (slope_right E l 1 D); [lra|intros; apply H]).
  assert (0 <= - l); [|lra]. apply (slope_right (fun t => E (- t)) (- l) 1).
  - replace (- l) with (-1 * l) by ring. apply (is_derive_comp E (fun t => - t) 0 l (-1)).
    + rewrite Ropp_0. exact D.
    + auto_derive; [exact I|ring].
  - lra.
  - intros t _. rewrite Ropp_0. apply H.
Qed.

(** The product of two vectors. *)
Definition vdot (ns : list nat) (a b : list nat -> C) : C := sumC (indices ns) (fun g => Cconj (a g) * b g)%C.
Definition orb (c : tensor C) (k b : nat) : list nat -> C := fun g => tget c ([0%nat; k; b] ++ g).

Lemma vdot_conj ns a b : Cconj (vdot ns a b) = vdot ns b a.
Proof. unfold vdot. rewrite Cconj_sum. apply sumC_ext. intros g _. rewrite Cconj_mult, Cconj_conj. ring. Qed.
Lemma vdot_ext ns a a' b b' : (forall g, inb g ns -> a g = a' g) -> (forall g, inb g ns -> b g = b' g) -> vdot ns a b = vdot ns a' b'.
Proof. intros Ha Hb. apply sumC_ext. intros g Hg. apply in_indices in Hg. rewrite Ha, Hb by exact Hg. reflexivity. Qed.
Lemma vdot_lin ns a b b' s s' : vdot ns a (fun g => s * b g + s' * b' g)%C = (s * vdot ns a b + s' * vdot ns a b')%C.
Proof. unfold vdot. rewrite <- !sumC_scal, <- sumC_plus. apply sumC_ext. intros; ring. Qed.
Lemma vdot_linl ns a a' b s s' : vdot ns (fun g => s * a g + s' * a' g)%C b = (Cconj s * vdot ns a b + Cconj s' * vdot ns a' b)%C.
Proof. unfold vdot. rewrite <- !sumC_scal, <- sumC_plus. apply sumC_ext. intros. rewrite Cconj_plus, !Cconj_mult. ring. Qed.
Lemma vdot_scal ns a b s : vdot ns a (fun g => s * b g)%C = (s * vdot ns a b)%C.
Proof. unfold vdot. rewrite <- sumC_scal. apply sumC_ext. intros; ring. Qed.
Lemma vdot_scall ns a b s : vdot ns (fun g => s * a g)%C b = (Cconj s * vdot ns a b)%C.
Proof. unfold vdot. rewrite <- sumC_scal. apply sumC_ext. intros. rewrite Cconj_mult. ring. Qed.
Lemma vdot_sum ns a m (w : nat -> C) (b : nat -> list nat -> C) : vdot ns a (fun g => sumC (seq 0 m) (fun j => w j * b j g))%C = sumC (seq 0 m) (fun j => w j * vdot ns a (b j))%C.
Proof.
  unfold vdot. rewrite (sumC_ext (indices ns) _ (fun g => sumC (seq 0 m) (fun j => w j * (Cconj (a g) * b j g))%C)).
  - rewrite sumC_swap. apply sumC_ext. intros j _. apply sumC_scal.
  - intros g _. rewrite <- sumC_scal. apply sumC_ext. intros; ring.
Qed.
Lemma vdot_self ns a : vdot ns a a = RtoC (sumR (indices ns) (fun g => Cnorm2 (a g))).
Proof. unfold vdot. rewrite <- sumC_RtoC. apply sumC_ext. intros g _. apply Cconj_mult_self. Qed.
Lemma vdot_zero ns a : vdot ns a a = RtoC 0 -> forall g, inb g ns -> a g = RtoC 0.
Proof.
  intros H g Hg. rewrite vdot_self in H. apply RtoC_inj in H. apply Cnorm2_zero.
  apply (sumR_nonneg_zero (indices ns) (fun g => Cnorm2 (a g))); [intros; apply Cnorm2_nonneg|exact H|apply in_indices; exact Hg].
Qed.

(** The directions [e] in which the selected orbitals can be rotated. *)
Definition turnable (ns : list nat) (K B : nat) (h : nat -> nat -> bool) (c e : tensor C) : Prop :=
  forall k b b', (k < K)%nat -> (b < B)%nat -> (b' < B)%nat -> h k b = true ->
    (h k b' = true -> vdot ns (orb e k b) (orb e k b') = RtoC (if Nat.eqb b b' then 1 else 0) /\ (vdot ns (orb c k b) (orb e k b') + vdot ns (orb e k b) (orb c k b') = RtoC 0)%C) /\
    (h k b' = false -> vdot ns (orb e k b) (orb c k b') = RtoC 0).

Lemma turn_basis K B h mask c e t : basis_orbitals 1 K B mask c -> turnable (tshape mask) K B h c e ->
  (forall k b g, (k < K)%nat -> (b < B)%nat -> h k b = true -> inb g (tshape mask) -> tget mask g = false -> orb e k b g = RtoC 0) ->
  basis_orbitals 1 K B mask (turn h c e t).
Proof.
  intros (Sc & Oc & Mc) Ht He. set (ns := tshape mask) in *. split; [exact Sc|]. split.
  - intros b j j' Hb Hj Hj'. inversion Hb as [|s ? b1 ? Hs Hb1]; subst. inversion Hb1 as [|k ? b2 ? Hk Hb2]; subst. inversion Hb2; subst.
    assert (s = 0)%nat by lia. subst s. pose proof (Oc _ j j' Hb Hj Hj') as O. cbn [app] in O |- *.
    change (vdot ns (orb c k j) (orb c k j') = RtoC (if (j =? j')%nat then 1 else 0)) in O.
    change (vdot ns (orb (turn h c e t) k j) (orb (turn h c e t) k j') = RtoC (if (j =? j')%nat then 1 else 0)).
    assert (V : forall i g, orb (turn h c e t) k i g = (if h k i then RtoC (cos t) * orb c k i g + RtoC (sin t) * orb e k i g else orb c k i g)%C) by reflexivity.
    destruct (h k j) eqn:Ej, (h k j') eqn:Ej'.
    + rewrite (vdot_ext ns _ (fun g => RtoC (cos t) * orb c k j g + RtoC (sin t) * orb e k j g)%C _ (fun g => RtoC (cos t) * orb c k j' g + RtoC (sin t) * orb e k j' g)%C)
        by (intros g _; rewrite V, ?Ej, ?Ej'; reflexivity).
      rewrite vdot_lin, !vdot_linl, !Cconj_R. destruct (Ht k j j' Hk Hj Hj' Ej) as (H1 & _). destruct (H1 Ej') as (Hee & Hce). rewrite O, Hee.
      transitivity (RtoC (cos t) * RtoC (sin t) * (vdot ns (orb c k j) (orb e k j') + vdot ns (orb e k j) (orb c k j')) + (RtoC (cos t) * RtoC (cos t) + RtoC (sin t) * RtoC (sin t)) * RtoC (if (j =? j')%nat then 1 else 0))%C; [ring|].
      rewrite Hce. replace (RtoC (cos t) * RtoC (cos t) + RtoC (sin t) * RtoC (sin t))%C with (RtoC 1); [ring|].
      rewrite <- !RtoC_mult, <- RtoC_plus. f_equal. pose proof (sin2_cos2 t) as S. unfold Rsqr in S. lra.
    + rewrite (vdot_ext ns _ (fun g => RtoC (cos t) * orb c k j g + RtoC (sin t) * orb e k j g)%C _ (orb c k j')) by (intros g _; rewrite V, ?Ej, ?Ej'; reflexivity).
      rewrite vdot_linl, !Cconj_R. destruct (Ht k j j' Hk Hj Hj' Ej) as (_ & H1). rewrite (H1 Ej'), O.
      destruct (Nat.eqb_spec j j') as [->|]; [rewrite Ej in Ej'; discriminate|]. ring.
    + rewrite (vdot_ext ns _ (orb c k j) _ (fun g => RtoC (cos t) * orb c k j' g + RtoC (sin t) * orb e k j' g)%C) by (intros g _; rewrite V, ?Ej, ?Ej'; reflexivity).
      rewrite vdot_lin. destruct (Ht k j' j Hk Hj' Hj Ej') as (_ & H1). rewrite <- (vdot_conj ns (orb e k j')), (H1 Ej), O, Cconj_R.
      destruct (Nat.eqb_spec j j') as [->|]; [rewrite Ej in Ej'; discriminate|]. ring.
    + rewrite (vdot_ext ns _ (orb c k j) _ (orb c k j')) by (intros g _; rewrite V, ?Ej, ?Ej'; reflexivity). exact O.
  - intros b g Hb Hg Hm. pose proof (Mc b g Hb Hg Hm) as Z. inversion Hb as [|s ? b1 ? Hs Hb1]; subst. inversion Hb1 as [|k ? b2 ? Hk Hb2]; subst. inversion Hb2 as [|j ? b3 ? Hj Hb3]; subst. inversion Hb3; subst.
    assert (s = 0)%nat by lia. subst s. unfold turn. cbn [tget app nth]. cbn [app] in Z. rewrite Z. destruct (h k j) eqn:Eh; [|reflexivity].
    pose proof (He k j g Hk Hj Eh Hg Hm) as Z'. unfold orb in Z'. cbn [app] in Z'. rewrite Z'. ring.
Qed.

(** The Hamiltonian between two vectors. *)
Definition hv (ns : list nat) (vol : R) (V : list nat -> R) (G : tensor v3) (q : v3) (a b : list nat -> C) : C :=
  (sumC (indices ns) (fun g => Cconj (a g) * RtoC (let p := vadd (tget G g) q in dot p p / 2) * b g) +
   RtoC (vol / INR (nprod ns)) * sumC (indices ns) (fun x => Cconj (RtoC (INR (nprod ns) / sqrt vol) * idft ns a x) * RtoC (V x) * (RtoC (INR (nprod ns) / sqrt vol) * idft ns b x)))%C.

Lemma hv_linl ns vol V G q a a' b s s' : hv ns vol V G q (fun g => s * a g + s' * a' g)%C b = (Cconj s * hv ns vol V G q a b + Cconj s' * hv ns vol V G q a' b)%C.
Proof.
  unfold hv. rewrite !Cmult_plus_distr_l.
  rewrite (sumC_ext (indices ns) (fun g => Cconj (s * a g + s' * a' g) * _ * b g)%C (fun g => Cconj s * (Cconj (a g) * RtoC (let p := vadd (tget G g) q in dot p p / 2) * b g) + Cconj s' * (Cconj (a' g) * RtoC (let p := vadd (tget G g) q in dot p p / 2) * b g))%C)
    by (intros g _; rewrite Cconj_plus, !Cconj_mult; cbv zeta; ring).
  rewrite sumC_plus, !sumC_scal.
  rewrite (sumC_ext (indices ns) (fun x => Cconj (RtoC (INR (nprod ns) / sqrt vol) * idft ns (fun g => s * a g + s' * a' g)%C x) * _ * _)%C
     (fun x => Cconj s * (Cconj (RtoC (INR (nprod ns) / sqrt vol) * idft ns a x) * RtoC (V x) * (RtoC (INR (nprod ns) / sqrt vol) * idft ns b x)) +
               Cconj s' * (Cconj (RtoC (INR (nprod ns) / sqrt vol) * idft ns a' x) * RtoC (V x) * (RtoC (INR (nprod ns) / sqrt vol) * idft ns b x)))%C)
    by (intros x _; replace (idft ns (fun g => s * a g + s' * a' g)%C x) with (s * idft ns a x + s' * idft ns a' x)%C by (rewrite <- !idft_scal, <- idft_plus; reflexivity); rewrite !Cconj_mult, Cconj_plus, !Cconj_mult; ring).
  rewrite sumC_plus, !sumC_scal. cbv zeta. ring.
Qed.
Lemma hv_extl ns vol V G q a a' b : (forall g, inb g ns -> a g = a' g) -> hv ns vol V G q a b = hv ns vol V G q a' b.
Proof.
  intros H. unfold hv. f_equal; [|f_equal]; apply sumC_ext; intros g Hg; apply in_indices in Hg; [rewrite H by exact Hg; reflexivity|].
  rewrite (idft_ext ns a a') by exact H. reflexivity.
Qed.
Lemma hv_scall ns vol V G q a b s : hv ns vol V G q (fun g => s * a g)%C b = (Cconj s * hv ns vol V G q a b)%C.
Proof.
  transitivity (hv ns vol V G q (fun g => s * a g + RtoC 0 * a g)%C b); [apply hv_extl; intros; ring|]. rewrite hv_linl, Cconj_R. ring.
Qed.
Lemma hv_sum ns vol V G q m (w : nat -> C) (a : nat -> list nat -> C) b :
  hv ns vol V G q (fun g => sumC (seq 0 m) (fun j => w j * a j g))%C b = sumC (seq 0 m) (fun j => Cconj (w j) * hv ns vol V G q (a j) b)%C.
Proof.
  generalize (seq 0 m). intros l. induction l as [|j l IH]; cbn [sumC].
  - transitivity (hv ns vol V G q (fun g => RtoC 0 * RtoC 0)%C b); [apply hv_extl; intros; ring|]. rewrite (hv_scall ns vol V G q (fun _ => RtoC 0)), Cconj_R. ring.
  - transitivity (hv ns vol V G q (fun g => w j * a j g + RtoC 1 * sumC l (fun j0 => w j0 * a j0 g))%C b); [apply hv_extl; intros; ring|]. rewrite hv_linl, IH, Cconj_R. ring.
Qed.

Lemma hv_element ns vol V w c G q b b' : (forall b0 x, b0 = b \/ b0 = b' -> tget w (b0 ++ x) = psi ns vol c b0 x) ->
  h_element ns vol V w c G q b b' = hv ns vol V G q (fun g => tget c (b ++ g)) (fun g => tget c (b' ++ g)).
Proof.
  intros Hw. unfold h_element, kinetic_element, potential_element, hv. f_equal. f_equal. apply sumC_ext. intros x _. rewrite !Hw by auto. reflexivity.
Qed.

Lemma matrix_hv xcd c pos ch d G kpts vol xt B n1 n2 n3 v M : let ns := [n1; n2; n3] in let K := length kpts in
  tshape c = [1%nat; K; B] ++ ns -> tshape G = ns -> effective_sum xcd d pos ch G vol xt true = Ok v -> tshape v = 1%nat :: ns ->
  hamiltonian_matrix xcd c pos ch d G kpts vol xt true = Ok M -> forall k i j, (k < K)%nat -> (i < B)%nat -> (j < B)%nat ->
  tget M [0%nat; k; i; j] = hv ns vol (fun x => Re (tget v (0%nat :: x))) G (nth k kpts vzero) (orb c k i) (orb c k j) /\ tget M [0%nat; k; j; i] = Cconj (tget M [0%nat; k; i; j]).
Proof.
  intros ns K Sc SG Ev Sv HM k i j Hk Hi Hj. destruct (wave_grid_eq c vol [1%nat; K; B] ns eq_refl Sc) as (w & Ew & _ & Gw).
  destruct (one_channel xcd c pos ch d G kpts vol xt true 1 B n1 n2 n3 v w Sc SG Ev Sv Ew) as (M' & HM' & _ & VM). rewrite HM in HM'. injection HM' as <-.
  destruct (VM 0%nat k i j) as [E1 E2]; [lia|exact Hk|exact Hi|exact Hj|]. split; [|exact E2]. rewrite E1. apply hv_element.
  intros b0 x [->| ->]; apply Gw; reflexivity.
Qed.
Lemma stack_hv xcd c f pos ch d G kpts vol xt B n1 n2 n3 v M : let ns := [n1; n2; n3] in let K := length kpts in
  tshape c = [1%nat; K; B] ++ ns -> tshape G = ns -> effective_sum xcd d pos ch G vol xt true = Ok v -> tshape v = 1%nat :: ns ->
  hamiltonian_matrix xcd (stack_bands B c f) pos ch d G kpts vol xt true = Ok M -> forall k b b', (k < K)%nat -> (b < B)%nat -> (b' < B)%nat ->
  tget M [0%nat; k; (B + b)%nat; b'] = hv ns vol (fun x => Re (tget v (0%nat :: x))) G (nth k kpts vzero) (orb f k b) (orb c k b').
Proof.
  intros ns K Sc SG Ev Sv HM k b b' Hk Hb Hb'. pose proof (stack_shape B c f 1 K B ns Sc) as Ss.
  destruct (matrix_hv xcd (stack_bands B c f) pos ch d G kpts vol xt (B + B) n1 n2 n3 v M Ss SG Ev Sv HM k (B + b)%nat b' Hk ltac:(lia) ltac:(lia)) as (-> & _). fold ns.
  rewrite (hv_extl ns _ _ _ _ (orb (stack_bands B c f) k (B + b)) (orb f k b)) by (intros g _; apply stack_second).
  unfold hv. f_equal; [|f_equal]; apply sumC_ext; intros g _.
  - unfold orb at 2. rewrite stack_first by exact Hb'. reflexivity.
  - rewrite (idft_ext ns (orb (stack_bands B c f) k b') (orb c k b')); [reflexivity|]. intros y _. apply stack_first. exact Hb'.
Qed.
