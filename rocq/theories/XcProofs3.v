(** Derivative of the LDA energy along a density change, and the squared gradients. *)
From Coq Require Import Reals Lra Lia ZifyBool Permutation.
From Coquelicot Require Import Coquelicot.
From Coq Require Import Ascii String List Arith ZArith Bool.
From Verif Require Import Base Sums Tensor DFT GridModel GridProofs PadModel PadProofs Lin3 VecModel VecProofs OccModel PwModel PwSpec PwProofs PwGrad BraketModel BraketSpec BraketProofs XcModel XcSpec EnergyModel EnergySpec EnergyProofs ExtProofs TotalProofs RespProofs ShiftProofs XcProofs XcProofs2.
Import ListNotations.
Local Open Scope R_scope.

Lemma lda_sum_unpol lib ts (d : tensor R) ns : tshape d = 1%nat :: ns -> (forall t, In t ts -> lib t false <> None) ->
  exists g, lda_sum lib ts d = Ok g /\ tshape g = ns /\ forall x, inb x ns -> tget g x = lda_sum_at lib ts [tget d (0%nat :: x)].
Proof.
  intros Sd Hl. unfold lda_sum.
  assert (M : exists l, mapM (fun t => lda lib t d) ts = Ok l /\ forall x, sumR l (fun t => tget t x) = lda_sum_at lib ts [tget d (0%nat :: x)]).
  { induction ts as [|t ts IH]; [exists []; split; [reflexivity|intros; reflexivity]|].
    destruct IH as (l & E & Hx); [intros u Hu; apply Hl; right; exact Hu|]. specialize (Hl t (or_introl eq_refl)).
    destruct (lib t false) as [f|] eqn:Ef; [|contradiction]. cbn [mapM]. rewrite E.
    assert (L : exists a, lda lib t d = Ok a /\ forall x, tget a x = f [tget d (0%nat :: x)] []).
    { unfold lda. rewrite Sd. unfold pick. cbn [Nat.eqb andb orb]. rewrite Ef. eexists. split; [reflexivity|]. intros x. cbn [tget]. unfold lda_at. cbn [andb]. rewrite (column1 d ns x Sd). reflexivity. }
    destruct L as (a & -> & La). cbn [bind]. eexists. split; [reflexivity|]. intros x. cbn [sumR]. rewrite Hx, La.
    unfold lda_sum_at. cbn [length Nat.eqb sumR]. unfold pick. cbn [andb]. rewrite Ef. unfold lda_at. cbn [andb]. reflexivity. }
  destruct M as (l & -> & Hx). cbn [bind]. eexists. split; [reflexivity|]. rewrite Sd. split; [reflexivity|]. intros x _. apply Hx.
Qed.

Lemma e_xc_lda_unpol lib vg xt d G vol n1 n2 n3 : let ns := [n1; n2; n3] in let ts := split_on "+" xt in
  contains "gga" xt = false -> (forall t, In t ts -> lib t false <> None) -> tshape d = 1%nat :: ns ->
  e_xc (xc_density lib vg) d G vol xt false = Ok (vol / INR (nprod ns) * sumR (indices ns) (fun x => tget d (0%nat :: x) * lda_sum_at lib ts [tget d (0%nat :: x)])).
Proof.
  intros ns ts Hg Hl Sd. destruct (lda_sum_unpol lib ts d ns Sd Hl) as (g & E & Sg & Hx).
  assert (E' : xc_density lib vg d G false xt = Ok (tmap RtoC (mkT ns (tget g)))).
  { unfold xc_density. rewrite Hg. fold ts. rewrite E. cbn [rmap]. destruct g as [sg tg]. cbn in Sg. subst sg. reflexivity. }
  rewrite (e_xc_real _ d G vol xt false 1 n1 n2 n3 (tget g) ns Sd eq_refl E'). f_equal. f_equal. apply sumR_ext. intros x Hx'. apply in_indices in Hx'.
  rewrite Hx by exact Hx'. cbn [seq sumR]. fold ts. ring.
Qed.

Lemma lda_energy_derivative lib vg xt (d e : tensor R) G vol n1 n2 n3 : let ns := [n1; n2; n3] in let ts := split_on "+" xt in
  contains "gga" xt = false -> (forall t, In t ts -> lib t false <> None) -> tshape d = 1%nat :: ns ->
  (forall x, inb x ns -> ex_derive (fun r : R => lda_sum_at lib ts [r]) (tget d (0%nat :: x))) ->
  exists (v : tensor C) (E : R -> R), xc_density lib vg d G true xt = Ok v /\ tshape v = 1%nat :: ns /\ real_valued v /\
    (forall t, e_xc (xc_density lib vg) (mkT (1%nat :: ns) (fun i => tget d i + t * tget e i)) G vol xt false = Ok (E t)) /\
    is_derive E 0 (vol / INR (nprod ns) * sumR (indices ns) (fun x => Re (tget v (0%nat :: x)) * tget e (0%nat :: x))).
Proof.
  intros ns ts Hg Hl Sd Hex. destruct (vxc_lda_unpol (lda_sum_at lib ts) d ns Sd Hex) as (v & Ev & Sv & Hv).
  exists (tmap RtoC v), (fun t => vol / INR (nprod ns) * sumR (indices ns) (fun x => (tget d (0%nat :: x) + t * tget e (0%nat :: x)) * lda_sum_at lib ts [tget d (0%nat :: x) + t * tget e (0%nat :: x)])).
  destruct (lda_sum_unpol lib ts d ns Sd Hl) as (g & Eg & _).
  split; [unfold xc_density; rewrite Hg; fold ts; rewrite Eg; cbn [bind]; rewrite Ev; reflexivity|]. split; [exact Sv|]. split; [intros i _; reflexivity|]. split.
  { intros t. apply (e_xc_lda_unpol lib vg xt (mkT (1%nat :: ns) (fun i => tget d i + t * tget e i)) G vol n1 n2 n3 Hg Hl eq_refl). }
  apply (is_derive_scal (fun t => sumR (indices ns) (fun x => (tget d (0%nat :: x) + t * tget e (0%nat :: x)) * lda_sum_at lib ts [tget d (0%nat :: x) + t * tget e (0%nat :: x)])) 0 (vol / INR (nprod ns))).
  apply (is_derive_sumR (indices ns) (fun x t => (tget d (0%nat :: x) + t * tget e (0%nat :: x)) * lda_sum_at lib ts [tget d (0%nat :: x) + t * tget e (0%nat :: x)])
     (fun x => Re (tget (tmap RtoC v) (0%nat :: x)) * tget e (0%nat :: x))).
  intros x Hx. apply in_indices in Hx. change (Re (tget (tmap RtoC v) (0%nat :: x))) with (tget v (0%nat :: x)).
  pose proof (Hv x Hx) as D. set (a := tget d (0%nat :: x)) in *. set (b := tget e (0%nat :: x)).
  rewrite Rmult_comm.
  apply (is_derive_comp (fun r : R => r * lda_sum_at lib ts [r]) (fun t => a + t * b) 0 (tget v (0%nat :: x)) b).
  - rewrite Rmult_0_l, Rplus_0_r. exact D.
  - auto_derive; [exact I|ring].
Qed.

Lemma Re_scal_R a z : Re (RtoC a * z)%C = a * Re z.
Proof. destruct z. unfold Re. cbn. ring. Qed.
Lemma Im_scal_R a z : Im (RtoC a * z)%C = a * Im z.
Proof. destruct z. unfold Im. cbn. ring. Qed.
Lemma inb_dec_pos (ns : list nat) : {Forall (fun n => (0 < n)%nat) ns} + {~ Forall (fun n => (0 < n)%nat) ns}.
Proof. apply Forall_dec. intros n. apply lt_dec. Qed.

(** ** squared gradients *)
Section Sigma.
  Context (ns : list nat) (G : tensor v3).
  Definition gradc (f : list nat -> R) (a : nat) (x : list nat) : C := grad_component ns G f a x.
  Definition gprod (f g : list nat -> R) (x : list nat) : R := Re (sumC (seq 0 3) (fun a => Cconj (gradc f a x) * gradc g a x)%C).

  Lemma gprod_self f x : gprod f f x = sumR (seq 0 3) (fun a => Cnorm2 (gradc f a x)).
  Proof.
    unfold gprod. rewrite Re_sumC. apply sumR_ext. intros a _. unfold Cnorm2, Cconj, Re. destruct (gradc f a x) as [p q]. cbn. ring.
  Qed.
  Lemma gprod_ge0 f x : 0 <= gprod f f x.
  Proof. rewrite gprod_self. apply sumR_nonneg. intros a _. unfold Cnorm2. nra. Qed.
  Lemma gprod_sym f g x : gprod f g x = gprod g f x.
  Proof. unfold gprod. rewrite !Re_sumC. apply sumR_ext. intros a _. unfold Cconj, Re. destruct (gradc f a x), (gradc g a x). cbn. ring. Qed.
  Lemma grad_lin f g u w a x : inb x ns -> gradc (fun y => u * f y + w * g y) a x = (RtoC u * gradc f a x + RtoC w * gradc g a x)%C.
  Proof.
    intros Hx. unfold gradc, grad_component. rewrite <- !idft_scal, <- idft_plus. apply idft_ext. intros k Hk.
    rewrite (dft_ext ns _ (fun y => (RtoC u * RtoC (f y) + RtoC w * RtoC (g y))%C)) by (intros y _; rewrite RtoC_plus, !RtoC_mult; reflexivity).
    rewrite dft_plus, !dft_scal. ring.
  Qed.
  Lemma gprod_lin f g u w x : inb x ns -> gprod (fun y => u * f y + w * g y) (fun y => u * f y + w * g y) x = u * u * gprod f f x + 2 * u * w * gprod f g x + w * w * gprod g g x.
  Proof.
    intros Hx. unfold gprod. rewrite !Re_sumC, <- !sumR_scal, <- !sumR_plus. apply sumR_ext. intros a _. rewrite !grad_lin by exact Hx.
    destruct (gradc f a x) as [p q], (gradc g a x) as [p' q']. unfold Cconj, Re. cbn. ring.
  Qed.
  Lemma gprod_cs f g x : inb x ns -> gprod f g x * gprod f g x <= gprod f f x * gprod g g x.
  Proof.
    intros Hx. pose proof (gprod_ge0 f x) as P. pose proof (gprod_ge0 g x) as Q.
    assert (H : forall u w, 0 <= u * u * gprod f f x + 2 * u * w * gprod f g x + w * w * gprod g g x) by (intros u w; rewrite <- gprod_lin by exact Hx; apply gprod_ge0).
    set (A := gprod f f x) in *. set (B := gprod f g x) in *. set (D := gprod g g x) in *.
    destruct (Req_dec D 0) as [E|E].
    - destruct (Req_dec B 0) as [EB|EB]; [rewrite EB; nra|]. exfalso. pose proof (H 1 (- (A + 1) / (2 * B))) as K.
      replace (1 * 1 * A + 2 * 1 * (- (A + 1) / (2 * B)) * B + - (A + 1) / (2 * B) * (- (A + 1) / (2 * B)) * D) with (-1) in K by (rewrite E; field; exact EB). lra.
    - pose proof (H D (- B)) as K. assert (0 < D) by lra. replace (D * D * A + 2 * D * - B * B + - B * - B * D) with (D * (A * D - B * B)) in K by ring. nra.
  Qed.
End Sigma.

Lemma phase_origin ns z x : Forall (fun k => k = 0%nat) z -> phase ns (zs z) x = 0.
Proof.
  intros H. revert ns x. induction H as [|k z -> Hz IH]; intros [|n ns] [|b x]; try reflexivity. change (zs (0%nat :: z)) with (0%Z :: zs z). cbn [phase].
  rewrite IH, Z.mul_0_l. unfold Rdiv. ring.
Qed.

Lemma dft_const ns c g : inb g ns -> is_origin g = false -> dft ns (fun _ => c) g = RtoC 0.
Proof.
  intros Hg E. set (z := map (fun _ => 0%nat) ns). pose proof (inb_pos _ _ Hg) as Hn.
  assert (Iz : inb z ns) by (unfold z; clear -Hn; induction Hn; constructor; assumption).
  assert (Oz : at_origin z) by (unfold z, at_origin; apply Forall_map, Forall_forall; reflexivity).
  pose proof (dft_orth ns z g Iz Hg) as O. destruct (list_eq_dec Nat.eq_dec z g) as [E'|_]; [exfalso; subst g; apply is_origin_spec in Oz; congruence|].
  unfold dft. rewrite sumC_scal. rewrite (sumC_ext _ _ (fun x => (cis (2 * PI * phase ns (zs z) (zs x)) * cis (- (2 * PI * phase ns (zs g) (zs x))))%C)); [rewrite O; apply Cmult_0_r|].
  intros x _. rewrite (phase_origin ns z (zs x) Oz), Rmult_0_r. unfold cis at 2. rewrite cos_0, sin_0. change (1, 0)%R with (RtoC 1). ring.
Qed.

Lemma sum_vcomp v : sumR (seq 0 3) (fun a => vcomp a v * vcomp a v) = norm2 v.
Proof. unfold norm2, dot. cbn. ring. Qed.

(** the sum of the squared gradient over the grid *)
Lemma gprod_total ns G f : Forall (fun n => (0 < n)%nat) ns ->
  sumR (indices ns) (gprod ns G f f) = / INR (nprod ns) * sumR (indices ns) (fun g => norm2 (tget G g) * Cnorm2 (dft ns (fun y => RtoC (f y)) g)).
Proof.
  intros Hn. rewrite (sumR_ext _ _ _ (fun x _ => gprod_self ns G f x)), sumR_swap.
  rewrite (sumR_ext _ _ (fun a => / INR (nprod ns) * sumR (indices ns) (fun g => vcomp a (tget G g) * vcomp a (tget G g) * Cnorm2 (dft ns (fun y => RtoC (f y)) g)))).
  - rewrite sumR_scal, sumR_swap. f_equal. apply sumR_ext. intros g _. rewrite sumR_scal_r, sum_vcomp. reflexivity.
  - intros a _. unfold gradc, grad_component.
    set (F := fun g => (dft ns (fun y => RtoC (f y)) g * Ci * RtoC (vcomp a (tget G g)))%C).
    pose proof (parseval_idft ns F F Hn) as P. apply (f_equal Re) in P.
    rewrite Re_sumC in P. rewrite (sumR_ext _ _ (fun x => Cnorm2 (idft ns F x))) in P by (intros x _; unfold Cnorm2, Cconj, Re; destruct (idft ns F x); cbn; ring).
    rewrite P, Re_scal_R. f_equal. rewrite Re_sumC. apply sumR_ext. intros g _. unfold F.
    set (z := dft ns _ g). destruct z as [p q]. unfold Cnorm2, Cconj, Re. cbn. ring.
Qed.

Lemma sigma_eq d G sp n1 n2 n3 : let ns := [n1; n2; n3] in tshape G = ns -> tshape d = sp :: ns ->
  exists sg, sigma_r_fn d G = Ok sg /\
    (if (sp =? 2)%nat then tshape sg = 3%nat :: ns /\
       forall x, tget sg (0%nat :: x) = gprod ns G (fun y => tget d (0%nat :: y)) (fun y => tget d (0%nat :: y)) x /\
                 tget sg (1%nat :: x) = gprod ns G (fun y => tget d (0%nat :: y)) (fun y => tget d (1%nat :: y)) x /\
                 tget sg (2%nat :: x) = gprod ns G (fun y => tget d (1%nat :: y)) (fun y => tget d (1%nat :: y)) x
     else tshape sg = sp :: ns /\
       forall k x, tget sg (k :: x) = gprod ns G (fun y => tget d (k :: y)) (fun y => tget d (k :: y)) x).
Proof.
  intros ns SG Sd. unfold sigma_r_fn. rewrite Sd. unfold ns. fold ns. rewrite SG. destruct (list_eq_dec Nat.eq_dec ns ns) as [_|N]; [|contradiction].
  destruct (sp =? 2)%nat.
  - eexists. split; [reflexivity|]. split; [reflexivity|]. intros x. repeat split.
  - eexists. split; [reflexivity|]. split; [reflexivity|]. intros k x. reflexivity.
Qed.

Lemma gradc_interp A n1 n2 n3 G X f x e : let ns := [n1; n2; n3] in
  m3det A <> 0 -> g_vectors A ns = Ok G -> r_vectors A ns = Ok X -> inb x ns ->
  is_derive (fun t => Re (interpolant ns G f (vadd (tget X x) (vscale t e)))) 0 (Re (vec (fun a => gradc ns G f a x) e)) /\
  is_derive (fun t => Im (interpolant ns G f (vadd (tget X x) (vscale t e)))) 0 (Im (vec (fun a => gradc ns G f a x) e)).
Proof.
  intros ns HA HG HX Hx. set (D g := dft ns (fun y => RtoC (f y)) g). set (N := / INR (nprod ns)).
  set (T g := (D g * cis (2 * PI * phase ns (zs g) (zs x)))%C).
  assert (V : vec (fun a => gradc ns G f a x) e = (RtoC N * sumC (indices ns) (fun g => T g * Ci * RtoC (dot (tget G g) e)))%C).
  { unfold vec, gradc, grad_component, idft. fold N. fold D. rewrite <- !Cmult_assoc, <- !Cmult_plus_distr_l, <- !sumC_scal_r, <- !sumC_plus. f_equal. apply sumC_ext. intros g _.
    unfold T. cbn [vcomp]. unfold dot. rewrite !RtoC_plus, !RtoC_mult. fold (D g). ring. }
  assert (W : forall t, interpolant ns G f (vadd (tget X x) (vscale t e)) = (RtoC N * sumC (indices ns) (fun g => T g * cis (t * dot (tget G g) e)))%C).
  { intros t. unfold interpolant. fold N. f_equal. apply sumC_ext. intros g Hg. apply in_indices in Hg. rewrite dot_line, cis_plus. fold (D g).
    rewrite (fft_pair A n1 n2 n3 G X HA HG HX g x Hg Hx). fold ns. unfold T. ring. }
  rewrite V. clear V. clearbody T. split.
  - apply (is_derive_ext (fun t => N * sumR (indices ns) (fun g => Re (T g) * cos (t * dot (tget G g) e) - Im (T g) * sin (t * dot (tget G g) e)))).
    { intros t. rewrite W, Re_scal_R, Re_sumC. reflexivity. }
    rewrite Re_scal_R. apply is_derive_scal. rewrite Re_sumC.
    apply (is_derive_sumR (indices ns) (fun g t => Re (T g) * cos (t * dot (tget G g) e) - Im (T g) * sin (t * dot (tget G g) e))).
    intros g _. auto_derive; [exact I|]. rewrite Rmult_0_l, sin_0, cos_0. generalize (T g). intros [p q]. unfold Re, Im, Cmult, RtoC, Ci. cbn [fst snd]. ring.
  - apply (is_derive_ext (fun t => N * sumR (indices ns) (fun g => Re (T g) * sin (t * dot (tget G g) e) + Im (T g) * cos (t * dot (tget G g) e)))).
    { intros t. rewrite W, Im_scal_R, Im_sumC. reflexivity. }
    rewrite Im_scal_R. apply is_derive_scal. rewrite Im_sumC.
    apply (is_derive_sumR (indices ns) (fun g t => Re (T g) * sin (t * dot (tget G g) e) + Im (T g) * cos (t * dot (tget G g) e))).
    intros g _. auto_derive; [exact I|]. rewrite Rmult_0_l, sin_0, cos_0. generalize (T g). intros [p q]. unfold Re, Im, Cmult, RtoC, Ci. cbn [fst snd]. ring.
Qed.

Lemma sigma_is_gradient A n1 n2 n3 G X d sp : let ns := [n1; n2; n3] in
  m3det A <> 0 -> g_vectors A ns = Ok G -> r_vectors A ns = Ok X -> tshape d = sp :: ns ->
  exists (sg : tensor R) (gr : nat -> list nat -> nat -> C), sigma_r_fn d G = Ok sg /\
    (forall k x e, (k < sp)%nat -> inb x ns -> let f y := tget d (k :: y) in
       is_derive (fun t => Re (interpolant ns G f (vadd (tget X x) (vscale t e)))) 0 (Re (vec (gr k x) e)) /\
       is_derive (fun t => Im (interpolant ns G f (vadd (tget X x) (vscale t e)))) 0 (Im (vec (gr k x) e))) /\
    let pr k l x := Re (Cconj (gr k x 0%nat) * gr l x 0%nat + Cconj (gr k x 1%nat) * gr l x 1%nat + Cconj (gr k x 2%nat) * gr l x 2%nat)%C in
    if (sp =? 2)%nat then tshape sg = 3%nat :: ns /\ forall x, tget sg (0%nat :: x) = pr 0%nat 0%nat x /\ tget sg (1%nat :: x) = pr 0%nat 1%nat x /\ tget sg (2%nat :: x) = pr 1%nat 1%nat x
    else tshape sg = sp :: ns /\ forall k x, tget sg (k :: x) = pr k k x.
Proof.
  intros ns HA HG HX Sd. destruct (g_vectors_dual A n1 n2 n3 G HA HG) as (SG & _). destruct (sigma_eq d G sp n1 n2 n3 SG Sd) as (sg & E & H).
  exists sg, (fun k x a => gradc ns G (fun y => tget d (k :: y)) a x). split; [exact E|]. split.
  { intros k x e _ Hx f. apply (gradc_interp A n1 n2 n3 G X f x e HA HG HX Hx). }
  assert (P : forall k l x, gprod ns G (fun y => tget d (k :: y)) (fun y => tget d (l :: y)) x =
    Re (Cconj (gradc ns G (fun y => tget d (k :: y)) 0 x) * gradc ns G (fun y => tget d (l :: y)) 0 x + Cconj (gradc ns G (fun y => tget d (k :: y)) 1 x) * gradc ns G (fun y => tget d (l :: y)) 1 x
      + Cconj (gradc ns G (fun y => tget d (k :: y)) 2 x) * gradc ns G (fun y => tget d (l :: y)) 2 x)%C).
  { intros k l x. unfold gprod. f_equal. unfold sumC. cbn [seq]. rewrite Cplus_0_r, Cplus_assoc. reflexivity. }
  cbv zeta. destruct (sp =? 2)%nat; destruct H as [S H]; (split; [exact S|]).
  - intros x. rewrite <- !P. apply H.
  - intros k x. rewrite <- P. apply H.
Qed.

Lemma sigma_facts A n1 n2 n3 G d : let ns := [n1; n2; n3] in
  m3det A <> 0 -> g_vectors A ns = Ok G -> tshape d = 2%nat :: ns ->
  exists sg, sigma_r_fn d G = Ok sg /\ tshape sg = 3%nat :: ns /\
    forall x, inb x ns -> 0 <= tget sg (0%nat :: x) /\ 0 <= tget sg (2%nat :: x) /\
      Rsqr (tget sg (1%nat :: x)) <= tget sg (0%nat :: x) * tget sg (2%nat :: x) /\
      forall tot, sigma_r_fn (mkT (1%nat :: ns) (fun i => tget d (0%nat :: tl i) + tget d (1%nat :: tl i))) G = Ok tot ->
        tget tot (0%nat :: x) = tget sg (0%nat :: x) + 2 * tget sg (1%nat :: x) + tget sg (2%nat :: x).
Proof.
  intros ns HA HG Sd. destruct (g_vectors_dual A n1 n2 n3 G HA HG) as (SG & _). destruct (sigma_eq d G 2 n1 n2 n3 SG Sd) as (sg & E & S & H).
  exists sg. split; [exact E|]. split; [exact S|]. intros x Hx. destruct (H x) as (H0 & H1 & H2). rewrite H0, H1, H2.
  split; [apply gprod_ge0|]. split; [apply gprod_ge0|]. split; [apply gprod_cs, Hx|]. intros tot Ht.
  destruct (sigma_eq (mkT (1%nat :: ns) (fun i => tget d (0%nat :: tl i) + tget d (1%nat :: tl i))) G 1 n1 n2 n3 SG eq_refl) as (s' & E' & _ & H'). rewrite E' in Ht. injection Ht as <-.
  rewrite H'. cbn [tget tl]. pose proof (gprod_lin ns G (fun y => tget d (0%nat :: y)) (fun y => tget d (1%nat :: y)) 1 1 x Hx) as L.
  replace (gprod [n1; n2; n3] G (fun y => tget d (0%nat :: y) + tget d (1%nat :: y)) (fun y => tget d (0%nat :: y) + tget d (1%nat :: y)) x) with
    (gprod ns G (fun y => 1 * tget d (0%nat :: y) + 1 * tget d (1%nat :: y)) (fun y => 1 * tget d (0%nat :: y) + 1 * tget d (1%nat :: y)) x).
  - rewrite L. fold ns. ring.
  - unfold gprod, gradc. f_equal. apply sumC_ext. intros a _. f_equal; [f_equal|]; apply grad_ext; intros y _; ring.
Qed.

Lemma sigma_zero_iff A n1 n2 n3 G d : let ns := [n1; n2; n3] in
  m3det A <> 0 -> g_vectors A ns = Ok G -> tshape d = 1%nat :: ns ->
  exists sg, sigma_r_fn d G = Ok sg /\ tshape sg = 1%nat :: ns /\ (forall x, inb x ns -> 0 <= tget sg (0%nat :: x)) /\
    ((forall x, inb x ns -> tget sg (0%nat :: x) = 0) <-> (forall x y, inb x ns -> inb y ns -> tget d (0%nat :: x) = tget d (0%nat :: y))).
Proof.
  intros ns HA HG Sd. destruct (g_vectors_dual A n1 n2 n3 G HA HG) as (SG & H0 & _). destruct (sigma_eq d G 1 n1 n2 n3 SG Sd) as (sg & E & S & H).
  exists sg. split; [exact E|]. split; [exact S|]. split; [intros x Hx; rewrite H; apply gprod_ge0|].
  set (f := fun y => tget d (0%nat :: y)). assert (HF : forall x, tget sg (0%nat :: x) = gprod ns G f f x) by (intros x; apply H).
  destruct (inb_dec_pos ns) as [Hn|Hn].
  2:{ split; intros _ x; intros; exfalso; apply Hn; eapply inb_pos; eassumption. }
  pose proof (gprod_total ns G f Hn) as T. set (F g := dft ns (fun y => RtoC (f y)) g) in *.
  assert (HN : 0 < INR (nprod ns)) by (apply lt_0_INR, nprod_pos, Hn). split.
  - intros Z. rewrite sumR_zero in T by (intros x Hx; apply in_indices in Hx; rewrite <- HF; apply Z, Hx).
    assert (T' : sumR (indices ns) (fun g => norm2 (tget G g) * Cnorm2 (F g)) = 0) by (apply (Rmult_eq_reg_l (/ INR (nprod ns))); [rewrite <- T; ring|apply Rinv_neq_0_compat; lra]).
    assert (Zg : forall g, inb g ns -> is_origin g = false -> F g = RtoC 0).
    { intros g Hg Ho. pose proof (sumR_nonneg_zero (indices ns) (fun g => norm2 (tget G g) * Cnorm2 (F g))) as Q.
      assert (K : norm2 (tget G g) * Cnorm2 (F g) = 0).
      { apply Q; [|exact T'|apply in_indices, Hg]. intros h _. apply Rmult_le_pos; [apply norm2_ge0|unfold Cnorm2; nra]. }
      apply Rmult_integral in K. destruct K as [K|K]; [exfalso; apply (g_nonzero A n1 n2 n3 G g HA HG Hg Ho K)|]. apply Cnorm2_zero. exact K. }
    assert (C0 : forall x, inb x ns -> RtoC (f x) = (RtoC (/ INR (nprod ns)) * sumC (indices ns) F)%C).
    { intros x Hx. rewrite <- (idft_dft ns (fun y => RtoC (f y)) x Hx). unfold idft. f_equal. apply sumC_ext. intros g Hg. apply in_indices in Hg. fold (F g).
      destruct (is_origin g) eqn:Eo; [|rewrite (Zg g Hg Eo); ring]. apply is_origin_spec in Eo. rewrite (phase_origin ns g (zs x) Eo), Rmult_0_r. unfold cis. rewrite cos_0, sin_0. change (1, 0)%R with (RtoC 1). ring. }
    intros x y Hx Hy. change (f x = f y). apply RtoC_inj. rewrite (C0 x Hx), (C0 y Hy). reflexivity.
  - intros K x Hx. rewrite HF. rewrite gprod_self. apply sumR_zero. intros a _. unfold gradc, grad_component.
    rewrite (idft_ext ns _ (fun _ => RtoC 0)).
    + unfold idft. rewrite sumC_zero by (intros; apply Cmult_0_l). rewrite Cmult_0_r. unfold Cnorm2. cbn. ring.
    + intros g Hg. destruct (is_origin g) eqn:Eo.
      * rewrite (origin3 n1 n2 n3 g Hg Eo), H0. unfold vcomp, vzero. destruct a as [|[|a]]; cbn [vx vy vz]; apply Cmult_0_r.
      * rewrite (dft_ext ns _ (fun _ => RtoC (f x))) by (intros y Hy; f_equal; apply K; assumption). rewrite (dft_const ns (RtoC (f x)) g Hg Eo), !Cmult_0_l. reflexivity.
Qed.

(** ** C41 *)
Lemma hartree_derivative A n1 n2 n3 G D E sp vol : let ns := [n1; n2; n3] in
  m3det A <> 0%R -> g_vectors A ns = Ok G -> tshape D = sp :: ns -> tshape E = sp :: ns -> (0 < vol)%R ->
  exists v b (En : R -> R), hartree_reciprocal D G true = Ok v /\ reciprocal_braket (expand0 v) E vol = Ok b /\
    (forall t, e_hartree (mkT (sp :: ns) (fun i => tget D i + RtoC t * tget E i)%C) G vol false = Ok (En t)) /\
    is_derive En 0 b.
Proof.
  intros ns HA HG SD SE Hv. destruct (hartree_expand A n1 n2 n3 G D E sp vol 0 HA HG SD SE Hv) as (v & e & b & e' & Ev & Ee & Eb & Ee' & _).
  exists v, b, (fun t => e + t * b + t * t * e'). split; [exact Ev|]. split; [exact Eb|]. split.
  - intros t. destruct (hartree_expand A n1 n2 n3 G D E sp vol t HA HG SD SE Hv) as (v1 & e1 & b1 & e1' & Ev1 & Ee1 & Eb1 & Ee1' & R1).
    fold ns in R1. rewrite R1. congruence.
  - auto_derive; [exact I|ring].
Qed.

(** ** the total energy is defined for the documented shapes *)
Lemma e_xc_returns xcd d G vol xt ks sp n1 n2 n3 e : let ns := [n1; n2; n3] in
  tshape d = sp :: ns -> xcd d G ks xt = Ok (tmap RtoC e) -> tshape e = ns \/ tshape e = sp :: ns -> exists x, e_xc xcd d G vol xt ks = Ok x.
Proof.
  intros ns Sd Hx [Se|Se].
  - eexists. apply (e_xc_real xcd d G vol xt ks sp n1 n2 n3 (tget e) ns Sd eq_refl). rewrite Hx. destruct e as [se te]. cbn in Se. subst se. reflexivity.
  - unfold e_xc, ndim. rewrite Sd. cbn [length ns Nat.eqb negb]. rewrite Hx. cbn [bind].
    destruct (tzip_same Cmult (tmap RtoC e) (tmap RtoC d)) as (p & -> & Sp & Gp); [cbn; congruence|]. cbn [bind].
    assert (E : Im (tsum_all p) = 0).
    { unfold tsum_all. rewrite Im_sumC. apply sumR_zero. intros i Hi. apply in_indices in Hi. rewrite Gp; [|rewrite Sp in Hi; exact Hi]. cbn. ring. }
    unfold safe_real. cbn [tshape indices forallb tget]. change (snd (tsum_all p)) with (Im (tsum_all p)). rewrite E, Rabs_R0.
    destruct (Rle_dec 0 (/ 10 ^ 8)) as [_|N]; [cbn [andb bind]; eexists; reflexivity|]. exfalso. apply N. left. apply Rinv_0_lt_compat, pow_lt. lra.
Qed.

Lemma total_returns xcd A c pos ch G kpts vol occ ks xt sp B n1 n2 n3 : let ns := [n1; n2; n3] in let K := length kpts in
  m3det A <> 0 -> 0 < vol -> g_vectors A ns = Ok G -> length ch = length pos ->
  tshape c = [sp; K; B] ++ ns -> tshape occ = [sp; K; B] ->
  (forall d, tshape d = sp :: ns -> exists e, xcd d G ks xt = Ok (tmap RtoC e) /\ (tshape e = ns \/ tshape e = sp :: ns)) ->
  exists e, total_energy xcd c pos ch G kpts vol (Some occ) ks xt = Ok e.
Proof.
  intros ns K HA Hv HG Hl Sc So Hxc. destruct (g_vectors_dual A n1 n2 n3 G HA HG) as (SG & _). fold ns in SG.
  assert (Hn : Forall (fun n => (0 < n)%nat) ns) by (destruct (proj1 (g_vectors_ok A n1 n2 n3) (ex_intro _ G HG)) as (? & ? & ?); repeat constructor; lia).
  assert (HN : 0 < INR (nprod ns)) by (apply lt_0_INR, nprod_pos, Hn).
  unfold total_energy, total_energy_split. destruct (wave_grid_eq c vol [sp; K; B] ns eq_refl Sc) as (w & Ew & _). rewrite Ew. cbn [bind].
  destruct (density_eq c vol occ sp K B n1 n2 n3 Sc So) as (d0 & E0 & S0 & _).
  destruct (wave_to_density_eq c vol occ sp K B n1 n2 n3 w d0 Sc So Ew E0) as (d & Ed & Eq).
  unfold wave_to_density_reciprocal. rewrite Ed. cbn [bind]. assert (Sd : tshape d = sp :: ns) by (rewrite (proj1 Eq); exact S0).
  destruct (fftn3_eq (tmap RtoC d) [sp] ns eq_refl Sd) as (D & -> & SD & _). cbn [bind].
  destruct (kinetic_some G kpts c occ sp B n1 n2 n3 SG Sc So) as (t & -> & _). cbn [bind].
  rewrite (e_external_eq D pos ch G vol sp n1 n2 n3 SD SG Hl ltac:(lra) HN). cbn [bind].
  rewrite (e_hartree_eq D G vol ks sp n1 n2 n3 SD SG (fun x => g_nonzero A n1 n2 n3 G x HA HG)). cbn [bind].
  destruct (Hxc d Sd) as (e & He & Se). destruct (e_xc_returns xcd d G vol xt ks sp n1 n2 n3 e Sd He Se) as (x & ->). cbn [bind]. eexists. reflexivity.
Qed.

(** the LDA branches return real arrays when every name is known *)
Lemma lda_known lib ts (d : tensor R) sp ns : (sp = 1 \/ sp = 2)%nat -> tshape d = sp :: ns -> (forall t b, In t ts -> lib t b <> None) ->
  exists e, lda_sum lib ts d = Ok e /\ tshape e = ns.
Proof.
  intros Hs Sd Hl. unfold lda_sum.
  assert (M : exists l, mapM (fun t => lda lib t d) ts = Ok l).
  { induction ts as [|t ts IH]; [eexists; reflexivity|]. destruct IH as (l & E); [intros u b Hu; apply Hl; right; exact Hu|]. cbn [mapM]. rewrite E.
    assert (L : exists a, lda lib t d = Ok a).
    { unfold lda. rewrite Sd. unfold pick. pose proof (Hl t ((sp =? 2)%nat && negb (is_exchange t))%bool (or_introl eq_refl)) as Q. destruct (lib t _); [|contradiction].
      destruct Hs as [-> | ->]; cbn [Nat.eqb orb]; eexists; reflexivity. }
    destruct L as (a & ->). cbn [bind]. eexists. reflexivity. }
  destruct M as (l & ->). cbn [bind]. eexists. split; [reflexivity|]. rewrite Sd. reflexivity.
Qed.
Lemma xc_lda_returns lib vg xt G ks sp ns d : (sp = 1 \/ sp = 2)%nat -> contains "gga" xt = false -> (forall t b, In t (split_on "+" xt) -> lib t b <> None) ->
  tshape d = sp :: ns -> exists e, xc_density lib vg d G ks xt = Ok (tmap RtoC e) /\ (tshape e = ns \/ tshape e = sp :: ns).
Proof.
  intros Hs Hg Hl Sd. destruct (lda_known lib _ d sp ns Hs Sd Hl) as (e & E & Se). unfold xc_density. rewrite Hg, E. cbn [bind rmap]. destruct ks.
  - unfold vxc_lda. rewrite Sd. destruct Hs as [-> | ->]; cbn [Nat.eqb orb rmap]; eexists; (split; [reflexivity|]); right; reflexivity.
  - exists e. split; [reflexivity|]. left. exact Se.
Qed.
Lemma total_returns_lda lib vg A c pos ch G kpts vol occ ks xt sp B n1 n2 n3 : let ns := [n1; n2; n3] in let K := length kpts in
  (sp = 1 \/ sp = 2)%nat -> contains "gga" xt = false -> (forall t b, In t (split_on "+" xt) -> lib t b <> None) ->
  m3det A <> 0 -> 0 < vol -> g_vectors A ns = Ok G -> length ch = length pos ->
  tshape c = [sp; K; B] ++ ns -> tshape occ = [sp; K; B] ->
  exists e, total_energy (xc_density lib vg) c pos ch G kpts vol (Some occ) ks xt = Ok e.
Proof.
  intros ns K Hs Hg Hl HA Hv HG Hp Sc So. apply (total_returns (xc_density lib vg) A c pos ch G kpts vol occ ks xt sp B n1 n2 n3 HA Hv HG Hp Sc So).
  intros d Sd. apply (xc_lda_returns lib vg xt G ks sp ns d Hs Hg Hl Sd).
Qed.
