(** The gradient of the density. *)
From Coq Require Import Reals Lra Lia.
From Coquelicot Require Import Coquelicot.
From Coq Require Import List Arith.
From Verif Require Import Base Sums Tensor DFT GridModel Lin3 VecModel VecProofs OccSpec OccProofs PwModel PwSpec PwProofs.
Import ListNotations.
Local Open Scope C_scope.

(** ** gradient of the density *)
Lemma is_derive_sumR {X} (l : list X) (f : X -> R -> R) (f' : X -> R) t :
  (forall a, In a l -> is_derive (f a) t (f' a)) ->
  is_derive (fun u => sumR l (fun a => f a u)) t (sumR l f').
Proof.
  induction l as [|a l IH]; intros H.
  - apply (is_derive_const 0%R).
  - cbn [sumR fold_right]. apply (is_derive_plus (f a) (fun u => sumR l (fun b => f b u))).
    + apply H. left. reflexivity.
    + apply IH. intros b Hb. apply H. right. exact Hb.
Qed.

Lemma dot_line g r e t : dot g (vadd r (vscale t e)) = (dot g r + t * dot g e)%R.
Proof. destruct g, r, e. unfold dot, vadd, vscale. simpl. ring. Qed.

Lemma sumV_dot {X} (l : list X) (f : X -> v3) e : dot (sumV l f) e = sumR l (fun x => dot (f x) e).
Proof. unfold sumV, dot. cbn [vx vy vz]. rewrite !sumR_plus, !sumR_scal_r. reflexivity. Qed.

Lemma grad_orbital (l : list (list nat)) (cr ci : list nat -> R) (G : list nat -> v3) r e :
  let a x := (cr x * cos (dot (G x) r) - ci x * sin (dot (G x) r))%R in
  let b x := (cr x * sin (dot (G x) r) + ci x * cos (dot (G x) r))%R in
  is_derive (fun t => Cnorm2 (sumC l (fun x => (cr x, ci x) * cis (dot (G x) (vadd r (vscale t e)))))) 0
    (dot (vscale 2 (vadd (vscale (sumR l a) (vneg (sumV l (fun x => vscale (b x) (G x))))) (vscale (sumR l b) (sumV l (fun x => vscale (a x) (G x)))))) e).
Proof.
  intros a b.
  set (P := fun t => sumR l (fun x => cr x * cos (dot (G x) r + t * dot (G x) e) - ci x * sin (dot (G x) r + t * dot (G x) e))%R).
  set (Q := fun t => sumR l (fun x => cr x * sin (dot (G x) r + t * dot (G x) e) + ci x * cos (dot (G x) r + t * dot (G x) e))%R).
  assert (HP : is_derive P 0 (sumR l (fun x => - b x * dot (G x) e)%R)).
  { unfold P. apply (is_derive_sumR l (fun x t => (cr x * cos (dot (G x) r + t * dot (G x) e) - ci x * sin (dot (G x) r + t * dot (G x) e))%R)).
    intros x _. auto_derive; [trivial|]. unfold b. replace (dot (G x) r + 0 * dot (G x) e)%R with (dot (G x) r) by ring. ring. }
  assert (HQ : is_derive Q 0 (sumR l (fun x => a x * dot (G x) e)%R)).
  { unfold Q. apply (is_derive_sumR l (fun x t => (cr x * sin (dot (G x) r + t * dot (G x) e) + ci x * cos (dot (G x) r + t * dot (G x) e))%R)).
    intros x _. auto_derive; [trivial|]. unfold a. replace (dot (G x) r + 0 * dot (G x) e)%R with (dot (G x) r) by ring. ring. }
  apply (is_derive_ext (fun t => P t * P t + Q t * Q t)%R).
  - intros t. unfold Cnorm2, P, Q.
    match goal with |- _ = (fst ?z * fst ?z + snd ?z * snd ?z)%R => change (fst z) with (Re z); change (snd z) with (Im z) end.
    rewrite Re_sumC, Im_sumC.
    f_equal; f_equal; apply sumR_ext; intros x _; rewrite dot_line; unfold Re, Im, Cmult, cis; simpl; ring.
  - assert (EP : P 0%R = sumR l a).
    { apply sumR_ext. intros x _. unfold a. replace (dot (G x) r + 0 * dot (G x) e)%R with (dot (G x) r) by ring. reflexivity. }
    assert (EQ : Q 0%R = sumR l b).
    { apply sumR_ext. intros x _. unfold b. replace (dot (G x) r + 0 * dot (G x) e)%R with (dot (G x) r) by ring. reflexivity. }
    evar_last.
    + apply (is_derive_plus (fun t => P t * P t)%R (fun t => Q t * Q t)%R).
      * apply (is_derive_mult P P 0%R _ _ HP HP). intros; apply Rmult_comm.
      * apply (is_derive_mult Q Q 0%R _ _ HQ HQ). intros; apply Rmult_comm.
    + rewrite EP, EQ.
      assert (D1 : forall (w1 w2 : v3) (s1 s2 : R), dot (vscale 2 (vadd (vscale s1 (vneg w1)) (vscale s2 w2))) e = (2 * (s2 * dot w2 e - s1 * dot w1 e))%R).
      { intros [] [] s1 s2. destruct e. unfold dot, vadd, vscale, vneg. simpl. ring. }
      rewrite D1, !sumV_dot.
      rewrite (sumR_ext l (fun x => dot (vscale (a x) (G x)) e) (fun x => a x * dot (G x) e)%R)
        by (intros x _; destruct (G x), e; unfold dot, vscale; simpl; ring).
      rewrite (sumR_ext l (fun x => dot (vscale (b x) (G x)) e) (fun x => b x * dot (G x) e)%R)
        by (intros x _; destruct (G x), e; unfold dot, vscale; simpl; ring).
      rewrite (sumR_ext l (fun x => - b x * dot (G x) e)%R (fun x => - (b x * dot (G x) e))%R) by (intros; ring).
      rewrite sumR_opp. unfold plus, mult; simpl. ring.
Qed.

Lemma orbital_norm ns G vol c b r : (0 < vol)%R ->
  Cnorm2 (orbital_at ns G vol c b r) = (/ vol * Cnorm2 (sumC (indices ns) (fun x => (tget c (b ++ x) * cis (dot (tget G x) r))%C)))%R.
Proof.
  intros Hv. unfold orbital_at. rewrite Cnorm2_mult. f_equal. unfold Cnorm2, RtoC; simpl.
  assert (Hq : (0 < sqrt vol)%R) by (apply sqrt_lt_R0; exact Hv).
  rewrite <- (sqrt_def vol) at 3 by lra. field. lra.
Qed.

Lemma nabla_density c A sp K B n1 n2 n3 r1 r2 r3 G occ : let ns := [n1; n2; n3] in
  m3det A <> 0%R -> g_vectors A ns = Ok G -> tshape c = [sp; K; B; n1; n2; n3] -> tshape occ = [sp; K; B] ->
  exists v, nabla_density_grid [r1; r2; r3] c A None (Some occ) = Ok v /\ tshape v = [] /\
    nabla_density_grid [r1; r2; r3] c A (Some G) (Some occ) = Ok v /\
    forall e, is_derive (fun t => density_at ns G (volume A) c occ (vadd (V3 r1 r2 r3) (vscale t e))) 0 (dot (tget v []) e).
Proof.
  intros ns HA HG Hc Ho.
  assert (SG : tshape G = ns) by (destruct (g_vectors_dual A n1 n2 n3 G HA HG) as [E _]; exact E).
  assert (Hv : (0 < volume A)%R) by (unfold volume; apply Rabs_pos_lt; exact HA).
  unfold nabla_density_grid. rewrite Hc. fold ns. rewrite HG. cbn [bind].
  destruct (list_eq_dec Nat.eq_dec (tshape G) ns) as [_|Hne]; [|contradiction].
  match goal with |- context [tzip ?f ?o occ] => destruct (tzip_same f o occ) as (p & Hp & Sp & Gp); [rewrite Ho; reflexivity|] end.
  rewrite Hp. cbn [bind]. unfold ndim. rewrite Sp. cbn [tshape length Nat.eqb].
  eexists. split; [reflexivity|]. split; [reflexivity|]. split; [reflexivity|]. intros e. cbn [tget].
  assert (Ed : forall (w : v3) s, dot (vscale s w) e = (s * dot w e)%R) by (intros [] s; destruct e; unfold dot, vscale; simpl; ring).
  rewrite Ed, sumV_dot, <- sumR_scal. unfold density_at. rewrite Ho.
  apply (is_derive_sumR (indices [sp; K; B]) (fun b t => (tget occ b * Cnorm2 (orbital_at ns G (volume A) c b (vadd (V3 r1 r2 r3) (vscale t e))))%R)).
  intros b Hb. apply in_indices in Hb. rewrite Gp by exact Hb. rewrite Ed.
  apply (is_derive_ext (fun t => (tget occ b * / volume A) * Cnorm2 (sumC (indices ns) (fun x => ((Re (tget c (b ++ x)), Im (tget c (b ++ x))) * cis (dot (tget G x) (vadd (V3 r1 r2 r3) (vscale t e))))%C)))%R).
  { intros t. rewrite orbital_norm by exact Hv. rewrite <- Rmult_assoc. apply f_equal, f_equal, sumC_ext. intros x _.
    f_equal. unfold Re, Im. destruct (tget c (b ++ x)); reflexivity. }
  evar_last.
  - apply is_derive_scal. apply (grad_orbital (indices ns) (fun x => Re (tget c (b ++ x))) (fun x => Im (tget c (b ++ x))) (tget G) (V3 r1 r2 r3) e).
  - cbn [tget]. unfold scal; simpl. unfold mult; simpl. ring.
Qed.

Lemma nabla_density_none c A sp K B n1 n2 n3 r1 r2 r3 G : let ns := [n1; n2; n3] in
  m3det A <> 0%R -> g_vectors A ns = Ok G -> tshape c = [sp; K; B; n1; n2; n3] ->
  exists v, nabla_density_grid [r1; r2; r3] c A None None = Ok v /\ tshape v = [sp; K; B] /\
    forall b e, inb b [sp; K; B] ->
      is_derive (fun t => volume A * Cnorm2 (orbital_at ns G (volume A) c b (vadd (V3 r1 r2 r3) (vscale t e))))%R 0 (dot (tget v b) e).
Proof.
  intros ns HA HG Hc.
  assert (SG : tshape G = ns) by (destruct (g_vectors_dual A n1 n2 n3 G HA HG) as [E _]; exact E).
  assert (Hv : (0 < volume A)%R) by (unfold volume; apply Rabs_pos_lt; exact HA).
  unfold nabla_density_grid. rewrite Hc. fold ns. rewrite HG. cbn [bind].
  destruct (list_eq_dec Nat.eq_dec (tshape G) ns) as [_|Hne]; [|contradiction].
  eexists. split; [reflexivity|]. split; [reflexivity|]. intros b e Hb. cbn [tget].
  apply (is_derive_ext (fun t => Cnorm2 (sumC (indices ns) (fun x => ((Re (tget c (b ++ x)), Im (tget c (b ++ x))) * cis (dot (tget G x) (vadd (V3 r1 r2 r3) (vscale t e))))%C))))%R.
  { intros t. rewrite orbital_norm by exact Hv. rewrite <- Rmult_assoc. rewrite Rinv_r by lra. rewrite Rmult_1_l. apply f_equal, sumC_ext. intros x _.
    f_equal. unfold Re, Im. destruct (tget c (b ++ x)); reflexivity. }
  apply (grad_orbital (indices ns) (fun x => Re (tget c (b ++ x))) (fun x => Im (tget c (b ++ x))) (tget G) (V3 r1 r2 r3) e).
Qed.
