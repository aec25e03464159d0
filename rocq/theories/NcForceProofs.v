(** Forces on the atoms described by pseudopotentials. *)
From Coq Require Import Reals Lra Lia.
From Coquelicot Require Import Coquelicot.
From Coq Require Import Ascii String List Arith ZArith Bool FunctionalExtensionality.
From Verif Require Import Base Sums Tensor DFT GridModel GridProofs PadModel PadProofs Lin3 VecModel VecProofs OccModel PwModel PwSpec PwProofs BraketModel XcModel XcSpec EwaldModel EnergyModel EnergySpec EnergyProofs ExtProofs TotalProofs PwGrad XcProofs XcProofs3 SpinProofs LocModel LocSpec LocProofs LocProofs2 NlocModel NlocSpec NlocProofs NlocProofs2 NlocProofs4 ForceSpec ForceProofs NcForceSpec.
Import ListNotations.
Local Open Scope R_scope.

(** ** Local potential *)
Lemma local_list jn spline m G vol (l : list atom) (W : nat -> tensor C) : l <> [] -> (forall i, (i < length l)%nat -> local_of jn spline [nth i l no_atom] G vol m = Ok (W i)) ->
  exists V, local_of jn spline l G vol m = Ok V /\ tshape V = tshape G /\ forall x, tget V x = sumC (seq 0 (length l)) (fun i => tget (W i) x).
Proof.
  revert W. induction l as [|a l IH]; intros W Hn H; [contradiction|]. pose proof (H 0%nat ltac:(cbn; lia)) as H0. cbn [nth] in H0.
  destruct l as [|b l].
  - exists (W 0%nat). split; [exact H0|]. split; [destruct (local_ok _ _ _ _ _ _ _ H0) as (rv & _ & _ & _ & _ & _ & S & _); exact S|]. intros x. cbn. ring.
  - destruct (IH (fun i => W (S i)) ltac:(discriminate)) as (V & HV & SV & GV).
    { intros i Hi. apply (H (S i)). cbn [length] in *. lia. }
    destruct (local_app jn spline m G vol [a] (b :: l) _ _ H0 HV) as (V' & HV' & SV' & GV'). exists V'. split; [exact HV'|]. split; [exact SV'|].
    intros x. rewrite GV', GV. change (length (a :: b :: l)) with (S (length (b :: l))). cbn [seq]. change (sumC (0%nat :: seq 1 (length (b :: l))) (fun i => tget (W i) x)) with (tget (W 0%nat) x + sumC (seq 1 (length (b :: l))) (fun i => tget (W i) x))%C.
    f_equal. rewrite <- seq_shift, sumC_map. reflexivity.
Qed.
Lemma nth_loc_displaced atoms u t a : (a < length atoms)%nat -> nth a (loc_displaced atoms u t) no_atom = moved (nth a atoms no_atom) (vscale t (u a)).
Proof.
  intros Ha. unfold loc_displaced. rewrite (nth_indep _ no_atom (moved (nth 0 atoms no_atom) (vscale t (u 0%nat)))) by (rewrite map_length, seq_length; exact Ha).
  rewrite (map_nth (fun a => moved (nth a atoms no_atom) (vscale t (u a)))), seq_nth by exact Ha. reflexivity.
Qed.
Lemma loc_displaced_length atoms u t : length (loc_displaced atoms u t) = length atoms.
Proof. unfold loc_displaced. rewrite map_length, seq_length. reflexivity. Qed.

Section Local.
Variables (jn : Z -> R -> R) (spline : list R -> list R -> R -> R) (m : ft_method) (G : tensor v3) (vol : R) (atoms : list atom) (Va : nat -> tensor C).
Hypothesis (Hne : atoms <> []) (HVa : forall a, (a < length atoms)%nat -> local_of jn spline [nth a atoms no_atom] G vol m = Ok (Va a)).
Lemma local_displaced u t : exists V, local_of jn spline (loc_displaced atoms u t) G vol m = Ok V /\ tshape V = tshape G /\
  forall x, tget V x = sumC (seq 0 (length atoms)) (fun a => cis (- (t * dot (tget G x) (u a))) * tget (Va a) x)%C.
Proof using Hne HVa.
  assert (X : exists W : nat -> tensor C, forall a, (a < length atoms)%nat -> local_of jn spline [moved (nth a atoms no_atom) (vscale t (u a))] G vol m = Ok (W a) /\ forall x, tget (W a) x = (cis (- dot (tget G x) (vscale t (u a))) * tget (Va a) x)%C).
  { exists (fun a => match local_of jn spline [moved (nth a atoms no_atom) (vscale t (u a))] G vol m with Ok V => V | Err _ => Va a end). intros a Ha.
    destruct (local_shift jn spline m G vol [nth a atoms no_atom] (vscale t (u a)) _ (HVa a Ha)) as (V' & HV' & _ & GV'). cbn [map] in HV'. rewrite HV'. split; [reflexivity|exact GV']. }
  destruct X as (W & HW). destruct (local_list jn spline m G vol (loc_displaced atoms u t) W) as (V & HV & SV & GV).
  - intros E. apply (f_equal (@length _)) in E. rewrite loc_displaced_length in E. destruct atoms; [contradiction|discriminate].
  - intros i Hi. rewrite loc_displaced_length in Hi. rewrite nth_loc_displaced by exact Hi. apply HW, Hi.
  - exists V. split; [exact HV|]. split; [exact SV|]. intros x. rewrite GV, loc_displaced_length. apply sumC_ext. intros a Ha. apply in_seq in Ha. rewrite (proj2 (HW a ltac:(lia))), dot_scale_r. reflexivity.
Qed.
Lemma local_derive D sp n1 n2 n3 u : let ns := [n1; n2; n3] in tshape G = ns -> tshape D = sp :: ns ->
  exists E : R -> R, (forall t, exists V, local_of jn spline (loc_displaced atoms u t) G vol m = Ok V /\ tshape V = ns /\ energy_local D V vol = Ok (E t)) /\
    is_derive E 0 (- work (length atoms) (fun a => local_force ns G D (Va a) vol) u).
Proof using Hne HVa.
  intros ns SG SD. set (N := INR (nprod ns)).
  exists (fun t => vol / (N * N) * sumR (indices ns) (fun x => sumR (seq 0 (length atoms)) (fun a => Re (cis (0 + t * dot (tget G x) (u a)) * (Cconj (tget (Va a) x) * spin_sum D x))%C))).
  split.
  - intros t. destruct (local_displaced u t) as (V & HV & SV & GV). exists V. split; [exact HV|]. rewrite SG in SV. split; [exact SV|]. unfold energy_local. rewrite (braket_trail V D vol sp n1 n2 n3 SV SD). fold ns N. f_equal. f_equal.
    rewrite sumC_swap, Re_sumC. apply sumR_ext. intros x _. rewrite sumC_scal. unfold spin_sum. rewrite SD. cbn [hd]. fold (sumC (seq 0 sp) (fun s => tget D (s :: x))). rewrite GV, Cconj_sum, <- sumC_scal_r, Re_sumC. apply sumR_ext. intros a _.
    rewrite Cconj_mult, cis_conj, Ropp_involutive, Rplus_0_l. f_equal. ring.
  - assert (E : - work (length atoms) (fun a => local_force ns G D (Va a) vol) u = vol / (N * N) * sumR (indices ns) (fun x => sumR (seq 0 (length atoms)) (fun a => - dot (tget G x) (u a) * Im (cis 0 * (Cconj (tget (Va a) x) * spin_sum D x))%C))).
    { rewrite sumR_swap. unfold work. rewrite <- sumR_opp, <- sumR_scal. apply sumR_ext. intros a _. unfold local_force. fold N. rewrite dot_scale_l, dot_vsum. rewrite <- !sumR_scal, <- sumR_opp. apply sumR_ext. intros x _.
      rewrite dot_scale_l. replace (cis 0) with (RtoC 1) by (unfold cis; rewrite cos_0, sin_0; reflexivity). rewrite Cmult_1_l. unfold Rdiv. replace (N ^ 2) with (N * N) by ring. ring. }
    rewrite E. apply (is_derive_scal (fun t : R => sumR (indices ns) (fun x => sumR (seq 0 (length atoms)) (fun a => Re (cis (0 + t * dot (tget G x) (u a)) * (Cconj (tget (Va a) x) * spin_sum D x))%C)))).
    apply (is_derive_sumR (indices ns) (fun x t => sumR (seq 0 (length atoms)) (fun a => Re (cis (0 + t * dot (tget G x) (u a)) * (Cconj (tget (Va a) x) * spin_sum D x))%C))). intros x _.
    apply (is_derive_sumR (seq 0 (length atoms)) (fun a t => Re (cis (0 + t * dot (tget G x) (u a)) * (Cconj (tget (Va a) x) * spin_sum D x))%C)). intros a _. apply derive_cis.
Qed.
End Local.

(** ** Projectors *)
(** |sum_x z_x exp(-i t w_x)|^2 *)
Lemma square_derive {X} (l : list X) (z : X -> C) (w : X -> R) :
  is_derive (fun t : R => Re (Cconj (sumC l (fun x => z x * cis (- (t * w x)))) * sumC l (fun x => z x * cis (- (t * w x))))%C) 0 (sumR l (fun x => 2 * Im (Cconj (sumC l z) * z x)%C * w x)).
Proof.
  apply (is_derive_ext (fun t : R => sumR l (fun x => sumR l (fun y => Re (cis (0 + t * (w x - w y)) * (Cconj (z x) * z y))%C)))).
  { intros t. rewrite Cconj_sum, <- sumC_scal_r, Re_sumC. apply sumR_ext. intros x _. rewrite <- sumC_scal, Re_sumC. apply sumR_ext. intros y _. rewrite Cconj_mult, cis_conj.
    replace (0 + t * (w x - w y)) with (- - (t * w x) + - (t * w y)) by ring. rewrite cis_plus. f_equal. ring. }
  replace (sumR l (fun x => 2 * Im (Cconj (sumC l z) * z x)%C * w x)) with (sumR l (fun x => sumR l (fun y => - (w x - w y) * Im (cis 0 * (Cconj (z x) * z y))%C))).
  - apply (is_derive_sumR l (fun x t => sumR l (fun y => Re (cis (0 + t * (w x - w y)) * (Cconj (z x) * z y))%C))). intros x _.
    apply (is_derive_sumR l (fun y t => Re (cis (0 + t * (w x - w y)) * (Cconj (z x) * z y))%C)). intros y _. apply derive_cis.
  - replace (cis 0) with (RtoC 1) by (unfold cis; rewrite cos_0, sin_0; reflexivity).
    transitivity (sumR l (fun x => sumR l (fun y => w y * Im (Cconj (z x) * z y)%C)) - sumR l (fun x => sumR l (fun y => w x * Im (Cconj (z x) * z y)%C))).
    { rewrite <- sumR_minus. apply sumR_ext. intros x _. rewrite <- sumR_minus. apply sumR_ext. intros y _. rewrite Cmult_1_l. ring. }
    rewrite (sumR_swap l l (fun x y => w y * Im (Cconj (z x) * z y)%C)), <- sumR_minus. apply sumR_ext. intros x _. rewrite <- sumR_minus.
    rewrite Cconj_sum, <- sumC_scal_r. rewrite (Im_sumC l). replace (2 * sumR l (fun y => Im (Cconj (z y) * z x)%C) * w x) with (sumR l (fun y => 2 * w x * Im (Cconj (z y) * z x)%C)) by (rewrite sumR_scal; ring).
    apply sumR_ext. intros y _. destruct (z x) as [a b], (z y) as [c d]. unfold Cconj, Im, Cmult. cbn [fst snd]. ring.
Qed.
Lemma projection_sum Y G kpts a c b k j m : projection (-1) Y G kpts a c b k j m = sumC (indices (tshape G)) (projected_wave Y G kpts a c b k j m).
Proof. reflexivity. Qed.
Lemma projection_moved Y G kpts a c b k j m t v : projection (-1) Y G kpts (p_moved a (vscale t v)) c b k j m =
  sumC (indices (tshape G)) (fun x => projected_wave Y G kpts a c b k j m x * cis (- (t * dot (vadd (nth k kpts vzero) (tget G x)) v)))%C.
Proof.
  unfold projection. apply sumC_ext. intros x _. unfold projected_wave. cbv zeta. unfold p_moved. cbn [p_pos p_l p_beta]. rewrite dot_add_r, dot_scale_r. set (q := vadd _ _).
  replace (-1 * (dot q (p_pos a) + t * dot q v)) with (-1 * dot q (p_pos a) + - (t * dot q v)) by ring. rewrite cis_plus. ring.
Qed.
Lemma projection_derive Y G kpts a c b k j m v :
  is_derive (fun t : R => Re (Cconj (projection (-1) Y G kpts (p_moved a (vscale t v)) c b k j m) * projection (-1) Y G kpts (p_moved a (vscale t v)) c b k j m)%C) 0 (dot (projection_gradient Y G kpts a c b k j m) v).
Proof.
  unfold projection_gradient. rewrite dot_vsum. eapply is_derive_ext; [intros t; rewrite projection_moved; reflexivity|].
  rewrite (sumR_ext _ _ (fun x => 2 * Im (Cconj (sumC (indices (tshape G)) (projected_wave Y G kpts a c b k j m)) * projected_wave Y G kpts a c b k j m x)%C * dot (vadd (nth k kpts vzero) (tget G x)) v)) by (intros x _; rewrite dot_scale_l, projection_sum; reflexivity).
  apply square_derive.
Qed.

Lemma nth_proj_displaced atoms u t a : (a < length atoms)%nat -> nth a (proj_displaced atoms u t) no_proj = p_moved (nth a atoms no_proj) (vscale t (u a)).
Proof.
  intros Ha. unfold proj_displaced. rewrite (nth_indep _ no_proj (p_moved (nth 0 atoms no_proj) (vscale t (u 0%nat)))) by (rewrite map_length, seq_length; exact Ha).
  rewrite (map_nth (fun a => p_moved (nth a atoms no_proj) (vscale t (u a)))), seq_nth by exact Ha. reflexivity.
Qed.
Lemma proj_displaced_length atoms u t : length (proj_displaced atoms u t) = length atoms.
Proof. unfold proj_displaced. rewrite map_length, seq_length. reflexivity. Qed.
Lemma proj_displaced_l atoms u t : map p_l (proj_displaced atoms u t) = map p_l atoms.
Proof.
  unfold proj_displaced. rewrite map_map. cbn [p_moved p_l]. transitivity (map p_l (map (fun i => nth i atoms no_proj) (seq 0 (length atoms)))); [rewrite map_map; reflexivity|]. rewrite map_nth_seq. reflexivity.
Qed.
Lemma proj_displaced_Forall (P : proj_atom -> Prop) atoms u t : (forall a v, P a -> P (p_moved a v)) -> Forall P atoms -> Forall P (proj_displaced atoms u t).
Proof.
  intros HP HF. unfold proj_displaced. apply Forall_map, Forall_forall. intros a Ha. apply in_seq in Ha. apply HP. rewrite Forall_forall in HF. apply HF, nth_In. lia.
Qed.

Section Projectors.
Variables (jn : Z -> R -> R) (spline : list R -> list R -> R -> R) (Y : Z -> Z -> R -> R -> C) (eigh : list (list R) -> list R * list (list R)) (m : nl_method) (G : tensor v3) (kpts : list v3) (vol : R) (atoms : list proj_atom)
  (rs : list (list R)) (betas : list (list (list R))).
Lemma nonlocal_derive c occ sp B n1 n2 n3 u : let ns := [n1; n2; n3] in let K := length kpts in tshape G = ns -> tshape c = [sp; K; B] ++ ns -> tshape occ = [sp; K; B] ->
  columns eigh atoms -> (exists psi, psi_of jn spline Y eigh atoms G kpts rs betas m = Ok psi) ->
  exists E : R -> R, (forall t, exists psi nb nm, psi_of jn spline Y eigh (proj_displaced atoms u t) G kpts rs betas m = Ok psi /\ tshape psi = [K; nb; nm] ++ ns /\ energy_nonlocal c psi vol (Some occ) = Ok (E t)) /\
    is_derive E 0 (- work (length atoms) (fun a => nonlocal_force Y eigh G kpts c vol occ sp B (nth a atoms no_proj)) u).
Proof.
  intros ns K SG Sc So Hcol Hpsi. apply psi_of_returns in Hpsi. destruct Hpsi as (Hb & Hm & H3 & Hl & Hf).
  set (sq := fun (a : nat) (s k b j mm : nat) (t : R) => let at_ := p_moved (nth a atoms no_proj) (vscale t (u a)) in Re (Cconj (projection (-1) Y G kpts at_ c [s; k; b] k j mm) * projection (-1) Y G kpts at_ c [s; k; b] k j mm)%C).
  set (pa := fun a => nth a atoms no_proj).
  exists (fun t => sumR (seq 0 (length atoms)) (fun a => (4 * PI) ^ 2 / vol * sumR (seq 0 sp) (fun s => sumR (seq 0 K) (fun k => sumR (seq 0 B) (fun b => tget occ [s; k; b] *
    sumR (seq 0 (length (p_l (pa a)))) (fun j => Rabs (nth j (fst (eigh (p_D (pa a)))) 0) * sumR (seq 0 (2 * nth j (p_l (pa a)) 0%nat + 1)) (fun mm => sq a s k b j mm t))))))).
  split.
  - intros t. set (at_ := proj_displaced atoms u t).
    assert (Hf' : Forall (fits G kpts) at_) by (apply proj_displaced_Forall; [intros a v Ha; exact Ha|exact Hf]).
    assert (Hc' : columns eigh at_) by (apply proj_displaced_Forall; [intros a v Ha; exact Ha|exact Hcol]).
    assert (Hl' : concat (map p_l at_) <> []) by (unfold at_; rewrite proj_displaced_l; exact Hl).
    assert (Hb' : length betas = length at_) by (unfold at_; rewrite proj_displaced_length; exact Hb).
    destruct (nonlocal_value jn spline Y eigh at_ G kpts rs betas m c vol sp B n1 n2 n3 SG Sc Hb' Hm Hl' Hf' Hc') as (psi & H & Ep & Sp & EH & SH & _).
    exists psi, (total_beta at_), (2 * max_l at_ + 1)%nat. split; [exact Ep|]. split; [exact Sp|].
    destruct (energy_eq c psi vol occ sp K B _ _ n1 n2 n3 Sc Sp So) as (H' & EH' & _ & Ee). rewrite EH in EH'. injection EH' as <-. rewrite Ee. f_equal.
    destruct (nonlocal_formula jn spline Y eigh at_ G kpts rs betas m c vol H Hc') as (_ & _ & _ & _ & GH); [unfold nonlocal_of; rewrite Ep; exact EH|].
    transitivity (sumR (seq 0 sp) (fun s => sumR (seq 0 K) (fun k => sumR (seq 0 B) (fun b => sumR (seq 0 (length atoms)) (fun a => (4 * PI) ^ 2 / vol * (tget occ [s; k; b] *
      sumR (seq 0 (length (p_l (pa a)))) (fun j => Rabs (nth j (fst (eigh (p_D (pa a)))) 0) * sumR (seq 0 (2 * nth j (p_l (pa a)) 0%nat + 1)) (fun mm => sq a s k b j mm t)))))))).
    + apply sumR_ext. intros s _. apply sumR_ext. intros k _. apply sumR_ext. intros b _. rewrite GH. unfold formula. rewrite Re_scal_R. rewrite (sumR_ext (seq 0 (length atoms)) _ (fun a => tget occ [s; k; b] * ((4 * PI) ^ 2 / vol *
        sumR (seq 0 (length (p_l (pa a)))) (fun j => Rabs (nth j (fst (eigh (p_D (pa a)))) 0) * sumR (seq 0 (2 * nth j (p_l (pa a)) 0%nat + 1)) (fun mm => sq a s k b j mm t))))) by (intros; ring).
      rewrite sumR_scal. f_equal. rewrite sumR_scal. f_equal. unfold at_, proj_displaced. rewrite sumC_map, Re_sumC. apply sumR_ext. intros a _. cbn [p_moved p_l p_D]. fold (pa a). rewrite Re_sumC. apply sumR_ext. intros j _. rewrite Re_scal_R. f_equal.
      unfold overlap. cbn [p_moved p_l]. fold (pa a). rewrite Re_sumC. apply sumR_ext. intros mm _. reflexivity.
    + rewrite (sumR_ext (seq 0 (length atoms)) _ (fun a => sumR (seq 0 sp) (fun s => sumR (seq 0 K) (fun k => sumR (seq 0 B) (fun b => (4 * PI) ^ 2 / vol * (tget occ [s; k; b] *
      sumR (seq 0 (length (p_l (pa a)))) (fun j => Rabs (nth j (fst (eigh (p_D (pa a)))) 0) * sumR (seq 0 (2 * nth j (p_l (pa a)) 0%nat + 1)) (fun mm => sq a s k b j mm t)))))))).
      2:{ intros a _. rewrite <- sumR_scal. apply sumR_ext. intros s _. rewrite <- sumR_scal. apply sumR_ext. intros k _. rewrite <- sumR_scal. reflexivity. }
      rewrite (sumR_swap (seq 0 (length atoms))). apply sumR_ext. intros s _. rewrite (sumR_swap (seq 0 (length atoms))). apply sumR_ext. intros k _. rewrite (sumR_swap (seq 0 (length atoms))). reflexivity.
  - assert (EW : - work (length atoms) (fun a => nonlocal_force Y eigh G kpts c vol occ sp B (nth a atoms no_proj)) u =
      sumR (seq 0 (length atoms)) (fun a => (4 * PI) ^ 2 / vol * sumR (seq 0 sp) (fun s => sumR (seq 0 K) (fun k => sumR (seq 0 B) (fun b => tget occ [s; k; b] *
        sumR (seq 0 (length (p_l (pa a)))) (fun j => Rabs (nth j (fst (eigh (p_D (pa a)))) 0) * sumR (seq 0 (2 * nth j (p_l (pa a)) 0%nat + 1)) (fun mm => dot (projection_gradient Y G kpts (pa a) c [s; k; b] k j mm) (u a)))))))).
    { unfold work. rewrite <- sumR_opp. apply sumR_ext. intros a _. fold (pa a). unfold nonlocal_force. fold K. rewrite dot_scale_l. rewrite <- Ropp_mult_distr_l, Ropp_involutive. f_equal. rewrite dot_vsum. apply sumR_ext. intros s _. rewrite dot_vsum. apply sumR_ext. intros k _. rewrite dot_vsum. apply sumR_ext. intros b _.
      rewrite dot_scale_l. f_equal. rewrite dot_vsum. apply sumR_ext. intros j _. rewrite dot_scale_l. f_equal. apply dot_vsum. }
    rewrite EW. clear EW.
    apply (is_derive_sumR (seq 0 (length atoms)) (fun a t => (4 * PI) ^ 2 / vol * sumR (seq 0 sp) (fun s => sumR (seq 0 K) (fun k => sumR (seq 0 B) (fun b => tget occ [s; k; b] *
      sumR (seq 0 (length (p_l (pa a)))) (fun j => Rabs (nth j (fst (eigh (p_D (pa a)))) 0) * sumR (seq 0 (2 * nth j (p_l (pa a)) 0%nat + 1)) (fun mm => sq a s k b j mm t))))))). intros a _.
    apply (is_derive_scal (fun t : R => sumR (seq 0 sp) (fun s => sumR (seq 0 K) (fun k => sumR (seq 0 B) (fun b => tget occ [s; k; b] *
      sumR (seq 0 (length (p_l (pa a)))) (fun j => Rabs (nth j (fst (eigh (p_D (pa a)))) 0) * sumR (seq 0 (2 * nth j (p_l (pa a)) 0%nat + 1)) (fun mm => sq a s k b j mm t))))))).
    apply (is_derive_sumR (seq 0 sp) (fun s t => sumR (seq 0 K) (fun k => sumR (seq 0 B) (fun b => tget occ [s; k; b] *
      sumR (seq 0 (length (p_l (pa a)))) (fun j => Rabs (nth j (fst (eigh (p_D (pa a)))) 0) * sumR (seq 0 (2 * nth j (p_l (pa a)) 0%nat + 1)) (fun mm => sq a s k b j mm t)))))). intros s _.
    apply (is_derive_sumR (seq 0 K) (fun k t => sumR (seq 0 B) (fun b => tget occ [s; k; b] *
      sumR (seq 0 (length (p_l (pa a)))) (fun j => Rabs (nth j (fst (eigh (p_D (pa a)))) 0) * sumR (seq 0 (2 * nth j (p_l (pa a)) 0%nat + 1)) (fun mm => sq a s k b j mm t))))). intros k _.
    apply (is_derive_sumR (seq 0 B) (fun b t => tget occ [s; k; b] *
      sumR (seq 0 (length (p_l (pa a)))) (fun j => Rabs (nth j (fst (eigh (p_D (pa a)))) 0) * sumR (seq 0 (2 * nth j (p_l (pa a)) 0%nat + 1)) (fun mm => sq a s k b j mm t)))). intros b _.
    apply (is_derive_scal (fun t : R => sumR (seq 0 (length (p_l (pa a)))) (fun j => Rabs (nth j (fst (eigh (p_D (pa a)))) 0) * sumR (seq 0 (2 * nth j (p_l (pa a)) 0%nat + 1)) (fun mm => sq a s k b j mm t)))).
    apply (is_derive_sumR (seq 0 (length (p_l (pa a)))) (fun j t => Rabs (nth j (fst (eigh (p_D (pa a)))) 0) * sumR (seq 0 (2 * nth j (p_l (pa a)) 0%nat + 1)) (fun mm => sq a s k b j mm t))). intros j _.
    apply (is_derive_scal (fun t : R => sumR (seq 0 (2 * nth j (p_l (pa a)) 0%nat + 1)) (fun mm => sq a s k b j mm t))).
    apply (is_derive_sumR (seq 0 (2 * nth j (p_l (pa a)) 0%nat + 1)) (fun mm t => sq a s k b j mm t)). intros mm _. apply projection_derive.
Qed.
End Projectors.
