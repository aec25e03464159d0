(** Forces on the atoms described by pseudopotentials: the energy of the valence electrons. *)
From Coq Require Import Reals Lra Lia.
From Coquelicot Require Import Coquelicot.
From Coq Require Import Ascii String List Arith ZArith Bool.
From Verif Require Import Base Sums Tensor DFT GridModel GridProofs PadModel PadProofs Lin3 VecModel VecProofs OccModel PwModel PwSpec PwProofs BraketModel XcModel XcSpec EwaldModel EnergyModel EnergySpec EnergyProofs ExtProofs TotalProofs PwGrad XcProofs XcProofs3 SpinProofs EwaldSpec EwaldProofs2
  LocModel LocSpec LocProofs LocProofs2 NlocModel NlocSpec NlocProofs NlocProofs2 NlocProofs4 NlocProofs6 NcAttSpec ForceSpec ForceProofs BoundProofs2 GeomProofs NcForceSpec NcForceProofs.
Import ListNotations.
Local Open Scope R_scope.

Lemma valence_unique xcd G kpts vol V nl xt c occ e e' : valence_energy xcd G kpts vol V nl xt c occ e -> valence_energy xcd G kpts vol V nl xt c occ e' -> e = e'.
Proof.
  intros (d & D & ek & eh & el & en & ex & H1 & H2 & H3 & H4 & H5 & H6 & H7 & ->) (d' & D' & ek' & eh' & el' & en' & ex' & K1 & K2 & K3 & K4 & K5 & K6 & K7 & ->).
  rewrite H1 in K1; injection K1 as <-. rewrite H2 in K2; injection K2 as <-. rewrite H3 in K3; injection K3 as <-. rewrite H4 in K4; injection K4 as <-. rewrite H5 in K5; injection K5 as <-. rewrite H6 in K6; injection K6 as <-. rewrite H7 in K7; injection K7 as <-. reflexivity.
Qed.
Lemma work_add n (F1 F2 : nat -> v3) u : - work n (fun a => vadd (F1 a) (F2 a)) u = - work n F1 u + - work n F2 u.
Proof. unfold work. rewrite (sumR_ext _ _ (fun a => dot (F1 a) (u a) + dot (F2 a) (u a))); [rewrite sumR_plus; ring|]. intros a _. unfold dot, vadd. cbn [vx vy vz]. ring. Qed.

Lemma valence_derive jn spline ml Y eigh mn rs betas la pa (Va : nat -> tensor C) (lib : xclib) vg xt A c G kpts vol occ sp B n1 n2 n3 u : let ns := [n1; n2; n3] in let K := length kpts in
  m3det A <> 0 -> g_vectors A ns = Ok G -> (sp = 1 \/ sp = 2)%nat -> (forall t pol, In t (split_on "+" xt) -> lib t pol <> None) -> tshape c = [sp; K; B] ++ ns -> tshape occ = [sp; K; B] ->
  la <> [] -> length pa = length la -> (forall a, (a < length la)%nat -> local_of jn spline [nth a la no_atom] G vol ml = Ok (Va a)) ->
  columns eigh pa -> (exists psi, psi_of jn spline Y eigh pa G kpts rs betas mn = Ok psi) ->
  exists D E, density_grid_reciprocal c vol (Some occ) = Ok D /\
    (forall t, exists V psi, local_of jn spline (loc_displaced la u t) G vol ml = Ok V /\ psi_of jn spline Y eigh (proj_displaced pa u t) G kpts rs betas mn = Ok psi /\
       valence_energy (xc_density lib vg) G kpts vol V psi xt c occ (E t)) /\
    is_derive E 0 (- work (length la) (fun a => vadd (local_force ns G D (Va a) vol) (nonlocal_force Y eigh G kpts c vol occ sp B (nth a pa no_proj))) u).
Proof.
  intros ns K HA HG Hs HL Sc So Hne Hlen HVa Hcol Hpsi. destruct (g_vectors_dual A n1 n2 n3 G HA HG) as (SG & _). fold ns in SG.
  destruct (density_eq c vol occ sp K B n1 n2 n3 Sc So) as (d & Ed & Sd & _). fold ns in Sd.
  destruct (fftn3_eq (tmap RtoC d) [sp] ns eq_refl Sd) as (D & HD & SD & _).
  destruct (kinetic_some G kpts c occ sp B n1 n2 n3 SG Sc So) as (ek & Ek & _ & _).
  pose proof (e_hartree_eq D G vol false sp n1 n2 n3 SD SG (fun x => g_nonzero A n1 n2 n3 G x HA HG)) as Eh. match type of Eh with _ = Ok ?x => set (eh := x) in Eh; clearbody eh end.
  assert (HP : forall t, In t (split_on "+" xt) -> pick lib t (sp =? 2)%nat <> None) by (intros t0 Ht; unfold pick; apply HL; exact Ht).
  pose proof (e_xc_point lib vg xt d G vol sp n1 n2 n3 Hs Sd SG HP) as Ex. match type of Ex with _ = Ok ?x => set (ex := x) in Ex; clearbody ex end.
  destruct (local_derive jn spline ml G vol la Va Hne HVa D sp n1 n2 n3 u SG SD) as (E1 & HE1 & D1).
  destruct (nonlocal_derive jn spline Y eigh mn G kpts vol pa rs betas c occ sp B n1 n2 n3 u SG Sc So Hcol Hpsi) as (E2 & HE2 & D2).
  assert (HD' : density_grid_reciprocal c vol (Some occ) = Ok D) by (unfold density_grid_reciprocal; rewrite Ed; exact HD).
  exists D, (fun t => E1 t + E2 t + (tget ek [] + eh + ex)). split; [exact HD'|]. split.
  - intros t. destruct (HE1 t) as (V & HV & _ & EV). destruct (HE2 t) as (psi & _ & _ & Hp & _ & Ep). exists V, psi. split; [exact HV|]. split; [exact Hp|].
    exists d, D, ek, eh, (E1 t), (E2 t), ex. repeat (split; [assumption|]). ring.
  - rewrite work_add. rewrite Hlen in D2. match goal with |- is_derive _ _ ?l => replace l with (l + 0) by ring end.
    apply (is_derive_plus (fun t => E1 t + E2 t) (fun _ => tget ek [] + eh + ex) 0); [exact (is_derive_plus E1 E2 0 _ _ D1 D2)|apply (is_derive_const (V := R_NormedModule))].
Qed.

Lemma valence_ground jn spline ml Y eigh mn rs betas la pa (Va : nat -> tensor C) (lib : xclib) vg xt (f f' : R -> R) A pos ch G kpts vol eta T sp B n1 n2 n3 u (allowed : tensor C -> tensor R -> Prop) (V psi : R -> tensor C) (m w : R -> R) c occ :
  let ns := [n1; n2; n3] in let K := length kpts in
  m3det A <> 0 -> g_vectors A ns = Ok G -> vol <> 0 -> (sp = 1 \/ sp = 2)%nat -> (forall t pol, In t (split_on "+" xt) -> lib t pol <> None) ->
  la <> [] -> length pa = length la -> length pos = length la -> length ch = length la -> (forall a, (a < length la)%nat -> local_of jn spline [nth a la no_atom] G vol ml = Ok (Va a)) -> columns eigh pa ->
  (forall x, is_derive f x (f' x)) -> eta <> 0 ->
  (forall i j t, (i < length pos)%nat -> (j < length pos)%nat -> In t T -> sqrt (Lin3.norm2 (vsub (vsub (nth j pos vzero) (nth i pos vzero)) t) + / 10 ^ 20) <> / 10 ^ 9) ->
  (forall t, local_of jn spline (loc_displaced la u t) G vol ml = Ok (V t) /\ psi_of jn spline Y eigh (proj_displaced pa u t) G kpts rs betas mn = Ok (psi t)) ->
  (forall t c' occ' e, allowed c' occ' -> valence_energy (xc_density lib vg) G kpts vol (V t) (psi t) xt c' occ' e -> m t <= e) ->
  (forall t, ewald_coulomb_repulsion f (displaced pos u t) ch G vol eta T = Ok (w t)) ->
  allowed c occ -> tshape c = [sp; K; B] ++ ns -> tshape occ = [sp; K; B] -> valence_energy (xc_density lib vg) G kpts vol (V 0) (psi 0) xt c occ (m 0) ->
  exists D, density_grid_reciprocal c vol (Some occ) = Ok D /\
    let W := work (length la) (fun a => vadd (vadd (local_force ns G D (Va a) vol) (nonlocal_force Y eigh G kpts c vol occ sp B (nth a pa no_proj))) (nuclear_force f f' eta T G vol pos ch a)) u in let E t := m t + w t in
    (forall eps, 0 < eps -> exists d, 0 < d /\ forall t, Rabs t < d -> E t <= E 0 - t * W + eps * Rabs t) /\
    (forall l, is_derive E 0 l -> l = - W) /\ (0 < W -> exists d, 0 < d /\ forall t, 0 < t < d -> E t < E 0).
Proof.
  intros ns K HA HG Hv Hs HL Hne Hlen Hpos Hch HVa Hcol Hf Heta HT HVp Hm Hw Hal Sc So He.
  assert (Hpsi : exists p, psi_of jn spline Y eigh pa G kpts rs betas mn = Ok p).
  { apply psi_of_returns. destruct (proj1 (psi_of_returns jn spline Y eigh (proj_displaced pa u 0) G kpts rs betas mn) (ex_intro _ _ (proj2 (HVp 0)))) as (H1 & H2 & H3 & H4 & H5). rewrite proj_displaced_length in H1. rewrite proj_displaced_l in H4.
    repeat (split; [assumption|]). apply Forall_forall. intros a Ha. destruct (In_nth _ _ no_proj Ha) as (i & Hi & <-). rewrite Forall_forall in H5.
    specialize (H5 (nth i (proj_displaced pa u 0) no_proj)). rewrite nth_proj_displaced in H5 by exact Hi. apply H5. rewrite <- (nth_proj_displaced pa u 0 i Hi). apply nth_In. rewrite proj_displaced_length. exact Hi. }
  destruct (valence_derive jn spline ml Y eigh mn rs betas la pa Va lib vg xt A c G kpts vol occ sp B n1 n2 n3 u HA HG Hs HL Sc So Hne Hlen HVa Hcol Hpsi) as (D & E1 & HD & HE1 & D1).
  assert (VE : forall t, valence_energy (xc_density lib vg) G kpts vol (V t) (psi t) xt c occ (E1 t)).
  { intros t. destruct (HE1 t) as (V' & p' & H1 & H2 & H3). destruct (HVp t) as (K1 & K2). rewrite K1 in H1. injection H1 as <-. rewrite K2 in H2. injection H2 as <-. exact H3. }
  destruct (nuclei_derive f f' A n1 n2 n3 G vol eta T pos ch u Hf HA HG Heta Hv ltac:(congruence) HT) as (E2 & HE2 & D2). rewrite Hpos in D2.
  exists D. split; [exact HD|]. cbv zeta. set (W := work _ _ u).
  assert (DF : is_derive (fun t => E1 t + E2 t) 0 (- W)) by (unfold W; rewrite work_add; apply (is_derive_plus E1 E2 0 _ _ D1 D2)).
  assert (Ew : forall t, w t = E2 t) by (intros t; pose proof (Hw t) as X; rewrite HE2 in X; injection X as <-; reflexivity).
  assert (E0 : m 0 = E1 0) by (exact (valence_unique _ _ _ _ _ _ _ _ _ _ _ He (VE 0))).
  destruct (touch (fun t => E1 t + E2 t) (fun t => m t + w t) (- W) DF) as (R1 & R2 & R3).
  - intros t. rewrite Ew. pose proof (Hm t c occ _ Hal (VE t)). lra.
  - cbv beta. rewrite E0, Ew. reflexivity.
  - split; [|split].
    + intros eps Hp. destruct (R1 eps Hp) as (d & Pd & Hd). exists d. split; [exact Pd|]. intros t Ht. specialize (Hd t Ht). cbv beta in Hd. lra.
    + exact R2.
    + intros HW. apply R3. lra.
Qed.

(** Two atoms with a projector each; one orbital, two electrons. *)
Definition ex_la : list atom := [ex_atom; moved ex_atom (V3 1 1 1)].
Definition ex_pas : list proj_atom := [ex_pa 1 vzero; ex_pa 2 (V3 1 1 1)].
Definition ex_two : tensor R := mkT [1; 1; 1]%nat (fun _ => 2).
Lemma ex_forces xt u : let A := M3 (V3 4 0 0) (V3 0 4 0) (V3 0 0 4) in let ns := [1; 1; 3]%nat in let pos := [V3 0 0 0; V3 1 1 1] in let T := [vzero; V3 4 0 0] in let ch := [1; 2] in
  exists G Va (V psi : R -> tensor C) (m w : R -> R), let allowed c' occ' := c' = ex_c /\ occ' = ex_two in
  m3det A <> 0 /\ g_vectors A ns = Ok G /\ (forall t pol, In t (split_on "+" xt) -> linear_lib t pol <> None) /\ (forall a, (a < length ex_la)%nat -> local_of ex_jn ex_spline [nth a ex_la no_atom] G 64 SbtMethod = Ok (Va a)) /\
  columns ex_eigh ex_pas /\ (exists psi, psi_of ex_jn ex_spline ex_Y ex_eigh ex_pas G [vzero] [] [[]; []] NlSbt = Ok psi) /\ (forall x, is_derive erfc x (- (2 / sqrt PI) * exp (- x ^ 2))) /\
  (forall i j t, (i < length pos)%nat -> (j < length pos)%nat -> In t T -> sqrt (Lin3.norm2 (vsub (vsub (nth j pos vzero) (nth i pos vzero)) t) + / 10 ^ 20) <> / 10 ^ 9) /\
  (forall t, local_of ex_jn ex_spline (loc_displaced ex_la u t) G 64 SbtMethod = Ok (V t) /\ psi_of ex_jn ex_spline ex_Y ex_eigh (proj_displaced ex_pas u t) G [vzero] [] [[]; []] NlSbt = Ok (psi t)) /\
  (forall t c' occ' e, allowed c' occ' -> valence_energy (xc_density linear_lib ex_vg0) G [vzero] 64 (V t) (psi t) xt c' occ' e -> m t <= e) /\
  (forall t, ewald_coulomb_repulsion erfc (displaced pos u t) ch G 64 1 T = Ok (w t)) /\
  tshape ex_c = [1; 1; 1]%nat ++ ns /\ valence_energy (xc_density linear_lib ex_vg0) G [vzero] 64 (V 0) (psi 0) xt ex_c ex_two (m 0).
Proof.
  intros A ns pos T ch. assert (HA : m3det A <> 0) by (unfold m3det, A; lin3; lra).
  destruct (proj2 (g_vectors_ok A 1 1 3)) as (G & HG); [repeat split; lia|]. destruct (g_vectors_dual A 1 1 3 G HA HG) as (SG & _).
  assert (HT : forall i j t, (i < length pos)%nat -> (j < length pos)%nat -> In t T -> sqrt (Lin3.norm2 (vsub (vsub (nth j pos vzero) (nth i pos vzero)) t) + / 10 ^ 20) <> / 10 ^ 9).
  { intros i j t Hi Hj Ht. apply far_from_guard. cbn in Hi, Hj. assert (Ci : i = 0%nat \/ i = 1%nat) by lia. assert (Cj : j = 0%nat \/ j = 1%nat) by lia.
    destruct Ci as [-> | ->], Cj as [-> | ->], Ht as [<-|[<-|[]]]; unfold Lin3.norm2, dot, vsub, vzero; cbn [nth vx vy vz pos]; first [left; lra|right; lra]. }
  assert (HL : forall t pol, In t (split_on "+" xt) -> linear_lib t pol <> None) by (intros; discriminate).
  assert (HV : forall a, (a < length ex_la)%nat -> exists W, local_of ex_jn ex_spline [nth a ex_la no_atom] G 64 SbtMethod = Ok W).
  { intros a Ha. apply (local_returns_iff ex_jn ex_spline SbtMethod A 1 1 3 G 64 _ HG). split; [discriminate|]. split; [discriminate|]. constructor; [|constructor]. cbn in Ha. destruct a as [|[|a]]; [reflexivity|reflexivity|lia]. }
  set (Va := fun a => match local_of ex_jn ex_spline [nth a ex_la no_atom] G 64 SbtMethod with Ok W => W | Err _ => mkT [] (fun _ => RtoC 0) end).
  assert (HVa : forall a, (a < length ex_la)%nat -> local_of ex_jn ex_spline [nth a ex_la no_atom] G 64 SbtMethod = Ok (Va a)) by (intros a Ha; unfold Va; destruct (HV a Ha) as (W & ->); reflexivity).
  assert (Hcol : columns ex_eigh ex_pas).
  { assert (X : forall d p, orthogonal_columns (length (p_l (ex_pa d p))) (snd (ex_eigh (p_D (ex_pa d p))))) by (intros d p; pose proof (ex_spectral d p) as X; inversion X as [|? ? Y0 _]; exact (proj1 (proj2 (proj2 Y0)))). repeat constructor; apply X. }
  assert (Hpsi : exists psi, psi_of ex_jn ex_spline ex_Y ex_eigh ex_pas G [vzero] [] [[]; []] NlSbt = Ok psi).
  { apply psi_of_returns. split; [reflexivity|]. split; [discriminate|]. split; [unfold ndim; rewrite SG; reflexivity|]. split; [discriminate|]. repeat constructor; rewrite SG; reflexivity. }
  destruct (valence_derive ex_jn ex_spline SbtMethod ex_Y ex_eigh NlSbt [] [[]; []] ex_la ex_pas Va linear_lib ex_vg0 xt A ex_c G [vzero] 64 ex_two 1 1 1 1 3 u HA HG (or_introl eq_refl) HL eq_refl eq_refl ltac:(discriminate) eq_refl HVa Hcol Hpsi) as (D & m & _ & Hm & _).
  destruct (nuclei_derive erfc _ A 1 1 3 G 64 1 T pos ch u erfc_derive HA HG ltac:(lra) ltac:(lra) eq_refl HT) as (w & Hw & _).
  set (V := fun t => match local_of ex_jn ex_spline (loc_displaced ex_la u t) G 64 SbtMethod with Ok W => W | Err _ => mkT [] (fun _ => RtoC 0) end).
  set (psi := fun t => match psi_of ex_jn ex_spline ex_Y ex_eigh (proj_displaced ex_pas u t) G [vzero] [] [[]; []] NlSbt with Ok W => W | Err _ => mkT [] (fun _ => RtoC 0) end).
  assert (Hm' : forall t, (local_of ex_jn ex_spline (loc_displaced ex_la u t) G 64 SbtMethod = Ok (V t) /\ psi_of ex_jn ex_spline ex_Y ex_eigh (proj_displaced ex_pas u t) G [vzero] [] [[]; []] NlSbt = Ok (psi t)) /\ valence_energy (xc_density linear_lib ex_vg0) G [vzero] 64 (V t) (psi t) xt ex_c ex_two (m t)).
  { intros t. destruct (Hm t) as (V0 & p0 & E1 & E2 & E3). unfold V, psi. rewrite E1, E2. split; [split; reflexivity|exact E3]. }
  exists G, Va, V, psi, m, w. cbv zeta. split; [exact HA|]. split; [exact HG|]. split; [exact HL|]. split; [exact HVa|]. split; [exact Hcol|]. split; [exact Hpsi|]. split; [exact erfc_derive|]. split; [exact HT|].
  split; [intros t; apply (proj1 (Hm' t))|]. split; [|split; [exact Hw|split; [reflexivity|exact (proj2 (Hm' 0))]]].
  intros t c' o' e (-> & ->) He. rewrite (valence_unique _ _ _ _ _ _ _ _ _ _ _ He (proj2 (Hm' t))). lra.
Qed.
