(** Forces at an electronic temperature. *)
From Coq Require Import Reals Lra Lia.
From Coquelicot Require Import Coquelicot.
From Coq Require Import Ascii String List Arith ZArith Bool.
From Verif Require Import Base Sums Tensor DFT GridModel GridProofs PadModel PadProofs Lin3 VecModel VecProofs OccModel PwModel PwSpec PwProofs BraketModel XcModel XcSpec EwaldModel EnergyModel EnergySpec EnergyProofs ExtProofs TotalProofs PwGrad XcProofs XcProofs3 SpinProofs EwaldSpec EwaldProofs2
  LocModel LocSpec LocProofs LocProofs2 NlocModel NlocSpec NlocProofs NlocProofs2 NlocProofs4 NlocProofs6 NcAttSpec ForceSpec ForceProofs BoundSpec BoundProofs2 ReachSpec GeomSpec GeomProofs NcForceSpec NcForceProofs NcForceProofs2.
Import ListNotations.
Local Open Scope R_scope.

(** A function that touches another from below, plus a constant. *)
Lemma touch_forces (E1 E2 m w : R -> R) W s : is_derive (fun t => E1 t + E2 t) 0 (- W) -> (forall t, m t <= E1 t - s) -> m 0 = E1 0 - s -> (forall t, w t = E2 t) -> let E t := m t + w t in
  (forall eps, 0 < eps -> exists d, 0 < d /\ forall t, Rabs t < d -> E t <= E 0 - t * W + eps * Rabs t) /\
  (forall l, is_derive E 0 l -> l = - W) /\ (0 < W -> exists d, 0 < d /\ forall t, 0 < t < d -> E t < E 0).
Proof.
  intros DF Hm H0 Hw E.
  assert (DF' : is_derive (fun t => E1 t + E2 t + - s) 0 (- W)).
  { replace (- W) with (- W + 0) by ring. apply (is_derive_plus (fun t => E1 t + E2 t) (fun _ => - s) 0); [exact DF|apply (is_derive_const (V := R_NormedModule))]. }
  destruct (touch (fun t => E1 t + E2 t + - s) E (- W) DF') as (R1 & R2 & R3).
  - intros t. unfold E. rewrite Hw. specialize (Hm t). lra.
  - unfold E. rewrite Hw, H0. ring.
  - split; [|split; [exact R2|intros HW; apply R3; lra]]. intros eps Hp. destruct (R1 eps Hp) as (d & Pd & Hd). exists d. split; [exact Pd|]. intros t Ht. specialize (Hd t Ht). lra.
Qed.

Lemma warm_forces (lib : xclib) vg xt (f f' : R -> R) A pos ch G kpts vol eta T sp B n1 n2 n3 u tau eps (allowed : tensor C -> tensor R -> Prop) (m w : R -> R) c occ e0 h0 : let ns := [n1; n2; n3] in let K := length kpts in let xcd := xc_density lib vg in
  m3det A <> 0 -> g_vectors A ns = Ok G -> vol <> 0 -> (sp = 1 \/ sp = 2)%nat -> (forall t pol, In t (split_on "+" xt) -> lib t pol <> None) -> length ch = length pos ->
  (forall x, is_derive f x (f' x)) -> eta <> 0 ->
  (forall i j t, (i < length pos)%nat -> (j < length pos)%nat -> In t T -> sqrt (Lin3.norm2 (vsub (vsub (nth j pos vzero) (nth i pos vzero)) t) + / 10 ^ 20) <> / 10 ^ 9) ->
  (forall t c' occ' e h, allowed c' occ' -> total_energy xcd c' (displaced pos u t) ch G kpts vol (Some occ') false xt = Ok e -> fermi_dirac occ' eps = Ok h -> m t <= e - tau * h) ->
  (forall t, ewald_coulomb_repulsion f (displaced pos u t) ch G vol eta T = Ok (w t)) ->
  allowed c occ -> tshape c = [sp; K; B] ++ ns -> tshape occ = [sp; K; B] -> total_energy xcd c pos ch G kpts vol (Some occ) false xt = Ok e0 -> fermi_dirac occ eps = Ok h0 -> m 0 = e0 - tau * h0 ->
  exists D, density_grid_reciprocal c vol (Some occ) = Ok D /\
    let W := work (length pos) (fun a => vadd (electron_force ns G D pos ch a) (nuclear_force f f' eta T G vol pos ch a)) u in let E t := m t + w t in
    (forall eps, 0 < eps -> exists d, 0 < d /\ forall t, Rabs t < d -> E t <= E 0 - t * W + eps * Rabs t) /\
    (forall l, is_derive E 0 l -> l = - W) /\ (0 < W -> exists d, 0 < d /\ forall t, 0 < t < d -> E t < E 0).
Proof.
  intros ns K xcd HA HG Hv Hsp Hlib Hch Hf Heta HT Hm Hw Ha Sc So He Hh H0.
  destruct (electrons_force lib vg xt A c pos ch G kpts vol occ sp B n1 n2 n3 u HA HG Hv Hsp Hlib Hch Sc So) as (D & E1 & HD & HE1 & D1).
  destruct (nuclei_derive f f' A n1 n2 n3 G vol eta T pos ch u Hf HA HG Heta Hv Hch HT) as (E2 & HE2 & D2).
  exists D. split; [exact HD|]. apply (touch_forces E1 E2 m w _ (tau * h0)).
  - rewrite work_add. apply (is_derive_plus E1 E2 0 _ _ D1 D2).
  - intros t. exact (Hm t c occ _ _ Ha (HE1 t) Hh).
  - pose proof (HE1 0) as X. rewrite displaced_0 in X. unfold xcd in He. rewrite He in X. injection X as <-. exact H0.
  - intros t. pose proof (Hw t) as X. rewrite HE2 in X. injection X as <-. reflexivity.
Qed.

Lemma warm_valence_forces jn spline ml Y eigh mn rs betas la pa (Va : nat -> tensor C) (lib : xclib) vg xt (f f' : R -> R) A pos ch G kpts vol eta T sp B n1 n2 n3 u tau eps (allowed : tensor C -> tensor R -> Prop) (V psi : R -> tensor C) (m w : R -> R) c occ e0 h0 :
  let ns := [n1; n2; n3] in let K := length kpts in
  m3det A <> 0 -> g_vectors A ns = Ok G -> vol <> 0 -> (sp = 1 \/ sp = 2)%nat -> (forall t pol, In t (split_on "+" xt) -> lib t pol <> None) ->
  la <> [] -> length pa = length la -> length pos = length la -> length ch = length la -> (forall a, (a < length la)%nat -> local_of jn spline [nth a la no_atom] G vol ml = Ok (Va a)) -> columns eigh pa ->
  (exists p, psi_of jn spline Y eigh pa G kpts rs betas mn = Ok p) -> (forall x, is_derive f x (f' x)) -> eta <> 0 ->
  (forall i j t, (i < length pos)%nat -> (j < length pos)%nat -> In t T -> sqrt (Lin3.norm2 (vsub (vsub (nth j pos vzero) (nth i pos vzero)) t) + / 10 ^ 20) <> / 10 ^ 9) ->
  (forall t, local_of jn spline (loc_displaced la u t) G vol ml = Ok (V t) /\ psi_of jn spline Y eigh (proj_displaced pa u t) G kpts rs betas mn = Ok (psi t)) ->
  (forall t c' occ' e h, allowed c' occ' -> valence_energy (xc_density lib vg) G kpts vol (V t) (psi t) xt c' occ' e -> fermi_dirac occ' eps = Ok h -> m t <= e - tau * h) ->
  (forall t, ewald_coulomb_repulsion f (displaced pos u t) ch G vol eta T = Ok (w t)) ->
  allowed c occ -> tshape c = [sp; K; B] ++ ns -> tshape occ = [sp; K; B] -> valence_energy (xc_density lib vg) G kpts vol (V 0) (psi 0) xt c occ e0 -> fermi_dirac occ eps = Ok h0 -> m 0 = e0 - tau * h0 ->
  exists D, density_grid_reciprocal c vol (Some occ) = Ok D /\
    let W := work (length la) (fun a => vadd (vadd (local_force ns G D (Va a) vol) (nonlocal_force Y eigh G kpts c vol occ sp B (nth a pa no_proj))) (nuclear_force f f' eta T G vol pos ch a)) u in let E t := m t + w t in
    (forall eps, 0 < eps -> exists d, 0 < d /\ forall t, Rabs t < d -> E t <= E 0 - t * W + eps * Rabs t) /\
    (forall l, is_derive E 0 l -> l = - W) /\ (0 < W -> exists d, 0 < d /\ forall t, 0 < t < d -> E t < E 0).
Proof.
  intros ns K HA HG Hv Hs HL Hne Hlen Hpos Hch HVa Hcol Hpsi Hf Heta HT HVp Hm Hw Hal Sc So He Hh H0.
  destruct (valence_derive jn spline ml Y eigh mn rs betas la pa Va lib vg xt A c G kpts vol occ sp B n1 n2 n3 u HA HG Hs HL Sc So Hne Hlen HVa Hcol Hpsi) as (D & E1 & HD & HE1 & D1).
  assert (VE : forall t, valence_energy (xc_density lib vg) G kpts vol (V t) (psi t) xt c occ (E1 t)).
  { intros t. destruct (HE1 t) as (V' & p' & H1 & H2 & H3). destruct (HVp t) as (K1 & K2). rewrite K1 in H1. injection H1 as <-. rewrite K2 in H2. injection H2 as <-. exact H3. }
  destruct (nuclei_derive f f' A n1 n2 n3 G vol eta T pos ch u Hf HA HG Heta Hv ltac:(congruence) HT) as (E2 & HE2 & D2). rewrite Hpos in D2.
  exists D. split; [exact HD|]. apply (touch_forces E1 E2 m w _ (tau * h0)).
  - rewrite work_add. apply (is_derive_plus E1 E2 0 _ _ D1 D2).
  - intros t. exact (Hm t c occ _ _ Hal (VE t) Hh).
  - rewrite (valence_unique _ _ _ _ _ _ _ _ _ _ _ He (VE 0)) in H0. exact H0.
  - intros t. pose proof (Hw t) as X. rewrite HE2 in X. injection X as <-. reflexivity.
Qed.

(** Examples: the states of C147 and C157 at a temperature. *)
Lemma ex_warm xt c occ u tau eps : let A := M3 (V3 4 0 0) (V3 0 4 0) (V3 0 0 4) in let ns := [2; 3; 4]%nat in let pos := [V3 0 0 0; V3 1 1 1] in let T := [vzero; V3 4 0 0] in let ch := [1; 2] in
  tshape c = [1; 1; 1]%nat ++ ns -> tshape occ = [1; 1; 1]%nat -> orthonormal_bands [1; 1]%nat 1 ns c ->
  exists G (m w : R -> R) e0 h0, let allowed c' occ' := same_up_to_phase 1 1 1 ns c c' /\ occ' = occ in
  m3det A <> 0 /\ g_vectors A ns = Ok G /\ (forall t pol, In t (split_on "+" xt) -> linear_lib t pol <> None) /\ (forall x, is_derive erfc x (- (2 / sqrt PI) * exp (- x ^ 2))) /\
  (forall i j t, (i < length pos)%nat -> (j < length pos)%nat -> In t T -> sqrt (Lin3.norm2 (vsub (vsub (nth j pos vzero) (nth i pos vzero)) t) + / 10 ^ 20) <> / 10 ^ 9) /\
  (forall t c' occ' e h, allowed c' occ' -> total_energy (xc_density linear_lib ex_vg0) c' (displaced pos u t) ch G [vzero] 64 (Some occ') false xt = Ok e -> fermi_dirac occ' eps = Ok h -> m t <= e - tau * h) /\
  (forall t, ewald_coulomb_repulsion erfc (displaced pos u t) ch G 64 1 T = Ok (w t)) /\
  allowed c occ /\ total_energy (xc_density linear_lib ex_vg0) c pos ch G [vzero] 64 (Some occ) false xt = Ok e0 /\ fermi_dirac occ eps = Ok h0 /\ m 0 = e0 - tau * h0.
Proof.
  intros A ns pos T ch Sc So Ho. destruct (ex_geom xt c occ u Sc So Ho) as (G & m & w & H). cbv zeta in H. destruct H as (H1 & H2 & H3 & H4 & H5 & _ & H7 & H8 & H9 & H10).
  assert (Hh : exists h, fermi_dirac occ eps = Ok h) by (unfold fermi_dirac; rewrite So; eexists; reflexivity). destruct Hh as (h & Hh).
  exists G, (fun t => m t - tau * h), w, (m 0), h. cbv zeta. repeat (split; [assumption|]). split; [|repeat (split; [assumption|]); reflexivity].
  intros t c' o' e h' Ha He Hh'. destruct (proj1 (H7 t) c' o' Ha) as (e' & He' & Hl). cbv beta in He'. pose proof (eq_trans (eq_sym He') He) as X. injection X as ->. destruct Ha as (_ & ->). rewrite Hh in Hh'. injection Hh' as <-. lra.
Qed.
Lemma ex_warm_valence xt u tau eps : let A := M3 (V3 4 0 0) (V3 0 4 0) (V3 0 0 4) in let ns := [1; 1; 3]%nat in let pos := [V3 0 0 0; V3 1 1 1] in let T := [vzero; V3 4 0 0] in let ch := [1; 2] in
  exists G Va (V psi : R -> tensor C) (m w : R -> R) e0 h0, let allowed c' occ' := c' = ex_c /\ occ' = ex_two in
  m3det A <> 0 /\ g_vectors A ns = Ok G /\ (forall t pol, In t (split_on "+" xt) -> linear_lib t pol <> None) /\ (forall a, (a < length ex_la)%nat -> local_of ex_jn ex_spline [nth a ex_la no_atom] G 64 SbtMethod = Ok (Va a)) /\
  columns ex_eigh ex_pas /\ (exists psi, psi_of ex_jn ex_spline ex_Y ex_eigh ex_pas G [vzero] [] [[]; []] NlSbt = Ok psi) /\ (forall x, is_derive erfc x (- (2 / sqrt PI) * exp (- x ^ 2))) /\
  (forall i j t, (i < length pos)%nat -> (j < length pos)%nat -> In t T -> sqrt (Lin3.norm2 (vsub (vsub (nth j pos vzero) (nth i pos vzero)) t) + / 10 ^ 20) <> / 10 ^ 9) /\
  (forall t, local_of ex_jn ex_spline (loc_displaced ex_la u t) G 64 SbtMethod = Ok (V t) /\ psi_of ex_jn ex_spline ex_Y ex_eigh (proj_displaced ex_pas u t) G [vzero] [] [[]; []] NlSbt = Ok (psi t)) /\
  (forall t c' occ' e h, allowed c' occ' -> valence_energy (xc_density linear_lib ex_vg0) G [vzero] 64 (V t) (psi t) xt c' occ' e -> fermi_dirac occ' eps = Ok h -> m t <= e - tau * h) /\
  (forall t, ewald_coulomb_repulsion erfc (displaced pos u t) ch G 64 1 T = Ok (w t)) /\
  tshape ex_c = [1; 1; 1]%nat ++ ns /\ valence_energy (xc_density linear_lib ex_vg0) G [vzero] 64 (V 0) (psi 0) xt ex_c ex_two e0 /\ fermi_dirac ex_two eps = Ok h0 /\ m 0 = e0 - tau * h0.
Proof.
  intros A ns pos T ch. destruct (ex_forces xt u) as (G & Va & V & psi & m & w & H). cbv zeta in H. destruct H as (H1 & H2 & H3 & H4 & H5 & H6 & H7 & H8 & H9 & H10 & H11 & H12 & H13).
  destruct (fermi_dirac ex_two eps) as [h|] eqn:Hh; [|discriminate Hh].
  exists G, Va, V, psi, (fun t => m t - tau * h), w, (m 0), h. cbv zeta. repeat (split; [assumption|]). split; [|repeat (split; [assumption|]); split; reflexivity].
  intros t c' o' e h' Ha He Hh'. pose proof (H10 t c' o' e Ha He). destruct Ha as (_ & ->). rewrite Hh in Hh'. injection Hh' as <-. lra.
Qed.
