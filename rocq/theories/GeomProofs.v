(** The ground-state energy as a function of the positions of the atoms (C147). *)
From Coq Require Import Reals Lra Lia.
From Coquelicot Require Import Coquelicot.
From Coq Require Import Ascii String List Arith ZArith Bool.
From Verif Require Import Base Sums Tensor DFT GridModel GridProofs PadModel PadProofs Lin3 VecModel VecProofs OccModel OccSpec PwModel PwSpec PwProofs XcModel XcSpec XcProofs EwaldModel EwaldSpec EnergyModel EnergySpec EnergyProofs CalcProofs3
  ForceSpec ForceProofs BoundSpec BoundProofs BoundProofs2 ReachSpec ReachProofs GeomSpec.
Import ListNotations.
Local Open Scope R_scope.

Lemma displaced_0 pos u : displaced pos u 0 = pos.
Proof.
  unfold displaced. apply (nth_ext _ _ vzero vzero); [rewrite map_length, seq_length; reflexivity|]. intros a Ha. rewrite map_length, seq_length in Ha.
  rewrite (nth_indep _ vzero ((fun a => vadd (nth a pos vzero) (vscale 0 (u a))) 0%nat)) by (rewrite map_length, seq_length; exact Ha). rewrite (map_nth (fun a => vadd (nth a pos vzero) (vscale 0 (u a)))), seq_nth by exact Ha.
  rewrite !Nat.add_0_l. destruct (nth a pos vzero) as [x y z]. unfold vadd, vscale. cbn [Lin3.vx Lin3.vy Lin3.vz]. f_equal; ring.
Qed.
Lemma ground_unique al en m m' : ground al en m -> ground al en m' -> m = m'.
Proof.
  intros (L & A) (L' & A'). apply Rle_antisym; apply Rnot_lt_le; intros H.
  - destruct (A' (m - m') ltac:(lra)) as (c & occ & e & Ha & He & Hl). destruct (L c occ Ha) as (e' & He' & Hm). rewrite He in He'. injection He' as <-. lra.
  - destruct (A (m' - m) ltac:(lra)) as (c & occ & e & Ha & He & Hl). destruct (L' c occ Ha) as (e' & He' & Hm). rewrite He in He'. injection He' as <-. lra.
Qed.
(** A set of energies bounded below has a greatest lower bound. *)
Lemma ground_exists (al : tensor C -> tensor R -> Prop) (en : tensor C -> tensor R -> res R) b : (exists c occ, al c occ) -> (forall c occ, al c occ -> exists e, en c occ = Ok e /\ b <= e) -> exists m, ground al en m.
Proof.
  intros (c0 & o0 & H0) Hb. set (S := fun x => exists c occ e, al c occ /\ en c occ = Ok e /\ x = - e).
  destruct (completeness S) as (m & Um & Lm).
  - exists (- b). intros x (c & occ & e & Ha & He & ->). destruct (Hb c occ Ha) as (e' & He' & Hl). rewrite He in He'. injection He' as <-. lra.
  - destruct (Hb c0 o0 H0) as (e & He & _). exists (- e), c0, o0, e. split; [exact H0|]. split; [exact He|reflexivity].
  - exists (- m). split.
    + intros c occ Ha. destruct (Hb c occ Ha) as (e & He & _). exists e. split; [exact He|]. assert (- e <= m) by (apply Um; exists c, occ, e; split; [exact Ha|split; [exact He|reflexivity]]). lra.
    + intros d Hd. destruct (Classical_Prop.classic (exists c occ e, al c occ /\ en c occ = Ok e /\ e < - m + d)) as [H|H]; [exact H|]. exfalso.
      assert (m <= m - d); [|lra]. apply Lm. intros x (c & occ & e & Ha & He & ->). apply Rnot_lt_le. intros Hx. apply H. exists c, occ, e. split; [exact Ha|]. split; [exact He|lra].
Qed.
(** Touching from above. *)
Lemma touch (F g : R -> R) w : is_derive F 0 w -> (forall t, g t <= F t) -> g 0 = F 0 ->
  (forall eps, 0 < eps -> exists d, 0 < d /\ forall t, Rabs t < d -> g t <= g 0 + t * w + eps * Rabs t) /\ (forall l, is_derive g 0 l -> l = w) /\
  (w < 0 -> exists d, 0 < d /\ forall t, 0 < t < d -> g t < g 0).
Proof.
  intros HF Hle H0.
  assert (A : forall eps, 0 < eps -> exists d, 0 < d /\ forall t, Rabs t < d -> g t <= g 0 + t * w + eps * Rabs t).
  { intros eps He. apply is_derive_Reals in HF. destruct (HF eps He) as (d & Hd). exists d. split; [apply cond_pos|]. intros t Ht. destruct (Req_dec t 0) as [->|Hn]; [rewrite Rabs_R0; lra|].
    specialize (Hd t Hn Ht). rewrite Rplus_0_l in Hd. specialize (Hle t).
    assert (E : F t = F 0 + t * w + t * ((F t - F 0) / t - w)) by (field; exact Hn). assert (B : t * ((F t - F 0) / t - w) <= eps * Rabs t).
    { apply Rle_trans with (Rabs (t * ((F t - F 0) / t - w))); [apply Rle_abs|]. rewrite Rabs_mult, Rmult_comm. apply Rmult_le_compat_r; [apply Rabs_pos|lra]. }
    lra. }
  split; [exact A|]. split.
  - intros l Hl. set (h := fun t => F t - g t). assert (Hh : is_derive h 0 (w - l)) by (apply (is_derive_minus F g 0 w l HF Hl)). apply is_derive_Reals in Hh.
    destruct (Req_dec (w - l) 0) as [E|E]; [lra|]. exfalso. set (k := w - l) in *. assert (Hk : 0 < Rabs k) by (apply Rabs_pos_lt, E). destruct (Hh (Rabs k / 2) ltac:(lra)) as (d & Hd). pose proof (cond_pos d) as Pd.
    assert (P : forall t, 0 <= h t) by (intros t; unfold h; specialize (Hle t); lra). assert (Z : h 0 = 0) by (unfold h; lra).
    destruct (Rle_or_lt k 0) as [N|N].
    + specialize (Hd (d / 2) ltac:(lra) ltac:(rewrite Rabs_right; lra)). rewrite Rplus_0_l, Z, Rminus_0_r in Hd. rewrite (Rabs_left1 k N) in *. apply Rabs_def2 in Hd. assert (0 <= h (d / 2) / (d / 2)) by (apply Rmult_le_pos; [apply P|apply Rlt_le, Rinv_0_lt_compat; lra]). lra.
    + specialize (Hd (- (d / 2)) ltac:(lra) ltac:(rewrite Rabs_Ropp, Rabs_right; lra)). rewrite Rplus_0_l, Z, Rminus_0_r in Hd. rewrite (Rabs_right k) in * by lra. apply Rabs_def2 in Hd.
      assert (h (- (d / 2)) / - (d / 2) <= 0). { replace (h (- (d / 2)) / - (d / 2)) with (- (h (- (d / 2)) / (d / 2))) by (field; lra). assert (0 <= h (- (d / 2)) / (d / 2)) by (apply Rmult_le_pos; [apply P|apply Rlt_le, Rinv_0_lt_compat; lra]). lra. } lra.
  - intros Hw. destruct (A (- w / 2) ltac:(lra)) as (d & Pd & Hd). exists d. split; [exact Pd|]. intros t (T1 & T2). specialize (Hd t ltac:(rewrite Rabs_right; lra)). rewrite Rabs_right in Hd by lra. nra.
Qed.

Lemma hellmann_feynman lib vg xt (f f' : R -> R) A pos ch G kpts vol eta T sp B n1 n2 n3 u (allowed : tensor C -> tensor R -> Prop) (m w : R -> R) c occ : let ns := [n1; n2; n3] in let K := length kpts in let xcd := xc_density lib vg in
  m3det A <> 0 -> g_vectors A ns = Ok G -> vol <> 0 -> (sp = 1 \/ sp = 2)%nat -> (forall t pol, In t (split_on "+" xt) -> lib t pol <> None) -> length ch = length pos ->
  (forall x, is_derive f x (f' x)) -> eta <> 0 ->
  (forall i j t, (i < length pos)%nat -> (j < length pos)%nat -> In t T -> sqrt (Lin3.norm2 (vsub (vsub (nth j pos vzero) (nth i pos vzero)) t) + / 10 ^ 20) <> / 10 ^ 9) ->
  (forall c occ, allowed c occ -> tshape c = [sp; K; B] ++ ns /\ tshape occ = [sp; K; B]) ->
  (forall t, ground allowed (fun c occ => total_energy xcd c (displaced pos u t) ch G kpts vol (Some occ) false xt) (m t)) ->
  (forall t, ewald_coulomb_repulsion f (displaced pos u t) ch G vol eta T = Ok (w t)) ->
  allowed c occ -> total_energy xcd c pos ch G kpts vol (Some occ) false xt = Ok (m 0) ->
  exists D, density_grid_reciprocal c vol (Some occ) = Ok D /\
    let W := work (length pos) (fun a => vadd (electron_force ns G D pos ch a) (nuclear_force f f' eta T G vol pos ch a)) u in let E t := m t + w t in
    (forall eps, 0 < eps -> exists d, 0 < d /\ forall t, Rabs t < d -> E t <= E 0 - t * W + eps * Rabs t) /\
    (forall l, is_derive E 0 l -> l = - W) /\ (0 < W -> exists d, 0 < d /\ forall t, 0 < t < d -> E t < E 0).
Proof.
  intros ns K xcd HA HG Hv Hsp Hlib Hch Hf Heta HT Hal Hm Hw Ha He. destruct (Hal c occ Ha) as (Sc & So).
  destruct (electrons_force lib vg xt A c pos ch G kpts vol occ sp B n1 n2 n3 u HA HG Hv Hsp Hlib Hch Sc So) as (D & E1 & HD & HE1 & D1).
  destruct (nuclei_derive f f' A n1 n2 n3 G vol eta T pos ch u Hf HA HG Heta Hv Hch HT) as (E2 & HE2 & D2).
  exists D. split; [exact HD|]. cbv zeta. set (W := work _ _ u).
  assert (EW : - W = - work (length pos) (electron_force ns G D pos ch) u + - work (length pos) (nuclear_force f f' eta T G vol pos ch) u).
  { unfold W, work. rewrite (sumR_ext _ _ (fun a => dot (electron_force ns G D pos ch a) (u a) + dot (nuclear_force f f' eta T G vol pos ch a) (u a))); [rewrite sumR_plus; ring|]. intros a _. unfold dot, vadd. cbn [Lin3.vx Lin3.vy Lin3.vz]. ring. }
  assert (DF : is_derive (fun t => E1 t + E2 t) 0 (- W)) by (rewrite EW; apply (is_derive_plus E1 E2 0 _ _ D1 D2)).
  assert (Ew : forall t, w t = E2 t) by (intros t; pose proof (Hw t) as X; rewrite HE2 in X; injection X as <-; reflexivity).
  assert (E0 : m 0 = E1 0) by (pose proof (HE1 0) as X; rewrite displaced_0 in X; unfold xcd in He; rewrite He in X; injection X as <-; reflexivity).
  destruct (touch (fun t => E1 t + E2 t) (fun t => m t + w t) (- W) DF) as (R1 & R2 & R3).
  - intros t. rewrite Ew. destruct (proj1 (Hm t) c occ Ha) as (e & He' & Hl). cbv beta in He'. unfold xcd in He'. rewrite (HE1 t) in He'. injection He' as <-. lra.
  - cbv beta. rewrite E0, Ew. reflexivity.
  - split; [|split].
    + intros eps Hp. destruct (R1 eps Hp) as (d & Pd & Hd). exists d. split; [exact Pd|]. intros t Ht. specialize (Hd t Ht). cbv beta in Hd. lra.
    + exact R2.
    + intros HW. apply R3. lra.
Qed.

(** The greatest lower bound exists: C143's bound holds for all states. *)
Lemma ground_of_states lib vg xt A pos ch G kpts vol sp B n1 n2 n3 mask N fl (allowed : tensor C -> tensor R -> Prop) : let ns := [n1; n2; n3] in let K := length kpts in
  m3det A <> 0 -> g_vectors A ns = Ok G -> 0 < vol -> (sp = 1 \/ sp = 2)%nat -> length ch = length pos -> tshape mask = ns ->
  (forall t, In t (split_on "+" xt) -> per_electron_floor lib t (2 * (N * INR (nprod ns) / vol)) fl) ->
  (forall c occ, allowed c occ -> electron_state sp K B mask N c occ) -> (exists c occ, allowed c occ) ->
  exists m, ground allowed (fun c occ => total_energy (xc_density lib vg) c pos ch G kpts vol (Some occ) false xt) m /\
    (forall m', ground allowed (fun c occ => total_energy (xc_density lib vg) c pos ch G kpts vol (Some occ) false xt) m' -> m' = m).
Proof.
  intros ns K HA HG Hv Hsp Hch Sm Hfl Hal Hne.
  destruct (ground_exists allowed (fun c occ => total_energy (xc_density lib vg) c pos ch G kpts vol (Some occ) false xt) (- N * (attraction_limit ns G ch vol + INR (length (split_on "+" xt)) * fl)) Hne) as (m & Hm).
  - intros c occ Ha. destruct (Hal c occ Ha) as ((Sc & Oc & _) & So & Po & EN). rewrite Sm in Sc, Oc. rewrite <- EN in *.
    apply (bounded_below lib vg xt A c pos ch G kpts vol occ sp B n1 n2 n3 fl); assumption.
  - exists m. split; [exact Hm|]. intros m' Hm'. symmetry. apply (ground_unique _ _ _ _ Hm Hm').
Qed.

Definition ex_vg0 : list string -> tensor R -> tensor R -> tensor v3 -> res (tensor C) := fun _ _ _ _ => Err ValueErr.
(** Two atoms, one band at one k-point: all orbitals that differ from a given one by a phase. *)
Lemma ex_geom xt c occ u : let A := M3 (V3 4 0 0) (V3 0 4 0) (V3 0 0 4) in let ns := [2; 3; 4]%nat in let pos := [V3 0 0 0; V3 1 1 1] in let T := [vzero; V3 4 0 0] in let ch := [1; 2] in
  tshape c = [1; 1; 1]%nat ++ ns -> tshape occ = [1; 1; 1]%nat -> orthonormal_bands [1; 1]%nat 1 ns c ->
  exists G (m w : R -> R), let allowed c' occ' := same_up_to_phase 1 1 1 ns c c' /\ occ' = occ in
  m3det A <> 0 /\ g_vectors A ns = Ok G /\ (forall t pol, In t (split_on "+" xt) -> linear_lib t pol <> None) /\ (forall x, is_derive erfc x (- (2 / sqrt PI) * exp (- x ^ 2))) /\
  (forall i j t, (i < length pos)%nat -> (j < length pos)%nat -> In t T -> sqrt (Lin3.norm2 (vsub (vsub (nth j pos vzero) (nth i pos vzero)) t) + / 10 ^ 20) <> / 10 ^ 9) /\
  (forall c' occ', allowed c' occ' -> tshape c' = [1; 1; 1]%nat ++ ns /\ tshape occ' = [1; 1; 1]%nat) /\
  (forall t, ground allowed (fun c occ => total_energy (xc_density linear_lib ex_vg0) c (displaced pos u t) ch G [vzero] 64 (Some occ) false xt) (m t)) /\
  (forall t, ewald_coulomb_repulsion erfc (displaced pos u t) ch G 64 1 T = Ok (w t)) /\
  allowed c occ /\ total_energy (xc_density linear_lib ex_vg0) c pos ch G [vzero] 64 (Some occ) false xt = Ok (m 0).
Proof.
  intros A ns pos T ch Sc So Oc. assert (HA : m3det A <> 0) by (unfold m3det, A; lin3; lra).
  destruct (proj2 (g_vectors_ok A 2 3 4)) as (G & HG); [repeat split; lia|]. assert (SG : tshape G = ns) by (apply (vector_grid_shape _ _ _ _ HG)).
  assert (HT : forall i j t, (i < length pos)%nat -> (j < length pos)%nat -> In t T -> sqrt (Lin3.norm2 (vsub (vsub (nth j pos vzero) (nth i pos vzero)) t) + / 10 ^ 20) <> / 10 ^ 9).
  { intros i j t Hi Hj Ht. apply far_from_guard. cbn in Hi, Hj. assert (Ci : i = 0%nat \/ i = 1%nat) by lia. assert (Cj : j = 0%nat \/ j = 1%nat) by lia.
    destruct Ci as [-> | ->], Cj as [-> | ->], Ht as [<-|[<-|[]]]; unfold Lin3.norm2, dot, vsub, vzero; cbn [nth vx vy vz pos]; first [left; lra|right; lra]. }
  assert (Hl : forall t pol, In t (split_on "+" xt) -> linear_lib t pol <> None) by (intros; discriminate).
  destruct (electrons_force linear_lib ex_vg0 xt A c pos ch G [vzero] 64 occ 1 1 2 3 4 u HA HG ltac:(lra) (or_introl eq_refl) Hl eq_refl Sc So) as (D & m & HD & Hm & _).
  destruct (nuclei_derive erfc _ A 2 3 4 G 64 1 T pos ch u erfc_derive HA HG ltac:(lra) ltac:(lra) eq_refl HT) as (w & Hw & _).
  assert (Hself : same_up_to_phase 1 1 1 ns c c).
  { split; [reflexivity|]. intros s k b _ _ _. exists (RtoC 1). split; [rewrite Cmod_R, Rabs_R1; reflexivity|]. intros g _. ring. }
  exists G, m, w. cbv zeta. split; [exact HA|]. split; [exact HG|]. split; [exact Hl|]. split; [exact erfc_derive|]. split; [exact HT|]. split; [|split; [|split; [exact Hw|]]].
  - intros c' o' ((Sc' & _) & ->). split; [rewrite Sc'; exact Sc|exact So].
  - intros t. assert (Same : forall c', same_up_to_phase 1 1 1 ns c c' -> total_energy (xc_density linear_lib ex_vg0) c' (displaced pos u t) ch G [vzero] 64 (Some occ) false xt = Ok (m t)).
    { intros c' Hc'. specialize (Hm t). unfold total_energy in *. rewrite (phase_energy (xc_density linear_lib ex_vg0) c c' (displaced pos u t) ch G [vzero] 64 occ false xt 1 1 2 3 4 (xc_density_local _ _ _ _ (or_intror eq_refl)) SG Sc So Oc Hc'). exact Hm. }
    split.
    + intros c' o' (Hc' & ->). exists (m t). split; [apply Same, Hc'|lra].
    + intros d Hd. exists c, occ, (m t). split; [split; [exact Hself|reflexivity]|]. split; [apply Same, Hself|lra].
  - split; [split; [exact Hself|reflexivity]|]. specialize (Hm 0). rewrite displaced_0 in Hm. exact Hm.
Qed.
