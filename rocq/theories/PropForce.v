(** Forces on the atoms: property C141. *)
From Coq Require Import Reals Lra Lia.
From Coquelicot Require Import Coquelicot.
From Coq Require Import Ascii String List Arith ZArith Bool.
From Verif Require Import Base Sums Tensor DFT GridModel PadModel Lin3 VecModel VecProofs PwModel BraketModel XcModel EwaldModel EnergyModel EnergySpec EwaldSpec ForceSpec ForceProofs.
Import ListNotations.
Local Open Scope R_scope.

(** C141.  With coefficients and occupations held fixed, the total energy is differentiable in the
    positions of the atoms, and its derivative is minus the work of the electron forces. *)
Theorem C141_electrons : forall lib vg xt A c pos ch G kpts vol occ sp B n1 n2 n3 u, let ns := [n1; n2; n3] in let K := length kpts in
  m3det A <> 0 -> g_vectors A ns = Ok G -> vol <> 0 -> (sp = 1 \/ sp = 2)%nat -> (forall t pol, In t (split_on "+" xt) -> lib t pol <> None) ->
  length ch = length pos -> tshape c = [sp; K; B] ++ ns -> tshape occ = [sp; K; B] ->
  exists D E, density_grid_reciprocal c vol (Some occ) = Ok D /\ (forall t, total_energy (xc_density lib vg) c (displaced pos u t) ch G kpts vol (Some occ) false xt = Ok (E t)) /\
    is_derive E 0 (- work (length pos) (electron_force ns G D pos ch) u).
Proof. exact electrons_force. Qed.
Print Assumptions C141_electrons.

(** The same of the repulsion of the nuclei, unless two of them (or an image) are at the distance
    where the code cuts the interaction off. *)
Theorem C141_nuclei : forall f f' A n1 n2 n3 G vol eta T pos q u, (forall x, is_derive f x (f' x)) ->
  m3det A <> 0 -> g_vectors A [n1; n2; n3] = Ok G -> eta <> 0 -> vol <> 0 -> length q = length pos ->
  (forall i j t, (i < length pos)%nat -> (j < length pos)%nat -> In t T -> sqrt (norm2 (vsub (vsub (nth j pos vzero) (nth i pos vzero)) t) + / 10 ^ 20) <> / 10 ^ 9) ->
  exists E : R -> R, (forall t, ewald_coulomb_repulsion f (displaced pos u t) q G vol eta T = Ok (E t)) /\ is_derive E 0 (- work (length pos) (nuclear_force f f' eta T G vol pos q) u).
Proof. exact nuclei_derive. Qed.
Print Assumptions C141_nuclei.

(** The nuclei exert no net force on themselves. *)
Theorem C141_third_law : forall f f' eta T G vol pos q, vsum (seq 0 (length pos)) (nuclear_force f f' eta T G vol pos q) = vzero.
Proof. exact third_law. Qed.
Print Assumptions C141_third_law.

(** The complementary error function has a derivative everywhere. *)
Theorem C141_erfc : forall x, is_derive erfc x (- (2 / sqrt PI) * exp (- x ^ 2)).
Proof. exact erfc_derive. Qed.
Print Assumptions C141_erfc.

(** Two atoms a distance sqrt 3 apart and one image cell. *)
Example C141_example : let A := M3 (V3 4 0 0) (V3 0 4 0) (V3 0 0 4) in let pos := [V3 0 0 0; V3 1 1 1] in let T := [vzero; V3 4 0 0] in
  m3det A <> 0 /\ (exists G, g_vectors A [2; 3; 4]%nat = Ok G) /\
  (forall i j t, (i < length pos)%nat -> (j < length pos)%nat -> In t T -> sqrt (norm2 (vsub (vsub (nth j pos vzero) (nth i pos vzero)) t) + / 10 ^ 20) <> / 10 ^ 9) /\
  displaced pos (fun a => V3 0 0 (INR a)) 1 = [V3 0 0 0; V3 1 1 2].
Proof.
  cbv zeta. split; [unfold m3det; lin3; lra|]. split; [apply g_vectors_ok; repeat split; lia|]. split.
  - intros i j t Hi Hj Ht. apply far_from_guard. cbn in Hi, Hj. assert (Ci : i = 0%nat \/ i = 1%nat) by lia. assert (Cj : j = 0%nat \/ j = 1%nat) by lia.
    destruct Ci as [-> | ->], Cj as [-> | ->], Ht as [<-|[<-|[]]]; unfold norm2, dot, vsub, vzero; cbn [nth vx vy vz]; first [left; lra|right; lra].
  - unfold displaced. cbn [length seq map nth]. unfold vadd, vscale. cbn [vx vy vz INR]. f_equal; [f_equal; ring|]. f_equal. f_equal; ring.
Qed.
