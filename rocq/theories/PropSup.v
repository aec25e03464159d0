(** One crystal described with a small and with a large cell: property C140. *)
From Coq Require Import Reals Lra Lia.
From Coquelicot Require Import Coquelicot.
From Coq Require Import Ascii String List Arith ZArith Bool.
From Verif Require Import Base Sums Tensor DFT GridModel PadModel Lin3 VecModel VecProofs PwModel BraketModel XcModel EnergyModel EnergySpec SupSpec SupProofs.
Import ListNotations.
Local Open Scope R_scope.

(** C140.  [M] small cells make a large one.  The same atoms, orbitals and occupations described with
    the large cell have [M] times each energy of the small cell. *)
Theorem C140_energies : forall lib vg xt A c c' pos ch G G' Q kpts occ occ' sp B p1 p2 p3 n1 n2 n3, let ms := [p1; p2; p3] in let ns := [n1; n2; n3] in let M := INR (nprod ms) in let A' := supercell ms A in
  m3det A <> 0 -> Forall (fun m => (0 < m)%nat) ms -> g_vectors A ns = Ok G -> g_vectors A' (times ms ns) = Ok G' ->
  (sp = 1 \/ sp = 2)%nat -> (forall t pol, In t (split_on "+" xt) -> lib t pol <> None) -> length ch = length pos ->
  unfolded ms A Q kpts -> same_orbitals ms ns sp (length Q) B c c' occ occ' ->
  (forall s l i b g, (s < sp)%nat -> (l < length Q)%nat -> (i < nprod ms)%nat -> (b < B)%nat -> inb g ns -> tget c ([s; (l * nprod ms + i)%nat; b] ++ g) <> RtoC 0 -> carried ms ns g (nth i (indices ms) [])) ->
  exists t e h x,
    total_energy_split (xc_density lib vg) c pos ch G kpts (volume A) (Some occ) false xt = Ok (t, e, h, x) /\
    total_energy_split (xc_density lib vg) c' (copies ms A pos) (charges ms ch) G' Q (volume A') (Some occ') false xt = Ok (M * t, M * e, M * h, M * x).
Proof. exact energies_super. Qed.
Print Assumptions C140_energies.

(** The large cell: its volume and reciprocal vectors. *)
Theorem C140_cell : forall p1 p2 p3 A, m3det A <> 0 -> (0 < p1 /\ 0 < p2 /\ 0 < p3)%nat ->
  volume (supercell [p1; p2; p3] A) = INR (nprod [p1; p2; p3]) * volume A /\
  let B := reciprocal_vectors A in reciprocal_vectors (supercell [p1; p2; p3] A) = M3 (vscale (/ INR p1) (m0 B)) (vscale (/ INR p2) (m1 B)) (vscale (/ INR p3) (m2 B)).
Proof. exact (fun p1 p2 p3 A HA Hp => conj (volume_super p1 p2 p3 A) (reciprocal_super p1 p2 p3 A HA Hp)). Qed.
Print Assumptions C140_cell.

(** Every choice of k-points and orbitals has a description with the large cell. *)
Theorem C140_described : forall ms ns A Q sp B c occ, length ms = length ns -> tshape c = [sp; (length Q * nprod ms)%nat; B] ++ ns -> tshape occ = [sp; (length Q * nprod ms)%nat; B] ->
  (exists kpts, unfolded ms A Q kpts) /\ exists c' occ', same_orbitals ms ns sp (length Q) B c c' occ occ'.
Proof. exact (fun ms ns A Q sp B c occ Hl Sc So => conj (unfolded_exists ms A Q) (orbitals_exist ms ns sp (length Q) B c occ Hl Sc So)). Qed.
Print Assumptions C140_described.

(** It has the same overlaps, orbitals of different small-cell points being orthogonal, and [M] times the
    electrons. *)
Theorem C140_overlaps : forall ms ns sp L B c c' occ occ' s l i i' b b', length ms = length ns -> same_orbitals ms ns sp L B c c' occ occ' ->
  (s < sp)%nat -> (l < L)%nat -> (i < nprod ms)%nat -> (i' < nprod ms)%nat -> (b < B)%nat -> (b' < B)%nat ->
  sumC (indices (times ms ns)) (fun y => Cconj (tget c' ([s; l; (i * B + b)%nat] ++ y)) * tget c' ([s; l; (i' * B + b')%nat] ++ y))%C =
  if (i =? i')%nat then sumC (indices ns) (fun g => Cconj (tget c ([s; (l * nprod ms + i)%nat; b] ++ g)) * tget c ([s; (l * nprod ms + i)%nat; b'] ++ g))%C else RtoC 0.
Proof. exact overlaps_super. Qed.
Print Assumptions C140_overlaps.
Theorem C140_electrons : forall ms ns sp L B c c' occ occ', same_orbitals ms ns sp L B c c' occ occ' ->
  sumR (indices (tshape occ')) (tget occ') = INR (nprod ms) * sumR (indices (tshape occ)) (tget occ).
Proof. exact electrons_super. Qed.
Print Assumptions C140_electrons.

(** With even grid sizes the large grid carries every wave of the small one.  With an odd size it does not. *)
Theorem C140_even_grids : forall ms ns g t, length ms = 3%nat -> length ns = 3%nat -> Forall (fun n => Nat.even n = true) ns -> inb g ns -> inb t ms -> carried ms ns g t.
Proof. exact carried_even. Qed.
Print Assumptions C140_even_grids.
Theorem C140_odd_grids_refuted : exists ms ns g t, length ms = 3%nat /\ length ns = 3%nat /\ inb g ns /\ inb t ms /\ ~ carried ms ns g t.
Proof. exact carried_odd. Qed.
Print Assumptions C140_odd_grids_refuted.

(** A cell doubled and tripled along two edges, two atoms, one k-point. *)
Example C140_example : let A := M3 (V3 2 0 0) (V3 1 2 0) (V3 0 0 2) in let ms := [2; 1; 3]%nat in let ns := [2; 4; 2]%nat in
  exists G G' kpts c c' occ occ', m3det A <> 0 /\ Forall (fun m => (0 < m)%nat) ms /\ g_vectors A ns = Ok G /\ g_vectors (supercell ms A) (times ms ns) = Ok G' /\
    unfolded ms A [V3 1 0 0] kpts /\ same_orbitals ms ns 2 1 2 c c' occ occ' /\ tget c ([0; 5; 1] ++ [1; 2; 0])%nat <> RtoC 0 /\
    (forall g t, inb g ns -> inb t ms -> carried ms ns g t) /\ length (copies ms A [V3 0 0 0; V3 1 1 1]) = 12%nat.
Proof.
  cbv zeta. assert (HA : m3det (M3 (V3 2 0 0) (V3 1 2 0) (V3 0 0 2)) <> 0) by (unfold m3det; lin3; lra).
  destruct (proj2 (g_vectors_ok (M3 (V3 2 0 0) (V3 1 2 0) (V3 0 0 2)) 2 4 2) ltac:(lia)) as (G & HG).
  destruct (proj2 (g_vectors_ok (supercell [2; 1; 3]%nat (M3 (V3 2 0 0) (V3 1 2 0) (V3 0 0 2))) 4 4 6) ltac:(lia)) as (G' & HG').
  destruct (unfolded_exists [2; 1; 3]%nat (M3 (V3 2 0 0) (V3 1 2 0) (V3 0 0 2)) [V3 1 0 0]) as (kpts & Hk).
  set (c := mkT ([2; 6; 2] ++ [2; 4; 2])%nat (fun i => RtoC (INR (1 + nth 3 i 0%nat)))). set (occ := mkT [2; 6; 2]%nat (fun i => INR (nth 1 i 0%nat))).
  destruct (orbitals_exist [2; 1; 3]%nat [2; 4; 2]%nat 2 1 2 c occ eq_refl eq_refl eq_refl) as (c' & occ' & Ho).
  exists G, G', kpts, c, c', occ, occ'. split; [exact HA|]. split; [repeat constructor; lia|]. split; [exact HG|]. split; [exact HG'|]. split; [exact Hk|]. split; [exact Ho|]. split; [|split; [|reflexivity]].
  - intros E. apply RtoC_inj in E. cbn in E. lra.
  - intros g t Hg Ht. apply carried_even; [reflexivity|reflexivity|repeat constructor|exact Hg|exact Ht].
Qed.
