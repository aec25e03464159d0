(** Symmetries of grids, energies and Hamiltonians: properties C128-C130. *)
From Coq Require Import Reals Lra Lia.
From Coquelicot Require Import Coquelicot.
From Coq Require Import Ascii String List Arith ZArith Bool Permutation.
From Verif Require Import Base Sums Tensor DFT GridModel PadModel Lin3 VecModel VecProofs PwModel PwSpec PwProofs BraketModel XcModel EnergyModel EnergySpec HamModel
  EwaldModel EwaldSpec RespProofs XcProofs SymSpec RotProofs SymProofs2.
Import ListNotations.
Local Open Scope R_scope.

(** C128.  [Q] is any rotation or reflection; a vector v becomes v Q. *)
Theorem C128_grids : forall A Q sizes cutoff, orthogonal Q -> m3det A <> 0 ->
  volume (m3mul A Q) = volume A /\
  g_vectors (m3mul A Q) sizes = rmap (tmap (fun g => vmul g Q)) (g_vectors A sizes) /\
  r_vectors (m3mul A Q) sizes = rmap (tmap (fun r => vmul r Q)) (r_vectors A sizes) /\
  k_vectors (m3mul A Q) sizes = rmap (map (fun k => vmul k Q)) (k_vectors A sizes) /\
  translation_vectors (m3mul A Q) cutoff = rmap (map (fun t => vmul t Q)) (translation_vectors A cutoff) /\
  spherical_mask (m3mul A Q) sizes cutoff = spherical_mask A sizes cutoff.
Proof. exact grids_turn. Qed.
Print Assumptions C128_grids.

Theorem C128_total_energy : forall lib vg A Q sizes G G' c pos ch kpts occ ks xt, orthogonal Q -> m3det A <> 0 ->
  g_vectors A sizes = Ok G -> g_vectors (m3mul A Q) sizes = Ok G' -> ks = false \/ contains "gga" xt = false ->
  total_energy_split (xc_density lib vg) c (map (fun r => vmul r Q) pos) ch G' (map (fun k => vmul k Q) kpts) (volume (m3mul A Q)) occ ks xt =
  total_energy_split (xc_density lib vg) c pos ch G kpts (volume A) occ ks xt.
Proof. exact total_cell_turn. Qed.
Print Assumptions C128_total_energy.

Theorem C128_hamiltonian : forall lib vg A Q sizes G G' c mask pos ch d kpts ks xt, orthogonal Q -> m3det A <> 0 ->
  g_vectors A sizes = Ok G -> g_vectors (m3mul A Q) sizes = Ok G' -> ks = false \/ contains "gga" xt = false ->
  hamiltonian_matrix (xc_density lib vg) c (map (fun r => vmul r Q) pos) ch d G' (map (fun k => vmul k Q) kpts) (volume (m3mul A Q)) xt ks =
  hamiltonian_matrix (xc_density lib vg) c pos ch d G kpts (volume A) xt ks /\
  hamiltonian_matrix_basis (xc_density lib vg) mask (map (fun r => vmul r Q) pos) ch d G' (map (fun k => vmul k Q) kpts) (volume (m3mul A Q)) xt ks =
  hamiltonian_matrix_basis (xc_density lib vg) mask pos ch d G kpts (volume A) xt ks.
Proof. exact matrices_cell_turn. Qed.
Print Assumptions C128_hamiltonian.

Theorem C128_nuclear_repulsion : forall erfc A Q sizes G G' pos q eta cutoff, orthogonal Q -> m3det A <> 0 ->
  g_vectors A sizes = Ok G -> g_vectors (m3mul A Q) sizes = Ok G' ->
  nuclear_repulsion erfc (map (fun r => vmul r Q) pos) q (m3mul A Q) G' (volume (m3mul A Q)) eta cutoff =
  nuclear_repulsion erfc pos q A G (volume A) eta cutoff.
Proof. exact nuclear_cell_turn. Qed.
Print Assumptions C128_nuclear_repulsion.

(** Every rotation about the third axis qualifies, and so does a mirror; the energies exist. *)
Example C128_example : (forall t, orthogonal (M3 (V3 (cos t) (sin t) 0) (V3 (- sin t) (cos t) 0) (V3 0 0 1))) /\ orthogonal (M3 (V3 1 0 0) (V3 0 (-1) 0) (V3 0 0 1)) /\
  let A := M3 (V3 2 0 0) (V3 1 2 0) (V3 0 0 2) in m3det A <> 0 /\ exists G, g_vectors A [1; 2; 3]%nat = Ok G.
Proof.
  split; [|split].
  - intros t. pose proof (sin2_cos2 t) as H. unfold Rsqr in H. unfold orthogonal. unfold m3mul, vmul, vadd, vscale, m3t, m3id. cbn [m0 m1 m2 vx vy vz].
    f_equal; f_equal; lra.
  - unfold orthogonal. lin3; ring.
  - split; [unfold m3det; lin3; lra|]. apply g_vectors_ok. repeat split; lia.
Qed.

(** C129.  Any of the k-points is replaced by its opposite and its orbitals by their complex
    conjugates. *)
Theorem C129_time_reversal : forall A n1 n2 n3, let ns := [n1; n2; n3] in forall (flip : nat -> bool) xcd c c' pos ch G kpts kpts' vol occ ks xt sp B, let K := length kpts in
  xc_local xcd ks xt -> g_vectors A ns = Ok G ->
  tshape c = [sp; K; B] ++ ns -> tshape c' = [sp; K; B] ++ ns -> tshape occ = [sp; K; B] -> length kpts' = K ->
  (forall k, (k < K)%nat -> nth k kpts' vzero = if flip k then vneg (nth k kpts vzero) else nth k kpts vzero) ->
  (forall s k b g, (s < sp)%nat -> (k < K)%nat -> (b < B)%nat -> inb g ns ->
    tget c' ([s; k; b] ++ g) = if flip k then Cconj (tget c ([s; k; b] ++ neg_index ns g)) else tget c ([s; k; b] ++ g)) ->
  (forall s k b g, (s < sp)%nat -> (k < K)%nat -> (b < B)%nat -> inb g ns -> flip k = true -> unpaired ns g -> tget c ([s; k; b] ++ g) = RtoC 0) ->
  total_energy_split xcd c' pos ch G kpts' vol (Some occ) ks xt = total_energy_split xcd c pos ch G kpts vol (Some occ) ks xt.
Proof. exact reversal. Qed.
Print Assumptions C129_time_reversal.
(** The condition on the coefficients holds on odd grids and for the cubic mask. *)
Theorem C129_paired : (forall ns g, Forall (fun n => Nat.odd n = true) ns -> ~ unpaired ns g) /\
  (forall n i, (1 <= n)%nat -> (n <> 2)%nat -> (i < n)%nat -> cubic_mask_axis (Z.of_nat n) (Z.of_nat i) = true -> (2 * i <> n)%nat).
Proof. exact (conj odd_paired cubic_paired). Qed.
Print Assumptions C129_paired.
(** Without it the kinetic energy changes. *)
Theorem C129_unpaired_refuted : exists A G c c' kpts t t', m3det A <> 0 /\ g_vectors A [2; 1; 1]%nat = Ok G /\ tshape c = [1; 1; 1; 2; 1; 1]%nat /\ tshape c' = [1; 1; 1; 2; 1; 1]%nat /\
  (forall g, inb g [2; 1; 1]%nat -> tget c' ([0; 0; 0]%nat ++ g) = Cconj (tget c ([0; 0; 0]%nat ++ neg_index [2; 1; 1]%nat g))) /\
  e_kinetic G kpts c (Some (mkT [1; 1; 1]%nat (fun _ => 1))) = Ok t /\ e_kinetic G (map vneg kpts) c' (Some (mkT [1; 1; 1]%nat (fun _ => 1))) = Ok t' /\ tget t [] <> tget t' [].
Proof. exact unpaired_changes. Qed.
Print Assumptions C129_unpaired_refuted.
Example C129_example : xc_local (xc_density (fun _ _ => Some (fun v _ => nth 0 v 0)) (fun _ _ _ _ => Err ValueErr)) false "gga_x_pbe" /\
  neg_index [3; 4; 5]%nat [1; 0; 2]%nat = [2; 0; 3]%nat /\ ~ unpaired [3; 5; 7]%nat [1; 2; 3]%nat /\ unpaired [4; 3; 3]%nat [2; 0; 0]%nat.
Proof.
  split; [apply xc_density_local; right; reflexivity|]. split; [reflexivity|]. split; [apply odd_paired; repeat constructor|]. exists 0%nat. cbn. lia.
Qed.

(** C130.  [sg] reorders the k-points, [tau s k] the bands of spin s at k-point k. *)
Theorem C130_order : forall xcd c c' pos ch G kpts kpts' vol occ occ' ks xt sp B n1 n2 n3 sg (tau : nat -> nat -> nat -> nat), let ns := [n1; n2; n3] in let K := length kpts in
  xc_local xcd ks xt -> tshape G = ns ->
  tshape c = [sp; K; B] ++ ns -> tshape c' = [sp; K; B] ++ ns -> tshape occ = [sp; K; B] -> tshape occ' = [sp; K; B] -> length kpts' = K ->
  Permutation (map sg (seq 0 K)) (seq 0 K) -> (forall s k, (s < sp)%nat -> (k < K)%nat -> Permutation (map (tau s k) (seq 0 B)) (seq 0 B)) ->
  (forall k, (k < K)%nat -> nth k kpts' vzero = nth (sg k) kpts vzero) ->
  (forall s k b, (s < sp)%nat -> (k < K)%nat -> (b < B)%nat -> tget occ' [s; k; b] = tget occ [s; sg k; tau s k b]) ->
  (forall s k b g, (s < sp)%nat -> (k < K)%nat -> (b < B)%nat -> inb g ns -> tget c' ([s; k; b] ++ g) = tget c ([s; sg k; tau s k b] ++ g)) ->
  total_energy_split xcd c' pos ch G kpts' vol (Some occ') ks xt = total_energy_split xcd c pos ch G kpts vol (Some occ) ks xt.
Proof. exact reorder. Qed.
Print Assumptions C130_order.
Example C130_example : Permutation (map (fun k => 2 - k)%nat (seq 0 3)) (seq 0 3) /\ Permutation (map (fun b => 1 - b)%nat (seq 0 2)) (seq 0 2).
Proof. split; cbn; [apply (Permutation_rev [2; 1; 0]%nat)|apply perm_swap]. Qed.
