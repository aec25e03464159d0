(** Hessian and Hamiltonian matrices: properties C51, C52, C86-C88, C127. *)
From Coq Require Import Reals Lra Lia.
From Coquelicot Require Import Coquelicot.
From Coq Require Import Ascii String List Arith ZArith Bool.
From Verif Require Import Base Sums Tensor DFT GridModel PadModel Lin3 VecModel PwModel BraketModel XcModel XcSpec EnergyModel HamModel HamSpec.
From Verif Require Import VecProofs PwProofs HamProofs HamProofs2 HamProofs3 DerProofs.
Import ListNotations.
Local Open Scope R_scope.

(** C51: complex_hessian of x -> 1/2 x^H H x is H, at every point. *)
Theorem C51_hermitian_form : forall m (H : nat -> nat -> C) f, (forall i j, (i < m)%nat -> (j < m)%nat -> H j i = Cconj (H i j)) ->
  (forall y, f y = (RtoC (/ 2) * sesquilinear m H y)%C) ->
  forall x, ((0 < m)%nat -> tshape (complex_hessian m f x) = [m; m]) /\
    forall i j, (i < m)%nat -> (j < m)%nat -> tget (complex_hessian m f x) [i; j] = H i j.
Proof. exact hessian_hermitian. Qed.
Print Assumptions C51_hermitian_form.
(** The result is a square matrix except for an empty vector, whose result has one axis of length 0. *)
Theorem C51_shape : forall m f x, tshape (complex_hessian m f x) = match m with O => [0%nat] | S _ => [m; m] end.
Proof. intros m f x. destruct m; reflexivity. Qed.
Print Assumptions C51_shape.

(** Any function whose real part is quadratic: constant, linear and imaginary parts do not
    matter, a non-Hermitian form contributes its Hermitian part and a bilinear form its
    symmetric part. *)
Theorem C51_quadratic : forall m c b (H S : nat -> nat -> C) f, (forall y, Re (f y) = real_quadratic m c b H S y) ->
  forall x i k, (i < m)%nat -> (k < m)%nat -> tget (complex_hessian m f x) [i; k] = (herm H i k + symm S i k)%C.
Proof. exact hessian_quadratic. Qed.
Print Assumptions C51_quadratic.

Definition ex_H (i j : nat) : C := match i, j with O, O => RtoC 2 | 1%nat, 1%nat => RtoC (-3) | O, _ => Ci | _, _ => Cconj Ci end.
Example C51_example : (forall i j, (i < 2)%nat -> (j < 2)%nat -> ex_H j i = Cconj (ex_H i j)) /\ ex_H 0 1 = Ci /\
  tget (complex_hessian 2 (fun y => RtoC (/ 2) * sesquilinear 2 ex_H y)%C (fun _ => RtoC 5)) [0; 1]%nat = Ci.
Proof.
  assert (HH : forall i j, (i < 2)%nat -> (j < 2)%nat -> ex_H j i = Cconj (ex_H i j)).
  { intros i j Hi Hj. destruct i as [|[|i]]; [| |lia]; (destruct j as [|[|j]]; [| |lia]); cbn; try (rewrite Cconj_R; reflexivity); try reflexivity. rewrite Cconj_conj. reflexivity. }
  split; [exact HH|]. split; [reflexivity|]. apply (hessian_hermitian 2 ex_H _ HH (fun _ => eq_refl)); lia.
Qed.

(** The number of potential channels: one per spin for Kohn-Sham LDA, otherwise one. *)
Theorem C52_channels : forall lib vg xt dens pos ch G vol ks sp n1 n2 n3, let ns := [n1; n2; n3] in
  (sp = 1 \/ sp = 2)%nat -> contains "gga" xt = false -> (forall t b, In t (split_on "+" xt) -> lib t b <> None) ->
  tshape dens = sp :: ns -> tshape G = ns -> length ch = length pos ->
  exists v, effective_sum (xc_density lib vg) dens pos ch G vol xt ks = Ok v /\ tshape v = (if ks then sp else 1%nat) :: ns.
Proof. exact lda_channels. Qed.
Print Assumptions C52_channels.

(** C52: the value of the trace.  [hk] is the number of channels of the potential; the
    channel axis is read as the k-point axis. *)
Theorem C52_trace : forall xcd c pos ch dens G kpts vol xt ks sp B hk n1 n2 n3 v w keep, let ns := [n1; n2; n3] in let K := length kpts in
  tshape c = [sp; K; B] ++ ns -> tshape G = ns -> effective_sum xcd dens pos ch G vol xt ks = Ok v -> tshape v = hk :: ns -> wave_grid c vol = Ok w ->
  let block s k h := sumR (seq 0 B) (fun b => Re (h_element ns vol (fun x => Re (tget v (h :: x))) w c G (nth k kpts vzero) [s; k; b] [s; k; b])) in
  let per_spin s := if (K =? 1)%nat then sumR (seq 0 hk) (fun h => block s 0%nat h)
                    else sumR (seq 0 K) (fun k => block s k (if (hk =? 1)%nat then 0%nat else k)) in
  (K = 1 \/ hk = 1 \/ hk = K)%nat ->
  exists t, hamiltonian_matrix_trace xcd c pos ch dens G kpts vol xt ks keep = Ok t /\
    tshape t = (if keep then [sp] else []) /\
    (keep = true -> forall s, (s < sp)%nat -> tget t [s] = per_spin s) /\
    (keep = false -> tget t [] = sumR (seq 0 sp) per_spin).
Proof. intros. apply (trace_value xcd c pos ch dens G kpts vol xt ks sp B hk n1 n2 n3 v w); assumption. Qed.
Print Assumptions C52_trace.

Theorem C52_raises : forall xcd c pos ch dens G kpts vol xt ks sp B hk n1 n2 n3 v w keep, let ns := [n1; n2; n3] in let K := length kpts in
  tshape c = [sp; K; B] ++ ns -> tshape G = ns -> effective_sum xcd dens pos ch G vol xt ks = Ok v -> tshape v = hk :: ns -> wave_grid c vol = Ok w ->
  (K <> 1 /\ hk <> 1 /\ hk <> K)%nat ->
  hamiltonian_matrix_trace xcd c pos ch dens G kpts vol xt ks keep = Err ValueErr.
Proof. intros. apply (trace_raises xcd c pos ch dens G kpts vol xt ks sp B hk n1 n2 n3 v w); assumption. Qed.
Print Assumptions C52_raises.

(** A library, a density and orbitals with two spins and three k-points. *)
Definition ex_lib : xclib := fun _ _ => Some (fun l _ => - nth 0 l 0)%R.
Definition ex_vg : list string -> tensor R -> tensor R -> tensor v3 -> res (tensor C) := fun _ _ _ _ => Err ValueErr.
Definition ex_dens : tensor R := mkT [2; 1; 1; 2]%nat (fun i => INR (S (nth 0 i 0%nat))).
Definition ex_G : tensor v3 := mkT [1; 1; 2]%nat (fun i => V3 0 0 (INR (nth 2 i 0%nat))).
Definition ex_c (K : nat) : tensor C := mkT [2; K; 1; 1; 1; 2]%nat (fun i => RtoC (INR (nth 5 i 0%nat))).
Example C52_example :
  (exists v, effective_sum (xc_density ex_lib ex_vg) ex_dens [vzero] [1%R] ex_G 8 "lda_x" true = Ok v /\ tshape v = [2; 1; 1; 2]%nat) /\
  hamiltonian_matrix_trace (xc_density ex_lib ex_vg) (ex_c 3) [vzero] [1%R] ex_dens ex_G [vzero; vzero; vzero] 8 "lda_x" true true = Err ValueErr /\
  exists t, hamiltonian_matrix_trace (xc_density ex_lib ex_vg) (ex_c 3) [vzero] [1%R] ex_dens ex_G [vzero; vzero; vzero] 8 "lda_x" false true = Ok t /\ tshape t = [2%nat].
Proof.
  destruct (lda_channels ex_lib ex_vg "lda_x" ex_dens [vzero] [1%R] ex_G 8 true 2 1 1 2 (or_intror eq_refl) eq_refl ltac:(intros; discriminate) eq_refl eq_refl eq_refl) as (v & Ev & Sv).
  destruct (lda_channels ex_lib ex_vg "lda_x" ex_dens [vzero] [1%R] ex_G 8 false 2 1 1 2 (or_intror eq_refl) eq_refl ltac:(intros; discriminate) eq_refl eq_refl eq_refl) as (v' & Ev' & Sv').
  destruct (wave_grid_eq (ex_c 3) 8 [2; 3; 1]%nat [1; 1; 2]%nat eq_refl eq_refl) as (w & Ew & _).
  split; [exists v; split; assumption|]. split.
  - apply (trace_raises (xc_density ex_lib ex_vg) (ex_c 3) [vzero] [1%R] ex_dens ex_G [vzero; vzero; vzero] 8 "lda_x" true 2 1 2 1 1 2 v w eq_refl Ev Sv Ew true). repeat split; discriminate.
  - destruct (trace_value (xc_density ex_lib ex_vg) (ex_c 3) [vzero] [1%R] ex_dens ex_G [vzero; vzero; vzero] 8 "lda_x" false 2 1 1 1 1 2 v' w eq_refl eq_refl Ev' Sv' Ew true (or_intror (or_introl eq_refl))) as (t & Ht & St & _).
    exists t. split; assumption.
Qed.

(** C86: with one potential channel hamiltonian_matrix is <i| |G+k|^2/2 + V |j>, Hermitian. *)
Theorem C86_matrix : forall xcd c pos ch dens G kpts vol xt ks sp B n1 n2 n3 v w, let ns := [n1; n2; n3] in let K := length kpts in
  tshape c = [sp; K; B] ++ ns -> tshape G = ns -> effective_sum xcd dens pos ch G vol xt ks = Ok v -> tshape v = 1%nat :: ns -> wave_grid c vol = Ok w ->
  exists M, hamiltonian_matrix xcd c pos ch dens G kpts vol xt ks = Ok M /\ ((0 < B)%nat -> tshape M = [sp; K; B; B]) /\
    forall s k i j, (s < sp)%nat -> (k < K)%nat -> (i < B)%nat -> (j < B)%nat ->
      tget M [s; k; i; j] = h_element ns vol (fun x => Re (tget v (0%nat :: x))) w c G (nth k kpts vzero) [s; k; i] [s; k; j] /\
      tget M [s; k; j; i] = Cconj (tget M [s; k; i; j]).
Proof. exact one_channel. Qed.
Print Assumptions C86_matrix.

(** With two channels each spin gets the sum of both Hamiltonians. *)
Theorem C86_two_channels : forall xcd c pos ch dens G kpts vol xt ks sp B n1 n2 n3 v w, let ns := [n1; n2; n3] in let K := length kpts in
  tshape c = [sp; K; B] ++ ns -> tshape G = ns -> effective_sum xcd dens pos ch G vol xt ks = Ok v -> tshape v = 2%nat :: ns -> wave_grid c vol = Ok w ->
  exists M, hamiltonian_matrix xcd c pos ch dens G kpts vol xt ks = Ok M /\
    forall s k i j, (s < sp)%nat -> (k < K)%nat -> (i < B)%nat -> (j < B)%nat ->
      tget M [s; k; i; j] = (h_element ns vol (fun x => Re (tget v (0%nat :: x))) w c G (nth k kpts vzero) [s; k; i] [s; k; j]
                           + h_element ns vol (fun x => Re (tget v (1%nat :: x))) w c G (nth k kpts vzero) [s; k; i] [s; k; j])%C.
Proof. exact two_channels. Qed.
Print Assumptions C86_two_channels.

(** So the documented matrix <i|H_s|j> of a spin-polarised system is not returned: for every
    LDA functional, density, atoms and volume there are a k-point and a spin where it fails. *)
Theorem C86_spin_polarised_refuted : forall lib vg xt dens pos ch vol,
  contains "gga" xt = false -> (forall t b, In t (split_on "+" xt) -> lib t b <> None) -> tshape dens = [2; 1; 1; 1]%nat -> length ch = length pos ->
  let c := mkT [2; 1; 1; 1; 1; 1]%nat (fun _ => RtoC 1) in let G := mkT [1; 1; 1]%nat (fun _ => vzero) in
  exists kpts v w M s, effective_sum (xc_density lib vg) dens pos ch G vol xt true = Ok v /\ tshape v = [2; 1; 1; 1]%nat /\ wave_grid c vol = Ok w /\
    hamiltonian_matrix (xc_density lib vg) c pos ch dens G kpts vol xt true = Ok M /\ (s < 2)%nat /\ length kpts = 1%nat /\
    tget M [s; 0; 0; 0]%nat <> h_element [1; 1; 1]%nat vol (fun x => Re (tget v (s :: x))) w c G (nth 0 kpts vzero) [s; 0; 0]%nat [s; 0; 0]%nat.
Proof. exact polarised_wrong. Qed.
Print Assumptions C86_spin_polarised_refuted.

Example C86_example : exists v w, effective_sum (xc_density ex_lib ex_vg) ex_dens [vzero] [1%R] ex_G 8 "lda_x" false = Ok v /\ tshape v = [1; 1; 1; 2]%nat /\
  wave_grid (ex_c 3) 8 = Ok w /\ tshape (ex_c 3) = [2; 3; 1; 1; 1; 2]%nat.
Proof.
  destruct (lda_channels ex_lib ex_vg "lda_x" ex_dens [vzero] [1%R] ex_G 8 false 2 1 1 2 (or_intror eq_refl) eq_refl ltac:(intros; discriminate) eq_refl eq_refl eq_refl) as (v & Ev & Sv).
  destruct (wave_grid_eq (ex_c 3) 8 [2; 3; 1]%nat [1; 1; 2]%nat eq_refl eq_refl) as (w & Ew & _).
  exists v, w. repeat split; assumption.
Qed.

(** C87: the plane-wave matrix: entry (i,j) for the i-th and j-th positions p of the mask is
    delta_ij |G_i+k|^2/2 plus the Fourier component of the potential at p_i - p_j. *)
Theorem C87_basis : forall xcd mask pos ch dens G kpts vol xt ks n1 n2 n3 v, let ns := [n1; n2; n3] in
  let n := length (mask_positions mask) in let p i := nth i (mask_positions mask) [] in
  tshape mask = ns -> tshape G = ns -> effective_sum xcd dens pos ch G vol xt ks = Ok v -> tshape v = 1%nat :: ns -> 0 < vol ->
  exists M, hamiltonian_matrix_basis xcd mask pos ch dens G kpts vol xt ks = Ok M /\ ((0 < n)%nat -> tshape M = [length kpts; n; n]) /\
    forall k i j, (k < length kpts)%nat -> (i < n)%nat -> (j < n)%nat ->
      tget M [k; i; j] = ((if (i =? j)%nat then RtoC (let q := vadd (tget G (p i)) (nth k kpts vzero) in dot q q / 2) else RtoC 0)
        + RtoC (/ INR (nprod ns)) * sumC (indices ns) (fun x => RtoC (Re (tget v (0%nat :: x))) * cis (- (2 * PI * phase ns (zsub (zs (p i)) (zs (p j))) (zs x)))%R))%C.
Proof. exact basis_one. Qed.
Print Assumptions C87_basis.
Example C87_example : exists v, effective_sum (xc_density ex_lib ex_vg) ex_dens [vzero] [1%R] ex_G 8 "lda_x" false = Ok v /\ tshape v = [1; 1; 1; 2]%nat /\
  mask_positions (mkT [1; 1; 2]%nat (fun i => (nth 2 i 0 =? 1)%nat)) = [[0; 0; 1]%nat].
Proof.
  destruct (lda_channels ex_lib ex_vg "lda_x" ex_dens [vzero] [1%R] ex_G 8 false 2 1 1 2 (or_intror eq_refl) eq_refl ltac:(intros; discriminate) eq_refl eq_refl eq_refl) as (v & Ev & Sv).
  exists v. repeat split; assumption.
Qed.

(** C88: _hamiltonian_matrix always raises TypeError (it passes a keyword potential.effective
    does not have). *)
Theorem C88_direct_raises : forall xcd c pos ch dens G kpts vol xt ks, hamiltonian_matrix_direct xcd c pos ch dens G kpts vol xt ks = Err TypeErr.
Proof. exact direct_raises. Qed.
Print Assumptions C88_direct_raises.
Example C88_example : check_keywords effective_parameters ["split"; "xc_type"; "kohn_sham"]%string = Ok tt.
Proof. reflexivity. Qed.

(** C127: the total energy along c + t e, at fixed occupation numbers, has the derivative
    2 Re sum f_kb <e_kb|H|c_kb>, where H is the matrix that hamiltonian_matrix(kohn_sham=True)
    returns at the density of c. *)
Theorem C127_orbitals : forall lib vg xt A c e pos ch G kpts vol occ d B n1 n2 n3, let ns := [n1; n2; n3] in let K := length kpts in let ts := split_on "+" xt in
  contains "gga" xt = false -> (forall t b, In t ts -> lib t b <> None) ->
  m3det A <> 0 -> 0 < vol -> g_vectors A ns = Ok G -> length ch = length pos -> tshape c = [1%nat; K; B] ++ ns -> tshape occ = [1%nat; K; B] ->
  density_grid c vol (Some occ) = Ok d ->
  (forall x, inb x ns -> ex_derive (fun r : R => local_particle lib ts r) (tget d (0%nat :: x))) ->
  exists M (E : R -> R), hamiltonian_matrix (xc_density lib vg) (stack_bands B c e) pos ch d G kpts vol xt true = Ok M /\
    (forall t, total_energy (xc_density lib vg) (mkT (tshape c) (fun i => tget c i + RtoC t * tget e i)%C) pos ch G kpts vol (Some occ) false xt = Ok (E t)) /\
    is_derive E 0 (sumR (seq 0 K) (fun k => sumR (seq 0 B) (fun b => tget occ [0%nat; k; b] * (2 * Re (tget M [0%nat; k; (B + b)%nat; b]))))).
Proof. exact orbital_derivative. Qed.
Print Assumptions C127_orbitals.

(** Along a change o of the occupation numbers it is sum o_kb <c_kb|H|c_kb>. *)
Theorem C127_occupations : forall lib vg xt A c pos ch G kpts vol occ (o : tensor R) d B n1 n2 n3, let ns := [n1; n2; n3] in let K := length kpts in let ts := split_on "+" xt in
  contains "gga" xt = false -> (forall t b, In t ts -> lib t b <> None) ->
  m3det A <> 0 -> 0 < vol -> g_vectors A ns = Ok G -> length ch = length pos -> tshape c = [1%nat; K; B] ++ ns -> tshape occ = [1%nat; K; B] ->
  density_grid c vol (Some occ) = Ok d ->
  (forall x, inb x ns -> ex_derive (fun r : R => local_particle lib ts r) (tget d (0%nat :: x))) ->
  exists (M : tensor C) (E : R -> R), hamiltonian_matrix (xc_density lib vg) c pos ch d G kpts vol xt true = Ok M /\
    (forall t, total_energy (xc_density lib vg) c pos ch G kpts vol (Some (mkT (tshape occ) (fun i => tget occ i + t * tget o i))) false xt = Ok (E t)) /\
    is_derive E 0 (sumR (seq 0 K) (fun k => sumR (seq 0 B) (fun b => tget o [0%nat; k; b] * Re (tget M [0%nat; k; b; b])))).
Proof. exact occupation_derivative. Qed.
Print Assumptions C127_occupations.

(** Two bands at two k-points on a grid of three points. *)
Definition ex_cell127 : m3 := M3 (V3 2 0 0) (V3 0 2 0) (V3 0 0 2).
Definition ex_c127 : tensor C := mkT [1; 2; 2; 1; 1; 3]%nat (fun i => (INR (nth 2 i 0%nat), INR (nth 5 i 0%nat))%R).
Definition ex_occ127 : tensor R := mkT [1; 2; 2]%nat (fun _ => 1).
Example C127_example : exists G d, g_vectors ex_cell127 [1; 1; 3]%nat = Ok G /\ m3det ex_cell127 <> 0 /\
  density_grid ex_c127 8 (Some ex_occ127) = Ok d /\ tshape ex_c127 = [1; 2; 2]%nat ++ [1; 1; 3]%nat /\
  contains "gga" "lda_x+lda_c_pw" = false /\
  forall r : R, ex_derive (fun r : R => local_particle ex_lib (split_on "+" "lda_x+lda_c_pw") r) r.
Proof.
  assert (HA : m3det ex_cell127 <> 0) by (unfold ex_cell127, m3det; lin3; lra).
  destruct (proj2 (g_vectors_ok ex_cell127 1 1 3)) as (G & HG); [repeat split; lia|].
  destruct (density_eq ex_c127 8 ex_occ127 1 2 2 1 1 3 eq_refl eq_refl) as (d & Hd & _).
  exists G, d. split; [exact HG|]. split; [exact HA|]. split; [exact Hd|]. split; [reflexivity|]. split; [reflexivity|].
  intros r. unfold local_particle, ex_lib. cbn. auto_derive. exact I.
Qed.
