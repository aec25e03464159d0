(** The nonlocal pseudopotential and the norm-conserving Hamiltonian: properties C67, C105-C109. *)
From Coq Require Import Reals Lra Lia Permutation.
From Coq Require String.
From Coquelicot Require Import Complex.
From Coq Require Import List Arith ZArith.
From Verif Require Import Base Sums Tensor DFT Lin3 VecModel VecProofs PwModel PwSpec PropVec BraketModel EnergyModel EnergySpec EnergyProofs HamSpec SbtModel LocModel LocSpec NlocModel NlocSpec NlocProofs NlocProofs2 NlocProofs3 NlocProofs4 NlocProofs5 NlocProofs6 NlocProofs7.
From Verif Require SphSpec ShProofs LocProofs2.
Import ListNotations.
Local Open Scope C_scope.

Example ex_grid : exists G, g_vectors ex_cell [1; 1; 3]%nat = Ok G /\ tshape G = [1; 1; 3]%nat.
Proof. destruct (proj2 (g_vectors_ok ex_cell 1 1 3)) as [G HG]; [lia|]. exists G. split; [exact HG|]. exact (proj1 (g_vectors_dual ex_cell 1 1 3 G ex_cell_invertible HG)). Qed.

(** C67 *)
Theorem C67_returns : forall jn spline Y eigh atoms G kpts rs betas m c vol, (exists H, nonlocal_of jn spline Y eigh atoms G kpts rs betas m c vol = Ok H) <->
  length betas = length atoms /\ m <> NlOther /\ concat (map p_l atoms) <> [] /\ Forall (fits G kpts) atoms /\
  ndim G = 3%nat /\ exists sp B, tshape c = [sp; length kpts; B] ++ tshape G.
Proof. exact nonlocal_returns. Qed.
Print Assumptions C67_returns.

Theorem C67_value : forall jn spline Y eigh atoms G kpts rs betas m c vol H, columns eigh atoms -> nonlocal_of jn spline Y eigh atoms G kpts rs betas m c vol = Ok H ->
  exists sp B, tshape c = [sp; length kpts; B] ++ tshape G /\ tshape H = [sp; length kpts; B; B] /\
    forall s k b1 b2, tget H [s; k; b1; b2] = formula Y eigh atoms G kpts c vol s k b1 b2.
Proof. exact nonlocal_formula. Qed.
Print Assumptions C67_value.

(** The strengths are read by rows: the entry (i, j) is the j-th number of the i-th row. *)
Theorem C67_matrix_rows : forall (D : list (list R)) i j row x, nth_error D i = Some row -> nth_error row j = Some x -> mat D i j = x.
Proof. exact matrix_entry. Qed.
Print Assumptions C67_matrix_rows.
Example C67_matrix_rows_example : mat [[1; 2]; [3; 4]]%R 0 1 = 2%R.
Proof. apply (C67_matrix_rows _ 0 1 [1; 2]%R); reflexivity. Qed.

Theorem C67_hermitian : forall c psi vol H, hamiltonian_nonlocal c psi vol = Ok H -> forall s k b1 b2, tget H [s; k; b1; b2] = Cconj (tget H [s; k; b2; b1]).
Proof. exact ham_hermitian. Qed.
Print Assumptions C67_hermitian.

Theorem C67_positive_semidefinite : forall c psi vol H, (0 < vol)%R -> hamiltonian_nonlocal c psi vol = Ok H -> forall s k n (x : nat -> C),
  let q := sumC (seq 0 n) (fun b1 => sumC (seq 0 n) (fun b2 => Cconj (x b1) * tget H [s; k; b1; b2] * x b2)) in Im q = 0%R /\ (0 <= Re q)%R.
Proof. exact ham_psd. Qed.
Print Assumptions C67_positive_semidefinite.

Theorem C67_diagonal_agrees : forall jn spline Y eigh atoms G kpts rs betas m c vol H, spectral_atoms eigh atoms -> Forall (fun a => ascending_diagonal (length (p_l a)) (p_D a)) atoms ->
  nonlocal_of jn spline Y eigh atoms G kpts rs betas m c vol = Ok H -> forall s k b1 b2, tget H [s; k; b1; b2] = textbook (-1) Y atoms G kpts c vol s k b1 b2.
Proof. exact diagonal_agrees. Qed.
Print Assumptions C67_diagonal_agrees.

Theorem C67_negative_channel : forall jn spline Y eigh p l d b G kpts rs betas m c vol H, vol <> 0%R -> let a := mkProj p [l] [[d]] b in spectral_atoms eigh [a] -> nonlocal_of jn spline Y eigh [a] G kpts rs betas m c vol = Ok H ->
  forall s k b1 b2, tget H [s; k; b1; b2] = textbook (-1) Y [a] G kpts c vol s k b1 b2 <-> (0 <= d)%R \/ overlap (-1) Y G kpts a c s k b1 b2 0 0 = RtoC 0.
Proof. exact negative_channel. Qed.
Print Assumptions C67_negative_channel.

Theorem C67_descending_order : forall jn spline Y eigh p l0 l1 d0 d1 b G kpts rs betas m c vol H, vol <> 0%R -> (0 <= d1 < d0)%R -> let a := mkProj p [l0; l1] [[d0; 0%R]; [0%R; d1]] b in spectral_atoms eigh [a] ->
  nonlocal_of jn spline Y eigh [a] G kpts rs betas m c vol = Ok H ->
  forall s k b1 b2, tget H [s; k; b1; b2] = textbook (-1) Y [a] G kpts c vol s k b1 b2 <-> overlap (-1) Y G kpts a c s k b1 b2 0 0 = overlap (-1) Y G kpts a c s k b1 b2 1 1.
Proof. exact descending_order. Qed.
Print Assumptions C67_descending_order.

Theorem C67_coupled_channels : forall jn spline Y eigh p l0 l1 d b G kpts rs betas m c vol H, vol <> 0%R -> (0 < d)%R -> let a := mkProj p [l0; l1] [[0%R; d]; [d; 0%R]] b in spectral_atoms eigh [a] ->
  nonlocal_of jn spline Y eigh [a] G kpts rs betas m c vol = Ok H ->
  forall s k b1 b2, let o := overlap (-1) Y G kpts a c s k b1 b2 in tget H [s; k; b1; b2] = textbook (-1) Y [a] G kpts c vol s k b1 b2 <-> o 0%nat 0%nat + o 1%nat 1%nat = o 0%nat 1%nat + o 1%nat 0%nat.
Proof. exact coupled_channels. Qed.
Print Assumptions C67_coupled_channels.

Theorem C67_textbook_refuted : forall G vol, tshape G = [1; 1; 3]%nat -> vol <> 0%R ->
  exists H, spectral_atoms ex_eigh [ex_pa (-1) vzero] /\ ex_call ex_eigh [ex_pa (-1) vzero] G ex_c vol = Ok H /\ tshape H = [1; 1; 1; 1]%nat /\
    tget H [0; 0; 0; 0]%nat <> textbook (-1) ex_Y [ex_pa (-1) vzero] G [vzero] ex_c vol 0 0 0 0.
Proof. exact textbook_refuted. Qed.
Print Assumptions C67_textbook_refuted.
Example C67_example : exists G, g_vectors ex_cell [1; 1; 3]%nat = Ok G /\ tshape G = [1; 1; 3]%nat.
Proof. exact ex_grid. Qed.
Example C67_example_two : forall p vol, spectral_atoms id_eigh [ex_p p] /\ ascending_diagonal 2 (p_D (ex_p p)) /\
  exists H, nonlocal_of ex_jn ex_spline Y01 id_eigh [ex_p p] one_G [V3 1 0 0] [] [[]] NlSbt (mkT [1; 1; 1; 1; 1; 1]%nat (fun _ => RtoC 1)) vol = Ok H.
Proof. intros p vol. split; [apply ex_p_spectral|]. split; [apply ex_ascending|apply ex_p_returns]. Qed.

(** C105 *)
Theorem C105_moving_atoms_moves_orbitals_along : forall jn spline Y eigh atoms t G kpts rs betas m c vol H, columns eigh atoms -> nonlocal_of jn spline Y eigh atoms G kpts rs betas m (orbitals_moved G kpts c t) vol = Ok H ->
  exists H', nonlocal_of jn spline Y eigh (map (fun a => p_moved a t) atoms) G kpts rs betas m c vol = Ok H' /\ tshape H' = tshape H /\ forall s k b1 b2, tget H' [s; k; b1; b2] = tget H [s; k; b1; b2].
Proof. exact moved_is_orbitals_moved. Qed.
Print Assumptions C105_moving_atoms_moves_orbitals_along.

Theorem C105_translation_of_textbook : forall Y atoms G kpts c t vol s k b1 b2, textbook 1 Y (map (fun a => p_moved a t) atoms) G kpts (orbitals_moved G kpts c t) vol s k b1 b2 = textbook 1 Y atoms G kpts c vol s k b1 b2.
Proof. exact textbook_translation. Qed.
Print Assumptions C105_translation_of_textbook.

Theorem C105_position_reflected : forall jn spline Y eigh atoms G kpts rs betas m c vol H, spectral_atoms eigh atoms -> Forall (fun a => ascending_diagonal (length (p_l a)) (p_D a)) atoms ->
  nonlocal_of jn spline Y eigh atoms G kpts rs betas m c vol = Ok H -> forall s k b1 b2, tget H [s; k; b1; b2] = textbook 1 Y (map reflected atoms) G kpts c vol s k b1 b2.
Proof. exact reflected_value. Qed.
Print Assumptions C105_position_reflected.

Theorem C105_translation_refuted : forall A G vol, m3det A <> 0%R -> g_vectors A [1; 1; 3]%nat = Ok G -> vol <> 0%R ->
  exists t H H', ex_call ex_eigh [ex_pa 1 vzero] G ex_c vol = Ok H /\ ex_call ex_eigh [p_moved (ex_pa 1 vzero) t] G (orbitals_moved G [vzero] ex_c t) vol = Ok H' /\
    tget H [0; 0; 0; 0]%nat <> RtoC 0 /\ tget H' [0; 0; 0; 0]%nat = RtoC 0.
Proof. exact translation_refuted. Qed.
Print Assumptions C105_translation_refuted.

Theorem C105_lattice_translation : forall jn spline Y eigh A n1 n2 n3 atoms ts G kpts rs betas m c vol H, m3det A <> 0%R -> g_vectors A [n1; n2; n3] = Ok G -> columns eigh atoms -> length ts = length atoms -> Forall (in_lattice A) ts ->
  nonlocal_of jn spline Y eigh atoms G kpts rs betas m c vol = Ok H ->
  exists H', nonlocal_of jn spline Y eigh (map (fun p => p_moved (fst p) (snd p)) (combine atoms ts)) G kpts rs betas m c vol = Ok H' /\ tshape H' = tshape H /\ forall s k b1 b2, tget H' [s; k; b1; b2] = tget H [s; k; b1; b2].
Proof. exact lattice_invariant. Qed.
Print Assumptions C105_lattice_translation.

Theorem C105_atom_order : forall jn spline Y eigh atoms atoms' G kpts rs betas m c vol H, columns eigh atoms -> nonlocal_of jn spline Y eigh atoms G kpts rs betas m c vol = Ok H -> Permutation atoms atoms' ->
  exists H', nonlocal_of jn spline Y eigh atoms' G kpts rs betas m c vol = Ok H' /\ tshape H' = tshape H /\ forall s k b1 b2, tget H' [s; k; b1; b2] = tget H [s; k; b1; b2].
Proof. exact atoms_perm. Qed.
Print Assumptions C105_atom_order.

Theorem C105_atoms_add : forall jn spline Y eigh l1 l2 G kpts rs be1 be2 m c vol H1 H2, columns eigh l1 -> columns eigh l2 -> nonlocal_of jn spline Y eigh l1 G kpts rs be1 m c vol = Ok H1 -> nonlocal_of jn spline Y eigh l2 G kpts rs be2 m c vol = Ok H2 ->
  exists H, nonlocal_of jn spline Y eigh (l1 ++ l2) G kpts rs (be1 ++ be2) m c vol = Ok H /\ tshape H = tshape H1 /\ forall s k b1 b2, tget H [s; k; b1; b2] = tget H1 [s; k; b1; b2] + tget H2 [s; k; b1; b2].
Proof. exact atoms_app. Qed.
Print Assumptions C105_atoms_add.

Example C105_example : exists G H, g_vectors ex_cell [1; 1; 3]%nat = Ok G /\ m3det ex_cell <> 0%R /\ columns ex_eigh [ex_pa 1 vzero; ex_pa (-2) (V3 0 1 0)] /\
  ex_call ex_eigh [ex_pa 1 vzero; ex_pa (-2) (V3 0 1 0)] G ex_c 1 = Ok H.
Proof.
  destruct ex_grid as (G & HG & SG). destruct (ex_returns G [ex_pa 1 vzero; ex_pa (-2) (V3 0 1 0)] ex_c SG eq_refl ltac:(discriminate) ltac:(repeat constructor; eexists; eexists; reflexivity) ex_eigh 1) as (H & E).
  exists G, H. split; [exact HG|]. split; [exact ex_cell_invertible|]. split; [|exact E].
  constructor; [exact (Forall_inv (spectral_columns _ _ (ex_spectral 1 vzero)))|constructor; [exact (Forall_inv (spectral_columns _ _ (ex_spectral (-2) (V3 0 1 0))))|constructor]].
Qed.

(** C106 *)
Theorem C106_addition_theorem : forall jn spline Y eigh atoms G kpts rs betas m c vol H, columns eigh atoms ->
  (forall l, In l (concat (map p_l atoms)) -> SphSpec.conjugation_symmetry Y l /\ SphSpec.addition_theorem Y l) ->
  (forall a k j x, In a atoms -> (k < length kpts)%nat -> (j < length (p_l a))%nat -> inb x (tshape G) -> nth j (p_l a) 0%nat = 0%nat \/ vadd (nth k kpts vzero) (tget G x) <> vzero \/ tget (p_beta a) (k :: j :: x) = 0%R) ->
  nonlocal_of jn spline Y eigh atoms G kpts rs betas m c vol = Ok H -> forall s k b1 b2, (k < length kpts)%nat ->
  tget H [s; k; b1; b2] = RtoC ((4 * PI) ^ 2 / vol) * sumC atoms (fun a => sumC (seq 0 (length (p_l a))) (fun j => RtoC (Rabs (nth j (fst (eigh (p_D a))) 0%R)) * legendre_overlap (-1) G kpts a c s k b1 b2 j)).
Proof. exact nonlocal_legendre. Qed.
Print Assumptions C106_addition_theorem.
(** With the standard spherical harmonics: no hypothesis on them is left. *)
Theorem C106_standard_harmonics : forall jn spline eigh atoms G kpts rs betas m c vol H, columns eigh atoms ->
  (forall a k j x, In a atoms -> (k < length kpts)%nat -> (j < length (p_l a))%nat -> inb x (tshape G) -> nth j (p_l a) 0%nat = 0%nat \/ vadd (nth k kpts vzero) (tget G x) <> vzero \/ tget (p_beta a) (k :: j :: x) = 0%R) ->
  nonlocal_of jn spline SphSpec.standard_harmonic eigh atoms G kpts rs betas m c vol = Ok H -> forall s k b1 b2, (k < length kpts)%nat ->
  tget H [s; k; b1; b2] = RtoC ((4 * PI) ^ 2 / vol) * sumC atoms (fun a => sumC (seq 0 (length (p_l a))) (fun j => RtoC (Rabs (nth j (fst (eigh (p_D a))) 0%R)) * legendre_overlap (-1) G kpts a c s k b1 b2 j)).
Proof. exact (fun jn spline eigh atoms G kpts rs betas m c vol H Hc => nonlocal_legendre jn spline SphSpec.standard_harmonic eigh atoms G kpts rs betas m c vol H Hc (fun l _ => conj (ShProofs.standard_symm l) (ShProofs.standard_addition l))). Qed.
Print Assumptions C106_standard_harmonics.

Example C106_example : (forall l, In l (concat (map p_l [ex_p (V3 0 0 1)])) -> SphSpec.conjugation_symmetry Y01 l /\ SphSpec.addition_theorem Y01 l) /\
  (forall x, inb x (tshape one_G) -> vadd (V3 1 0 0) (tget one_G x) <> vzero) /\
  exists H, nonlocal_of ex_jn ex_spline Y01 id_eigh [ex_p (V3 0 0 1)] one_G [V3 1 0 0] [] [[]] NlSbt (mkT [1; 1; 1; 1; 1; 1]%nat (fun _ => RtoC 1)) 1 = Ok H.
Proof.
  split; [|split; [intros x _; exact ex_p_nonzero|apply ex_p_returns]]. intros l Hl. assert (l <= 1)%nat by (cbn in Hl; lia). split; [apply Y01_symm|apply Y01_addition]; assumption.
Qed.

(** C107 *)
Theorem C107_energy : forall c psi vol occ sp K B nb nm n1 n2 n3, let ns := [n1; n2; n3] in tshape c = [sp; K; B] ++ ns -> tshape psi = [K; nb; nm] ++ ns -> tshape occ = [sp; K; B] ->
  exists H, hamiltonian_nonlocal c psi vol = Ok H /\ tshape H = [sp; K; B; B] /\
    energy_nonlocal c psi vol (Some occ) = Ok (sumR (seq 0 sp) (fun s => sumR (seq 0 K) (fun k => sumR (seq 0 B) (fun b => tget occ [s; k; b] * Re (tget H [s; k; b; b])))))%R.
Proof. exact energy_eq. Qed.
Print Assumptions C107_energy.

Theorem C107_nonnegative : forall c psi vol occ sp K B e, (0 < vol)%R -> tshape occ = [sp; K; B] -> (exists rest, tshape c = [sp; K; B] ++ rest) -> (forall i, inb i (tshape occ) -> (0 <= tget occ i)%R) ->
  energy_nonlocal c psi vol (Some occ) = Ok e -> (0 <= e)%R.
Proof. exact energy_nonneg. Qed.
Print Assumptions C107_nonnegative.

Theorem C107_linear_in_occupations : forall c psi vol o1 o2 a b sp K B e1 e2, tshape o1 = [sp; K; B] -> tshape o2 = [sp; K; B] -> (exists rest, tshape c = [sp; K; B] ++ rest) ->
  energy_nonlocal c psi vol (Some o1) = Ok e1 -> energy_nonlocal c psi vol (Some o2) = Ok e2 ->
  energy_nonlocal c psi vol (Some (mkT [sp; K; B] (fun i => a * tget o1 i + b * tget o2 i)%R)) = Ok (a * e1 + b * e2)%R.
Proof. exact energy_linear. Qed.
Print Assumptions C107_linear_in_occupations.

Theorem C107_default_occupation_raises : forall c psi vol H, hamiltonian_nonlocal c psi vol = Ok H -> energy_nonlocal c psi vol None = Err TypeErr.
Proof. exact energy_none. Qed.
Print Assumptions C107_default_occupation_raises.

Example C107_example : exists e, energy_nonlocal (mkT [1; 1; 1; 1; 1; 1]%nat (fun _ => RtoC 1)) (mkT [1; 2; 3; 1; 1; 1]%nat (fun _ => Ci)) 2 (Some (mkT [1; 1; 1]%nat (fun _ => 2%R))) = Ok e.
Proof. destruct (energy_eq (mkT [1; 1; 1; 1; 1; 1]%nat (fun _ => RtoC 1)) (mkT [1; 2; 3; 1; 1; 1]%nat (fun _ => Ci)) 2 (mkT [1; 1; 1]%nat (fun _ => 2%R)) 1 1 1 2 3 1 1 1 eq_refl eq_refl eq_refl) as (H & _ & _ & E). eexists. exact E. Qed.

(** C108 *)
Theorem C108_matrix : forall xcd c dens V psi G kpts vol xc ks sp sp' B nb nm n1 n2 n3 hk vxc, let ns := [n1; n2; n3] in let K := length kpts in
  nl_inputs c dens V psi G kpts sp sp' B nb nm n1 n2 n3 -> xcd dens G ks xc = Ok vxc -> tshape vxc = hk :: ns -> (hk = 1 \/ hk = K)%nat ->
  exists w D hr vh N L M, wave_grid c vol = Ok w /\ fftn3 (tmap RtoC dens) = Ok D /\ hartree_reciprocal D G ks = Ok hr /\ ifftn3 hr = Ok vh /\ hamiltonian_nonlocal c psi vol = Ok N /\ hamiltonian_local w V vol = Ok L /\
    nl_hamiltonian_matrix xcd c dens V psi G kpts vol xc ks = Ok M /\ tshape M = [sp; K; B; B] /\
    forall s k i j, (s < sp)%nat -> (k < K)%nat -> (i < B)%nat -> (j < B)%nat ->
      tget M [s; k; i; j] = tget N [s; k; i; j] + tget L [s; k; i; j] + scf_element ns vol w vh vxc (if (hk =? 1)%nat then 0%nat else k) [s; k; i] [s; k; j] + kinetic_element ns c G (nth k kpts vzero) [s; k; i] [s; k; j].
Proof. exact matrix_eq. Qed.
Print Assumptions C108_matrix.

Theorem C108_hermitian : forall jn spline xcd A atoms ml c dens V psi G kpts vol xc ks sp sp' B nb nm n1 n2 n3 vxc, let ns := [n1; n2; n3] in let K := length kpts in
  m3det A <> 0%R -> g_vectors A ns = Ok G -> Nat.odd n1 = true -> Nat.odd n2 = true -> Nat.odd n3 = true -> local_of jn spline atoms G vol ml = Ok V ->
  nl_inputs c dens V psi G kpts sp sp' B nb nm n1 n2 n3 -> xcd dens G ks xc = Ok vxc -> tshape vxc = 1%nat :: ns -> real_valued vxc ->
  exists M, nl_hamiltonian_matrix xcd c dens V psi G kpts vol xc ks = Ok M /\ tshape M = [sp; K; B; B] /\
    forall s k i j, (s < sp)%nat -> (k < K)%nat -> (i < B)%nat -> (j < B)%nat -> tget M [s; k; i; j] = Cconj (tget M [s; k; j; i]).
Proof. exact normcons_hermitian. Qed.
Print Assumptions C108_hermitian.

Theorem C108_trace : forall xcd c dens V psi G kpts vol xc ks sp sp' B nb nm n1 n2 n3 vxc, let ns := [n1; n2; n3] in let K := length kpts in
  nl_inputs c dens V psi G kpts sp sp' B nb nm n1 n2 n3 -> Forall (fun n => (0 < n)%nat) ns -> xcd dens G ks xc = Ok vxc -> tshape vxc = 1%nat :: ns ->
  exists M, nl_hamiltonian_matrix xcd c dens V psi G kpts vol xc ks = Ok M /\
    nl_hamiltonian_trace xcd c dens V psi G kpts vol xc ks = Ok (sumR (seq 0 sp) (fun s => sumR (seq 0 K) (fun k => sumR (seq 0 B) (fun b => Re (tget M [s; k; b; b]))))).
Proof. exact trace_eq. Qed.
Print Assumptions C108_trace.

Theorem C108_channels_not_kpoints : forall xcd c dens V psi G kpts vol xc ks sp sp' B nb nm n1 n2 n3 hk vxc, let ns := [n1; n2; n3] in let K := length kpts in
  nl_inputs c dens V psi G kpts sp sp' B nb nm n1 n2 n3 -> xcd dens G ks xc = Ok vxc -> tshape vxc = hk :: ns -> (K <> 1 /\ hk <> 1 /\ hk <> K)%nat ->
  nl_hamiltonian_matrix xcd c dens V psi G kpts vol xc ks = Err ValueErr.
Proof. exact matrix_raises. Qed.
Print Assumptions C108_channels_not_kpoints.

Example C108_example : nl_inputs (mkT [1; 1; 1; 1; 1; 1]%nat (fun _ => RtoC 1)) (mkT [1; 1; 1; 1]%nat (fun _ => 1%R)) (mkT [1; 1; 1]%nat (fun _ => RtoC 3)) (mkT [1; 2; 3; 1; 1; 1]%nat (fun _ => Ci)) one_G [V3 1 0 0] 1 1 1 2 3 1 1 1 /\
  ex_xcd (mkT [1; 1; 1; 1]%nat (fun _ => 1%R)) one_G true String.EmptyString = Ok (mkT [1; 1; 1; 1]%nat (fun _ => RtoC (-1))).
Proof. split; [exact ex_inputs|reflexivity]. Qed.
Example C108_example_polarised : nl_inputs (mkT [2; 3; 1; 1; 1; 1]%nat (fun _ => RtoC 1)) (mkT [2; 1; 1; 1]%nat (fun _ => 1%R)) (mkT [1; 1; 1]%nat (fun _ => RtoC 3)) (mkT [3; 2; 3; 1; 1; 1]%nat (fun _ => Ci)) one_G [V3 1 0 0; V3 0 1 0; V3 0 0 1] 2 2 1 2 3 1 1 1 /\
  ex_xcd2 (mkT [2; 1; 1; 1]%nat (fun _ => 1%R)) one_G true String.EmptyString = Ok (mkT [2; 1; 1; 1]%nat (fun i => RtoC (INR (hd 0%nat i)))).
Proof. split; [exact (ex_inputs_k [V3 1 0 0; V3 0 1 0; V3 0 0 1])|reflexivity]. Qed.

Example C108_example_hermitian : exists G V, m3det ex_cell <> 0%R /\ g_vectors ex_cell [1; 1; 3]%nat = Ok G /\ local_of LocProofs2.ex_jn LocProofs2.ex_spline [LocProofs2.ex_atom] G 8 SbtMethod = Ok V /\
  nl_inputs ex_c (mkT [1; 1; 1; 3]%nat (fun _ => 1%R)) V (mkT [1; 2; 3; 1; 1; 3]%nat (fun _ => Ci)) G [vzero] 1 1 1 2 3 1 1 3.
Proof.
  destruct ex_grid as (G & HG & SG). destruct (LocProofs2.ex_local ex_cell 1 1 3 G 8 ex_cell_invertible ltac:(lra) HG) as (V & HV & SV & _). exists G, V.
  split; [exact ex_cell_invertible|]. split; [exact HG|]. split; [exact HV|]. split; [reflexivity|]. split; [reflexivity|]. split; [exact SV|]. split; [reflexivity|]. split; [exact SG|].
  intros x Hx Ho. exact (g_nonzero ex_cell 1 1 3 G x ex_cell_invertible HG Hx Ho).
Qed.

(** C109 *)
Theorem C109_returns : forall jn spline r beta l G kpts, (exists t, beta_sbt_single_atom jn spline r beta l G kpts = Ok t) <->
  length l = length beta /\ Forall (fun row => length row = length r) beta /\ (0 < used_points r)%nat /\ exists k x, (k < length (ks_of kpts))%nat /\ inb x (tshape G) /\ (/ 10000 < norm (vadd (nth k (ks_of kpts) vzero) (tget G x)))%R.
Proof. exact single_returns. Qed.
Print Assumptions C109_returns.

Theorem C109_value : forall jn spline r beta l G kpts t, beta_sbt_single_atom jn spline r beta l G kpts = Ok t ->
  length l = length beta /\ Forall (fun row => length row = length r) beta /\ (0 < used_points r)%nat /\
  exists kmax, largest G (ks_of kpts) kmax /\ (/ 10000 < kmax)%R /\ tshape t = length (ks_of kpts) :: length beta :: tshape G /\
   forall k j x, (k < length (ks_of kpts))%nat -> (j < length beta)%nat -> tget t (k :: j :: x) =
    spline (knots kmax r) (map (radial_transform jn (nth j l 0%Z) r (nth j beta [])) (knots kmax r)) (norm (vadd (nth k (ks_of kpts) vzero) (tget G x))).
Proof. exact single_ok. Qed.
Print Assumptions C109_value.

Theorem C109_radial : forall jn spline r beta l G kpts t, beta_sbt_single_atom jn spline r beta l G kpts = Ok t -> forall k k' j x x', (k < length (ks_of kpts))%nat -> (k' < length (ks_of kpts))%nat -> (j < length beta)%nat ->
  norm (vadd (nth k (ks_of kpts) vzero) (tget G x)) = norm (vadd (nth k' (ks_of kpts) vzero) (tget G x')) -> tget t (k :: j :: x) = tget t (k' :: j :: x').
Proof. exact single_radial. Qed.
Print Assumptions C109_radial.

Theorem C109_atoms : forall jn spline rs betas ls G kpts out, beta_sbt_grid jn spline rs betas ls G kpts = Ok out <->
  length out = Nat.min (Nat.min (length rs) (length betas)) (length ls) /\
  forall a, (a < length out)%nat -> beta_sbt_single_atom jn spline (nth a rs []) (nth a betas []) (nth a ls []) G kpts = Ok (nth a out (mkT [] (fun _ => 0%R))).
Proof. exact grid_rows. Qed.
Print Assumptions C109_atoms.

Theorem C109_default_projectors : forall jn spline Y eigh pos G kpts rs betas ls Ds m, m <> NlOther -> ndim G = 3%nat -> length betas = length ls ->
  nonlocal_psi jn spline Y eigh pos G kpts rs betas ls Ds None m =
  (do b <- beta_sbt_grid jn spline rs betas (map (map Z.of_nat) ls) G (Some kpts); nonlocal_psi jn spline Y eigh pos G kpts rs betas ls Ds (Some b) m).
Proof. exact default_projectors. Qed.
Print Assumptions C109_default_projectors.

Theorem C109_method_has_no_effect : forall jn spline Y eigh pos G kpts rs betas ls Ds bg m m', m <> NlOther -> m' <> NlOther ->
  nonlocal_psi jn spline Y eigh pos G kpts rs betas ls Ds bg m = nonlocal_psi jn spline Y eigh pos G kpts rs betas ls Ds bg m'.
Proof. exact method_irrelevant. Qed.
Print Assumptions C109_method_has_no_effect.

Example C109_example : exists t, beta_sbt_single_atom ex_jn ex_spline [0%R; 1%R; 2%R] [[5%R; 1%R; 1%R]; [0%R; 2%R; 1%R]] [0%Z; 1%Z] one_G (Some [V3 1 0 0]) = Ok t.
Proof. exact ex_beta_returns. Qed.
