(** The local pseudopotential: properties C66, C102-C104. *)
From Coq Require Import Reals Lra Lia Permutation.
From Coquelicot Require Import Complex.
From Coq Require Import List Arith ZArith.
From Verif Require Import Base Sums Tensor DFT Lin3 VecModel VecProofs PwModel PwSpec PropVec BraketModel EnergyModel EnergySpec EnergyProofs SbtModel LocModel LocSpec LocProofs LocProofs2.
Import ListNotations.
Local Open Scope C_scope.

Example ex_grid : exists G, g_vectors ex_cell [1; 1; 3]%nat = Ok G /\ m3det ex_cell <> 0%R.
Proof. destruct (proj2 (g_vectors_ok ex_cell 1 1 3)) as [G HG]; [lia|]. exists G. split; [exact HG|]. exact ex_cell_invertible. Qed.
Example ex_nonzero : exists G V, g_vectors ex_cell [1; 1; 3]%nat = Ok G /\ local_of ex_jn ex_spline [ex_atom] G 8 SbtMethod = Ok V /\ (Re (tget V [0; 0; 1]%nat) < 0)%R.
Proof.
  destruct ex_grid as (G & HG & HA). destruct (ex_local ex_cell 1 1 3 G 8 HA ltac:(lra) HG) as (V & HV & _ & N). exists G, V. split; [exact HG|]. split; [exact HV|]. apply N; [repeat constructor|].
  intros H. inversion H as [|a l Ha H1]; subst. inversion H1 as [|b l' Hb H2]; subst. inversion H2; subst. discriminate.
Qed.

(** C66 *)
Theorem C66_returns : forall jn spline m A n1 n2 n3 G vol atoms, g_vectors A [n1; n2; n3] = Ok G ->
  ((exists V, local_of jn spline atoms G vol m = Ok V) <-> m <> OtherMethod /\ atoms <> [] /\ Forall (fun a => length (a_v a) = length (a_r a)) atoms).
Proof. exact local_returns_iff. Qed.
Print Assumptions C66_returns.

Theorem C66_zero_at_origin : forall jn spline m G vol atoms V x, local_of jn spline atoms G vol m = Ok V -> at_origin x -> tget V x = RtoC 0.
Proof. exact local_origin. Qed.
Print Assumptions C66_zero_at_origin.

Theorem C66_atom_order : forall jn spline m G vol atoms atoms' V, local_of jn spline atoms G vol m = Ok V -> Permutation atoms atoms' ->
  exists V', local_of jn spline atoms' G vol m = Ok V' /\ teq V V'.
Proof. exact local_perm. Qed.
Print Assumptions C66_atom_order.

Theorem C66_additive : forall jn spline m G vol l1 l2 V1 V2, local_of jn spline l1 G vol m = Ok V1 -> local_of jn spline l2 G vol m = Ok V2 ->
  exists V, local_of jn spline (l1 ++ l2) G vol m = Ok V /\ tshape V = tshape G /\ forall x, tget V x = tget V1 x + tget V2 x.
Proof. exact local_app. Qed.
Print Assumptions C66_additive.

Theorem C66_rigid_shift : forall jn spline m G vol atoms t V, local_of jn spline atoms G vol m = Ok V ->
  exists V', local_of jn spline (map (fun a => moved a t) atoms) G vol m = Ok V' /\ tshape V' = tshape V /\ forall x, tget V' x = cis (- dot (tget G x) t) * tget V x.
Proof. exact local_shift. Qed.
Print Assumptions C66_rigid_shift.

Theorem C66_lattice_translation : forall jn spline m A n1 n2 n3 G vol atoms shifts V, m3det A <> 0%R -> g_vectors A [n1; n2; n3] = Ok G -> length shifts = length atoms -> Forall (in_lattice A) shifts ->
  local_of jn spline atoms G vol m = Ok V ->
  exists V', local_of jn spline (map (fun p => moved (fst p) (snd p)) (combine atoms shifts)) G vol m = Ok V' /\ teq V V'.
Proof. exact local_lattice. Qed.
Print Assumptions C66_lattice_translation.
Example C66_example : exists G V, g_vectors ex_cell [1; 1; 3]%nat = Ok G /\ local_of ex_jn ex_spline [ex_atom] G 8 SbtMethod = Ok V /\ (Re (tget V [0; 0; 1]%nat) < 0)%R.
Proof. exact ex_nonzero. Qed.
Example C66_example_lattice : in_lattice ex_cell (V3 3 3 0).
Proof. exists 1%Z, 1%Z, 0%Z. unfold ex_cell. cbn. unfold vadd, vscale. cbn. f_equal; lra. Qed.

(** C102 *)
Theorem C102_sbt_value : forall jn spline A n1 n2 n3 G vol atoms V, let ns := [n1; n2; n3] in g_vectors A ns = Ok G ->
  local_of jn spline atoms G vol SbtMethod = Ok V ->
  exists kmax, (exists x, inb x ns /\ kmax = norm (tget G x)) /\ (forall x, inb x ns -> (norm (tget G x) <= kmax)%R) /\ tshape V = ns /\
    forall x, inb x ns -> ~ at_origin x -> tget V x = RtoC (INR (nprod ns) / vol) * sumC atoms (fun a =>
      let ks := linspace (/ 10000) kmax (2 * length (a_r a)) in
      RtoC (4 * PI * (spline ks (map (radial_sum jn (a_r a) (screened a)) ks) (norm (tget G x)) - a_z a / norm2 (tget G x)))
      * cis (- dot (tget G x) (a_pos a))).
Proof. exact local_formula. Qed.
Print Assumptions C102_sbt_value.

Theorem C102_fft_value : forall jn spline A n1 n2 n3 G vol atoms V, let ns := [n1; n2; n3] in m3det A <> 0%R -> (2 <= n1)%nat -> (2 <= n2)%nat -> (2 <= n3)%nat ->
  g_vectors A ns = Ok G -> local_of jn spline atoms G vol FftMethod = Ok V ->
  exists X, r_vectors (m3t A) ns = Ok X /\ forall x, inb x ns -> ~ at_origin x -> tget V x = RtoC (INR (nprod ns) / vol) * sumC atoms (fun a =>
      (RtoC (4 * PI / INR (nprod ns)) * dft ns (fun y => RtoC (spline (a_r a) (screened a) (norm (tget X y)))) x - RtoC (4 * PI * a_z a / norm2 (tget G x)))
      * cis (- dot (tget G x) (a_pos a))).
Proof. exact fft_formula. Qed.
Print Assumptions C102_fft_value.

Theorem C102_fft_normalisation : forall jn spline A n1 n2 n3 G X vol a V, let ns := [n1; n2; n3] in m3det A <> 0%R -> m3t A = A -> (2 <= n1)%nat -> (2 <= n2)%nat -> (2 <= n3)%nat -> vol <> 0%R ->
  g_vectors A ns = Ok G -> r_vectors A ns = Ok X -> local_of jn spline [a] G vol FftMethod = Ok V ->
  forall x, inb x ns -> ~ at_origin x -> let I := cell_integral ns X vol (fun s => spline (a_r a) (screened a) s) (tget G x) in
    (tget V x = RtoC (INR (nprod ns) / vol) * ((I - RtoC (4 * PI * a_z a / norm2 (tget G x))) * cis (- dot (tget G x) (a_pos a))) <-> I = RtoC 0 \/ vol = (4 * PI)%R).
Proof. exact fft_normalisation. Qed.
Print Assumptions C102_fft_normalisation.

Theorem C102_fft_is_transform_refuted : exists G X V x, g_vectors m3id [2; 2; 2]%nat = Ok G /\ r_vectors m3id [2; 2; 2]%nat = Ok X /\
  local_of ex_jn ex_peak [ex_atom] G 1 FftMethod = Ok V /\ inb x [2; 2; 2]%nat /\
  tget V x <> RtoC (INR (nprod [2; 2; 2]%nat) / 1) * ((cell_integral [2; 2; 2]%nat X 1 (fun s => ex_peak (a_r ex_atom) (screened ex_atom) s) (tget G x) - RtoC (4 * PI * a_z ex_atom / norm2 (tget G x))) * cis (- dot (tget G x) (a_pos ex_atom))).
Proof. exact ex_fft_wrong. Qed.
Print Assumptions C102_fft_is_transform_refuted.
Example C102_example : m3t m3id = m3id /\ m3det m3id <> 0%R /\ exists G V, g_vectors m3id [2; 2; 3]%nat = Ok G /\ local_of ex_jn ex_spline [ex_atom] G 1 FftMethod = Ok V.
Proof.
  split; [reflexivity|]. split; [lin3; lra|]. destruct (proj2 (g_vectors_ok m3id 2 2 3)) as [G HG]; [lia|]. 
  destruct (proj2 (local_returns_iff ex_jn ex_spline FftMethod m3id 2 2 3 G 1 [ex_atom] HG)) as (V & HV); [split; [discriminate|]; split; [discriminate|]; repeat constructor|].
  exists G, V. split; assumption.
Qed.
Example C102_example_sbt : exists G V, g_vectors ex_cell [1; 1; 3]%nat = Ok G /\ local_of ex_jn ex_spline [ex_atom] G 8 SbtMethod = Ok V /\ (Re (tget V [0; 0; 1]%nat) < 0)%R.
Proof. exact ex_nonzero. Qed.

(** C103 *)
Theorem C103_conjugate_symmetric : forall jn spline m A n1 n2 n3 G vol atoms V, g_vectors A [n1; n2; n3] = Ok G -> Nat.odd n1 = true -> Nat.odd n2 = true -> Nat.odd n3 = true ->
  local_of jn spline atoms G vol m = Ok V -> forall x, inb x [n1; n2; n3] -> tget V (neg_index [n1; n2; n3] x) = Cconj (tget V x).
Proof. exact local_conj. Qed.
Print Assumptions C103_conjugate_symmetric.

Theorem C103_real_potential : forall jn spline m A n1 n2 n3 G vol atoms V, g_vectors A [n1; n2; n3] = Ok G -> Nat.odd n1 = true -> Nat.odd n2 = true -> Nat.odd n3 = true ->
  local_of jn spline atoms G vol m = Ok V -> exists v, ifftn3 V = Ok v /\ tshape v = [n1; n2; n3] /\ real_valued v.
Proof. exact local_real. Qed.
Print Assumptions C103_real_potential.

Theorem C103_hamiltonian_hermitian : forall jn spline m A n1 n2 n3 G vol atoms V wave sp K B, g_vectors A [n1; n2; n3] = Ok G -> Nat.odd n1 = true -> Nat.odd n2 = true -> Nat.odd n3 = true ->
  local_of jn spline atoms G vol m = Ok V -> tshape wave = [sp; K; B] ++ [n1; n2; n3] ->
  exists H, hamiltonian_local wave V vol = Ok H /\ tshape H = [sp; K; B; B] /\
    forall s k i j, (s < sp)%nat -> (k < K)%nat -> (i < B)%nat -> (j < B)%nat -> tget H [s; k; i; j] = Cconj (tget H [s; k; j; i]).
Proof. exact local_hermitian. Qed.
Print Assumptions C103_hamiltonian_hermitian.

Theorem C103_energy_real_space : forall (d : tensor R) V D vol sp n1 n2 n3, let ns := [n1; n2; n3] in Forall (fun n => (0 < n)%nat) ns ->
  tshape V = ns -> tshape d = sp :: ns -> fftn3 (tmap RtoC d) = Ok D ->
  exists v, ifftn3 V = Ok v /\ tshape v = ns /\
    energy_local D V vol = Ok (vol / INR (nprod ns) * sumR (seq 0 sp) (fun s => sumR (indices ns) (fun x => Re (tget v x) * tget d (s :: x))))%R.
Proof. exact energy_real. Qed.
Print Assumptions C103_energy_real_space.

Theorem C103_energy_from_hamiltonian : forall c occ V vol sp K B n1 n2 n3, let ns := [n1; n2; n3] in Forall (fun n => (0 < n)%nat) ns ->
  tshape c = [sp; K; B] ++ ns -> tshape occ = [sp; K; B] -> tshape V = ns ->
  exists w D H, wave_grid c vol = Ok w /\ density_grid_reciprocal c vol (Some occ) = Ok D /\ hamiltonian_local w V vol = Ok H /\ tshape H = [sp; K; B; B] /\
    energy_local D V vol = Ok (sumR (seq 0 sp) (fun s => sumR (seq 0 K) (fun k => sumR (seq 0 B) (fun b => tget occ [s; k; b] * Re (tget H [s; k; b; b])))))%R.
Proof. exact energy_bands. Qed.
Print Assumptions C103_energy_from_hamiltonian.
Example C103_example : exists G V, g_vectors ex_cell [1; 1; 3]%nat = Ok G /\ local_of ex_jn ex_spline [ex_atom] G 8 SbtMethod = Ok V /\ (Re (tget V [0; 0; 1]%nat) < 0)%R.
Proof. exact ex_nonzero. Qed.

(** C104 *)
Theorem C104_one_data_set_for_all : forall jn spline pos G r v z vol m, pos <> [] ->
  rteq (potential_local_reciprocal jn spline pos G [r] [v] [z] vol m) (local_of jn spline (map (fun p => mkAtom p r v z) pos) G vol m).
Proof. exact shared_data. Qed.
Print Assumptions C104_one_data_set_for_all.

Theorem C104_other_counts_raise : forall jn spline pos G rs vs zs vol m, length rs = length vs -> length rs = length zs -> length pos <> length rs -> length rs <> 1%nat -> length pos <> 1%nat ->
  raises (potential_local_reciprocal jn spline pos G rs vs zs vol m).
Proof. exact count_mismatch. Qed.
Print Assumptions C104_other_counts_raise.

Theorem C104_unknown_method : forall jn spline pos G rs vs zs vol A n1 n2 n3, g_vectors A [n1; n2; n3] = Ok G -> potential_local_reciprocal jn spline pos G rs vs zs vol OtherMethod = Err ValueErr.
Proof. exact other_method. Qed.
Print Assumptions C104_unknown_method.
Example C104_example : exists G V, g_vectors ex_cell [1; 1; 3]%nat = Ok G /\ local_of ex_jn ex_spline (map (fun p => mkAtom p [1; 2]%R [0; 0]%R 1%R) [V3 0 0 0; V3 1 1 1]%R) G 8 SbtMethod = Ok V.
Proof.
  destruct ex_grid as (G & HG & _). destruct (proj2 (local_returns_iff ex_jn ex_spline SbtMethod ex_cell 1 1 3 G 8 (map (fun p => mkAtom p [1; 2]%R [0; 0]%R 1%R) [V3 0 0 0; V3 1 1 1]%R) HG)) as (V & HV).
  { split; [discriminate|]. split; [discriminate|]. repeat constructor. }
  exists G, V. split; assumption.
Qed.
