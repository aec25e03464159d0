(** Crystal creation and the value of the Ewald energy: properties C119, C120. *)
From Coq Require Import Reals Lra Lia.
From Coq Require Import Ascii String List Arith ZArith Bool.
From Verif Require Import Base Sums Tensor GridModel Lin3 VecModel VecProofs OccModel EwaldModel EwaldSpec EwaldProofs EwaldProofs2 CalcModel CalcSpec CryProofs CfgProofs.
Import ListNotations.
Local Open Scope R_scope.

(** C119: files are in Angstrom, crystals in Bohr. *)
Theorem C119_from_file : forall read path spin cr, create_from_file read path spin = Ok cr <->
  exists a, read path = Ok a /\ in_bohr a cr /\ cr_spin cr = spin_of spin cr.
Proof. exact from_file. Qed.
Print Assumptions C119_from_file.
Theorem C119_from_configuration : forall pkg read c cr, create_crystal pkg read c = Ok cr -> exists path a sp, geometry_file pkg c path /\ read path = Ok a /\ in_bohr a cr /\
  getattr c "spin" = Ok sp /\ cr_spin cr = spin_of (match sp with VInt z => Some z | VBool b => Some (if b then 1 else 0)%Z | _ => None end) cr.
Proof. exact from_config. Qed.
Print Assumptions C119_from_configuration.
Theorem C119_volume : forall a cr, in_bohr a cr -> volume (cr_cell cr) = bohr_per_angstrom ^ 3 * volume (a_cell a).
Proof. exact bohr_volume. Qed.
Print Assumptions C119_volume.
Theorem C119_fractional_coordinates : forall a cr i f, in_bohr a cr -> (i < length (a_positions a))%nat -> nth i (a_positions a) vzero = vmul f (a_cell a) -> nth i (cr_positions cr) vzero = vmul f (cr_cell cr).
Proof. exact bohr_fractional. Qed.
Print Assumptions C119_fractional_coordinates.
Theorem C119_distances : forall a cr i j, in_bohr a cr -> (i < length (a_positions a))%nat -> (j < length (a_positions a))%nat ->
  norm (vsub (nth i (cr_positions cr) vzero) (nth j (cr_positions cr) vzero)) = bohr_per_angstrom * norm (vsub (nth i (a_positions a) vzero) (nth j (a_positions a) vzero)).
Proof. exact bohr_distance. Qed.
Print Assumptions C119_distances.
Theorem C119_default_spin : forall read path cr, create_from_file read path None = Ok cr -> (cr_spin cr = 0 \/ cr_spin cr = 1)%Z /\ check_spin_number (num_electron cr) (cr_spin cr) = Ok tt.
Proof. exact default_spin. Qed.
Print Assumptions C119_default_spin.
(** [create_from_symbols] documents Bohr, but converts its arguments as if they were Angstrom. *)
Theorem C119_from_symbols : forall numbers symbols positions cell spin cr, create_from_symbols numbers symbols positions cell spin = Ok cr <->
  exists zs, numbers symbols = Ok zs /\ length positions = length zs /\ in_bohr (Ase zs positions cell) cr /\ cr_spin cr = spin_of spin cr.
Proof. exact from_symbols. Qed.
Print Assumptions C119_from_symbols.
(** The number of atoms of a crystal is the number of positions given. *)
Theorem C119_atom_count : (forall read path spin cr, create_from_file read path spin = Ok cr -> exists a, read path = Ok a /\ num_atom cr = length (a_positions a)) /\
  (forall numbers symbols positions cell spin cr, create_from_symbols numbers symbols positions cell spin = Ok cr -> num_atom cr = length positions /\ num_atom cr = length (cr_charges cr)).
Proof. exact atom_count. Qed.
Print Assumptions C119_atom_count.
Theorem C119_symbols_unchanged_iff : forall numbers symbols positions cell spin cr, create_from_symbols numbers symbols positions cell spin = Ok cr ->
  (cr_positions cr = positions <-> Forall (eq vzero) positions) /\ (cr_cell cr = cell <-> cell = M3 vzero vzero vzero).
Proof. exact symbols_unchanged. Qed.
Print Assumptions C119_symbols_unchanged_iff.
Theorem C119_symbols_in_bohr_refuted : ~ (forall numbers symbols positions cell spin cr, create_from_symbols numbers symbols positions cell spin = Ok cr -> cr_positions cr = positions /\ cr_cell cr = cell).
Proof. exact symbols_bohr_wrong. Qed.
Print Assumptions C119_symbols_in_bohr_refuted.
Example C119_example : let a := Ase [6; 1]%Z [vzero; V3 1 1 1] (m3scale 4 m3id) in exists cr, create_from_file (fun _ => Ok a) "x.xyz" None = Ok cr /\ in_bohr a cr /\ cr_spin cr = 1%Z /\
  nth 1 (a_positions a) vzero = vmul (V3 (/ 4) (/ 4) (/ 4)) (a_cell a).
Proof.
  eexists. split; [reflexivity|]. split; [apply ase_in_bohr|]. split; [reflexivity|]. cbn. unfold vmul, m3scale, m3id, vscale, vadd. cbn. f_equal; field.
Qed.

(** C120: the Ewald energy is the Ewald formula, up to the regularised distances. *)
Theorem C120_formula : forall f l A n1 n2 n3 G vol eta T delta e, erfc_ok f -> m3det A <> 0 -> g_vectors A [n1; n2; n3] = Ok G -> vol <> 0 -> 0 < eta -> / 10 ^ 9 <= delta ->
  (forall a b t, In a l -> In b l -> In t T -> vsub (vsub (fst b) (fst a)) t = vzero \/ delta <= norm (vsub (vsub (fst b) (fst a)) t)) ->
  ewald_coulomb_repulsion f (positions l) (charges l) G vol eta T = Ok e ->
  Rabs (e - ewald_formula f l (map (tget G) (indices (tshape G))) vol eta T) <= sumR (charges l) Rabs ^ 2 * INR (length T) * regular_error eta delta / 2.
Proof. exact ewald_near. Qed.
Print Assumptions C120_formula.
Theorem C120_reciprocal_part_exact : forall A n1 n2 n3 G vol eta tau, m3det A <> 0 -> g_vectors A [n1; n2; n3] = Ok G -> vol <> 0 -> eta <> 0 ->
  ew_rprcl G vol eta tau = sumR (map (tget G) (indices (tshape G))) (smooth vol eta tau).
Proof. exact recip_formula. Qed.
Print Assumptions C120_reciprocal_part_exact.
Theorem C120_driver : forall f pkg read c e cr g r k delta, erfc_ok f -> create_crystal pkg read c = Ok cr -> create_grids pkg read c = Ok (g, r, k) -> m3det (cr_cell cr) <> 0 ->
  get_ewald_coulomb_repulsion f pkg read c = Ok e -> / 10 ^ 9 <= delta ->
  exists cutoff width T, translation_vectors (cr_cell cr) cutoff = Ok T /\
   (exists d x y, getattr c "ewald_args" = Ok (VDict d) /\ assoc "ewald_cutoff" d = Some x /\ assoc "ewald_eta" d = Some y /\ cfg_real x = Ok cutoff /\ cfg_real y = Ok width) /\
   (0 < width -> (forall a b t, In a (cr_positions cr) -> In b (cr_positions cr) -> In t T -> vsub (vsub b a) t = vzero \/ delta <= norm (vsub (vsub b a) t)) ->
    Rabs (e - ewald_formula f (combine (cr_positions cr) (map IZR (cr_charges cr))) (map (tget g) (indices (tshape g))) (volume (cr_cell cr)) width T)
      <= sumR (cr_charges cr) (fun z => Rabs (IZR z)) ^ 2 * INR (length T) * regular_error width delta / 2).
Proof. exact repulsion_formula. Qed.
Print Assumptions C120_driver.
(** The error function meets the contract. *)
Theorem C120_error_function : erfc_ok erfc.
Proof. exact erfc_contract. Qed.
Print Assumptions C120_error_function.
Example C120_example : exists G e, let A := m3scale 4 m3id in let T := [vzero; V3 4 0 0] in
  m3det A <> 0 /\ g_vectors A [2; 2; 2]%nat = Ok G /\ volume A <> 0 /\
  (forall a b t, In a ex_pair -> In b ex_pair -> In t T -> vsub (vsub (fst b) (fst a)) t = vzero \/ 1 <= norm (vsub (vsub (fst b) (fst a)) t)) /\
  ewald_coulomb_repulsion erfc (positions ex_pair) (charges ex_pair) G (volume A) 1 T = Ok e.
Proof. exact ex_ewald_case. Qed.
