(** Ewald energy: properties C53, C54. *)
From Coq Require Import Reals Lra Lia Permutation.
From Coq Require Import List Arith ZArith Bool.
From Verif Require Import Base Sums Tensor GridModel Lin3 VecModel VecProofs EwaldModel EwaldSpec EwaldProofs.
Import ListNotations.
Local Open Scope R_scope.

(** C53 *)
Theorem C53_translation : forall erfc l G vol eta T u,
  ewald_coulomb_repulsion erfc (positions (move_all (vadd u) l)) (charges l) G vol eta T = ewald_coulomb_repulsion erfc (positions l) (charges l) G vol eta T.
Proof. exact ewald_translation. Qed.
Print Assumptions C53_translation.
Theorem C53_permutation : forall erfc l l' G vol eta T, Permutation l l' ->
  ewald_coulomb_repulsion erfc (positions l) (charges l) G vol eta T = ewald_coulomb_repulsion erfc (positions l') (charges l') G vol eta T.
Proof. exact ewald_permutation. Qed.
Print Assumptions C53_permutation.
Theorem C53_charge_scaling : forall erfc pos q G vol eta T a e, ewald_coulomb_repulsion erfc pos q G vol eta T = Ok e ->
  ewald_coulomb_repulsion erfc pos (map (Rmult a) q) G vol eta T = Ok (a ^ 2 * e).
Proof. exact ewald_charge_scaling. Qed.
Print Assumptions C53_charge_scaling.
Theorem C53_inversion : forall erfc l G vol eta T,
  ewald_coulomb_repulsion erfc (positions (move_all vneg l)) (charges l) G vol eta T = ewald_coulomb_repulsion erfc (positions l) (charges l) G vol eta T.
Proof. exact ewald_inversion. Qed.
Print Assumptions C53_inversion.
Theorem C53_rotation : forall erfc l G vol eta T Q, orthogonal Q ->
  ewald_coulomb_repulsion erfc (positions (move_all (fun p => vmul p Q) l)) (charges l) (tmap (fun g => vmul g Q) G) vol eta (map (fun t => vmul t Q) T)
  = ewald_coulomb_repulsion erfc (positions l) (charges l) G vol eta T.
Proof. exact ewald_rotation. Qed.
Print Assumptions C53_rotation.
(** Every list of atoms with one charge each has an energy; any other call raises. *)
Theorem C53_raises : forall erfc pos q A G vol eta cutoff, raises (nuclear_repulsion erfc pos q A G vol eta cutoff) <->
  raises (translation_vectors A cutoff) \/ length q <> length pos.
Proof. exact nuclear_raises. Qed.
Print Assumptions C53_raises.
Definition ex_atoms : list (v3 * R) := [(V3 0 0 0, 1); (V3 0 1 0, 8); (V3 1 1 0, 1)].
Example C53_example : Permutation ex_atoms [(V3 1 1 0, 1); (V3 0 0 0, 1); (V3 0 1 0, 8)] /\ orthogonal (M3 (V3 0 1 0) (V3 (-1) 0 0) (V3 0 0 1)) /\
  forall erfc G vol eta T, exists e, ewald_coulomb_repulsion erfc (positions ex_atoms) (charges ex_atoms) G vol eta T = Ok e.
Proof.
  split; [|split].
  - unfold ex_atoms. symmetry. apply (Permutation_cons_append [(V3 0 0 0, 1); (V3 0 1 0, 8)] (V3 1 1 0, 1)).
  - unfold orthogonal. lin3; ring.
  - intros. eexists. reflexivity.
Qed.

(** C54: an atom moved by the lattice vector z1 a1 + z2 a2 + z3 a3 keeps the reciprocal part;
    the energy changes exactly by the truncated real-space sums to the other atoms. *)
Theorem C54_reciprocal_part : forall A n1 n2 n3 G vol eta tau z1 z2 z3, m3det A <> 0 -> g_vectors A [n1; n2; n3] = Ok G ->
  ew_rprcl G vol eta (vadd tau (vmul (V3 (IZR z1) (IZR z2) (IZR z3)) A)) = ew_rprcl G vol eta tau.
Proof. exact recip_lattice. Qed.
Print Assumptions C54_reciprocal_part.
Theorem C54_energy_change : forall erfc r r' q l G vol eta T A n1 n2 n3 z1 z2 z3 e, m3det A <> 0 -> g_vectors A [n1; n2; n3] = Ok G ->
  r' = vadd r (vmul (V3 (IZR z1) (IZR z2) (IZR z3)) A) ->
  ewald_coulomb_repulsion erfc (positions ((r, q) :: l)) (charges ((r, q) :: l)) G vol eta T = Ok e ->
  ewald_coulomb_repulsion erfc (positions ((r', q) :: l)) (charges ((r', q) :: l)) G vol eta T =
   Ok (e + sumR l (fun b => q * snd b * ((ew_ovlp erfc eta T (vsub (fst b) r') - ew_ovlp erfc eta T (vsub (fst b) r)) + (ew_ovlp erfc eta T (vsub r' (fst b)) - ew_ovlp erfc eta T (vsub r (fst b))))) / 2).
Proof. exact ewald_move_one. Qed.
Print Assumptions C54_energy_change.
(** The real-space part of the moved atom is the sum over the moved translation list; only
    translations in one of the two lists and not the other contribute to the change. *)
Theorem C54_real_part : forall erfc eta T tau u, ew_ovlp erfc eta T (vadd tau u) = ew_ovlp erfc eta (map (fun t => vsub t u) T) tau.
Proof. exact ovlp_shift. Qed.
Print Assumptions C54_real_part.
Theorem C54_real_part_bound : forall erfc eta T u C D D' tau eps, Permutation T (C ++ D) -> Permutation (map (fun t => vsub t u) T) (C ++ D') ->
  (forall t, In t (D ++ D') -> Rabs (erfc (eta * guarded_norm (vsub tau t)) / guarded_norm (vsub tau t)) <= eps) ->
  Rabs (ew_ovlp erfc eta T (vadd tau u) - ew_ovlp erfc eta T tau) <= INR (length D + length D') * eps.
Proof. exact ovlp_move_bound. Qed.
Print Assumptions C54_real_part_bound.
(** The energy itself is not periodic in one atom's position: for every positive decreasing
    erfc and the one-vector translation list the energy drops. *)
Theorem C54_periodicity_refuted : forall (erfc : R -> R) eta vol G q, (forall x, 0 < erfc x) -> (forall x y, 0 < x < y -> erfc y < erfc x) -> 0 < eta -> 0 < q -> g_vectors m3id [2; 2; 2]%nat = Ok G ->
  exists r r' b e e', r' = vadd r (m0 m3id) /\
    ewald_coulomb_repulsion erfc [r; b] [q; q] G vol eta [vzero] = Ok e /\ ewald_coulomb_repulsion erfc [r'; b] [q; q] G vol eta [vzero] = Ok e' /\ e' < e.
Proof. exact move_one_changes. Qed.
Print Assumptions C54_periodicity_refuted.
Example C54_example : (exists G, g_vectors m3id [2; 2; 2]%nat = Ok G) /\ (forall x, 0 < exp (- x)) /\ (forall x y, 0 < x < y -> exp (- y) < exp (- x)) /\
  Permutation [vzero; V3 1 0 0] ([vzero] ++ [V3 1 0 0]) /\ Permutation (map (fun t => vsub t (V3 1 0 0)) [vzero; V3 1 0 0]) ([vzero] ++ [V3 (-1) 0 0]).
Proof.
  split; [apply g_vectors_ok; lia|]. split; [intros; apply exp_pos|]. split; [intros; apply exp_increasing; lra|]. split; [reflexivity|].
  cbn [map app]. replace (vsub vzero (V3 1 0 0)) with (V3 (-1) 0 0) by (lin3; ring). replace (vsub (V3 1 0 0) (V3 1 0 0)) with vzero by (lin3; ring). apply perm_swap.
Qed.
