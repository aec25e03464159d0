(** Potentials and energies: properties C39-C48, C82-C84. *)
From Coq Require Import Reals Lra Lia Permutation.
From Coquelicot Require Import Coquelicot.
From Coq Require Import Ascii String List Arith ZArith.
From Verif Require Import Base Sums Tensor DFT GridModel PadModel Lin3 VecModel VecProofs PwModel PwSpec PropVec PropPw BraketModel BraketSpec BraketProofs XcModel XcSpec EnergyModel EnergySpec EnergyProofs ExtProofs TotalProofs SymProofs RespProofs ShiftProofs XcProofs XcProofs2 XcProofs3.
Import ListNotations.
Local Open Scope C_scope.
(** The running example: an oblique cell with a 1x1x3 grid, one atom pair, an LDA-like functional. *)
Example ex_G : exists G, g_vectors ex_cell [1; 1; 3]%nat = Ok G /\ m3det ex_cell <> 0%R /\ tshape G = [1; 1; 3]%nat.
Proof.
  destruct (proj2 (g_vectors_ok ex_cell 1 1 3)) as [G HG]; [lia|]. assert (HA : m3det ex_cell <> 0%R) by (unfold ex_cell; lin3; lra).
  exists G. split; [exact HG|]. split; [exact HA|]. exact (proj1 (g_vectors_dual ex_cell 1 1 3 G HA HG)).
Qed.
Definition ex_D : tensor C := mkT [2; 1; 1; 3]%nat (fun i => if Nat.eqb (nth 3 i 0%nat) 1 then RtoC 1 else RtoC 0).
Definition ex_pos := [V3 0 0 0; V3 1 1 (1/2)]%R.
Definition ex_charge := [1; 3]%R.
Definition ex_lib : xclib := fun _ _ => Some (fun l _ => - nth 0 l 0)%R.
Definition ex_vg : list string -> tensor R -> tensor R -> tensor v3 -> res (tensor C) := fun _ _ _ _ => Err ValueErr.


(** C39 *)
Theorem C39_poisson : forall A n1 n2 n3 G D sp ks, let ns := [n1; n2; n3] in
  m3det A <> 0%R -> g_vectors A ns = Ok G -> tshape D = sp :: ns ->
  exists v, hartree_reciprocal D G ks = Ok v /\ tshape v = ns /\
    tget v [0; 0; 0]%nat = RtoC 0 /\
    (forall x, inb x ns -> ~ at_origin x -> RtoC (norm2 (tget G x)) * tget v x = RtoC (if ks then 4 * PI else 2 * PI) * spin_sum D x).
Proof. exact poisson. Qed.
Print Assumptions C39_poisson.
Example C39_example : ~ at_origin [0; 0; 1]%nat /\ inb [0; 0; 1]%nat [1; 1; 3]%nat /\ spin_sum ex_D [0; 0; 1]%nat = RtoC 2%R.
Proof.
  split; [intros H; inversion H as [|a l Ha H1]; subst; inversion H1 as [|b l' Hb H2]; subst; inversion H2; subst; discriminate|].
  split; [repeat constructor|]. unfold spin_sum. cbn. apply injective_projections; cbn; ring.
Qed.


(** C40 *)
Theorem C40_hartree_energy : forall A n1 n2 n3 G D sp vol ks, let ns := [n1; n2; n3] in let N := INR (nprod ns) in
  m3det A <> 0%R -> g_vectors A ns = Ok G -> tshape D = sp :: ns -> (0 < vol)%R ->
  e_hartree D G vol ks = Ok ((if ks then 4 * PI else 2 * PI) * vol / (N * N) * coulomb_sum ns G D)%R /\
  (0 <= coulomb_sum ns G D)%R /\
  (coulomb_sum ns G D = 0%R <-> forall x, inb x ns -> ~ at_origin x -> spin_sum D x = RtoC 0).
Proof. exact hartree_energy. Qed.
Print Assumptions C40_hartree_energy.

Theorem C40_hartree_facts : forall A n1 n2 n3 G D sp vol, let ns := [n1; n2; n3] in
  m3det A <> 0%R -> g_vectors A ns = Ok G -> tshape D = sp :: ns -> (0 < vol)%R ->
  exists e, e_hartree D G vol false = Ok e /\ (0 <= e)%R /\ e_hartree D G vol true = Ok (2 * e)%R /\
    (e = 0%R <-> forall x, inb x ns -> ~ at_origin x -> spin_sum D x = RtoC 0) /\
    (forall D' sp' a, tshape D' = sp' :: ns -> (forall x, inb x ns -> ~ at_origin x -> spin_sum D' x = RtoC a * spin_sum D x) ->
       e_hartree D' G vol false = Ok (a * a * e)%R).
Proof. exact hartree_energy_facts. Qed.
Print Assumptions C40_hartree_facts.
Example C40_example : exists G e, g_vectors ex_cell [1; 1; 3]%nat = Ok G /\ e_hartree ex_D G 8 false = Ok e /\ (0 < e)%R.
Proof.
  destruct ex_G as (G & HG & HA & _). destruct (hartree_energy_facts ex_cell 1 1 3 G ex_D 2 8 HA HG eq_refl ltac:(lra)) as (e & He & Hp & _ & Hz & _).
  exists G, e. split; [exact HG|]. split; [exact He|]. destruct Hp as [Hp|Hp]; [exact Hp|]. exfalso.
  destruct C39_example as (H1 & H2 & H3). pose proof (proj1 Hz (eq_sym Hp) _ H2 H1) as K. rewrite H3 in K. injection K. lra.
Qed.


(** C41 *)
Theorem C41_hartree_expansion : forall A n1 n2 n3 G D E sp vol t, let ns := [n1; n2; n3] in
  m3det A <> 0%R -> g_vectors A ns = Ok G -> tshape D = sp :: ns -> tshape E = sp :: ns -> (0 < vol)%R ->
  exists v e b e', hartree_reciprocal D G true = Ok v /\ e_hartree D G vol false = Ok e /\ reciprocal_braket (expand0 v) E vol = Ok b /\
    e_hartree E G vol false = Ok e' /\
    e_hartree (mkT (sp :: ns) (fun i => tget D i + RtoC t * tget E i)) G vol false = Ok (e + t * b + t * t * e')%R.
Proof. exact hartree_expand. Qed.
Print Assumptions C41_hartree_expansion.

Theorem C41_hartree_derivative : forall A n1 n2 n3 G D E sp vol, let ns := [n1; n2; n3] in
  m3det A <> 0%R -> g_vectors A ns = Ok G -> tshape D = sp :: ns -> tshape E = sp :: ns -> (0 < vol)%R ->
  exists v b (En : R -> R), hartree_reciprocal D G true = Ok v /\ reciprocal_braket (expand0 v) E vol = Ok b /\
    (forall t, e_hartree (mkT (sp :: ns) (fun i => tget D i + RtoC t * tget E i)%C) G vol false = Ok (En t)) /\
    is_derive En 0 b.
Proof. exact hartree_derivative. Qed.
Print Assumptions C41_hartree_derivative.

(** C42 *)
Theorem C42_potential_hartree_raises : forall D G ks, hartree_real D G ks = Err AssertionErr.
Proof. exact hartree_real_raises. Qed.
Print Assumptions C42_potential_hartree_raises.

(** C43 *)
Theorem C43_formula : forall A n1 n2 n3 G pos ch, let ns := [n1; n2; n3] in
  m3det A <> 0%R -> g_vectors A ns = Ok G -> length ch = length pos ->
  exists v, external_reciprocal pos ch G (volume A) = Ok v /\ tshape v = ns /\ tget v [0; 0; 0]%nat = RtoC 0 /\
    forall x, inb x ns -> ~ at_origin x ->
      tget v x = RtoC (- (4 * PI * INR (nprod ns) / volume A) / (norm2 (tget G x) + / 10 ^ 10))%R * structure_factor ch pos (tget G x).
Proof. exact external_formula. Qed.
Print Assumptions C43_formula.

Theorem C43_regulariser : forall A n1 n2 n3 G x, let ns := [n1; n2; n3] in
  m3det A <> 0%R -> g_vectors A ns = Ok G -> inb x ns -> ~ at_origin x ->
  let g2 := norm2 (tget G x) in (1 / g2 - 1 / (g2 + / 10 ^ 10) = (1 / g2) * (/ 10 ^ 10 / (g2 + / 10 ^ 10)))%R /\ (0 < g2)%R.
Proof. exact external_regulariser. Qed.
Print Assumptions C43_regulariser.

Theorem C43_atom_order : forall A n1 n2 n3 G pos ch pos' ch' vol, m3det A <> 0%R -> g_vectors A [n1; n2; n3] = Ok G ->
  length ch = length pos -> length ch' = length pos' -> Permutation (combine ch pos) (combine ch' pos') ->
  exists u v, external_reciprocal pos ch G vol = Ok u /\ external_reciprocal pos' ch' G vol = Ok v /\ teq u v.
Proof. exact external_perm. Qed.
Print Assumptions C43_atom_order.

Theorem C43_lattice_periodic : forall A n1 n2 n3 G pos ch shifts vol, m3det A <> 0%R -> g_vectors A [n1; n2; n3] = Ok G ->
  length ch = length pos -> length shifts = length pos -> Forall (in_lattice A) shifts ->
  exists u v, external_reciprocal pos ch G vol = Ok u /\
    external_reciprocal (map (fun p => vadd (fst p) (snd p)) (combine pos shifts)) ch G vol = Ok v /\ teq u v.
Proof. exact external_lattice. Qed.
Print Assumptions C43_lattice_periodic.

Theorem C43_shift : forall A n1 n2 n3 G pos ch t vol, m3det A <> 0%R -> g_vectors A [n1; n2; n3] = Ok G -> length ch = length pos ->
  exists u v, external_reciprocal pos ch G vol = Ok u /\ external_reciprocal (map (fun p => vadd p t) pos) ch G vol = Ok v /\
    tshape u = tshape v /\ forall x, inb x [n1; n2; n3] -> tget v x = cis (- dot (tget G x) t) * tget u x.
Proof. exact external_shift. Qed.
Print Assumptions C43_shift.

Theorem C43_linear_in_charges : forall A n1 n2 n3 G pos ch1 ch2 a b vol, m3det A <> 0%R -> g_vectors A [n1; n2; n3] = Ok G ->
  length ch1 = length pos -> length ch2 = length pos ->
  exists u1 u2 v, external_reciprocal pos ch1 G vol = Ok u1 /\ external_reciprocal pos ch2 G vol = Ok u2 /\
    external_reciprocal pos (map (fun p => a * fst p + b * snd p)%R (combine ch1 ch2)) G vol = Ok v /\
    tshape v = [n1; n2; n3] /\ forall x, inb x [n1; n2; n3] -> tget v x = RtoC a * tget u1 x + RtoC b * tget u2 x.
Proof. exact external_linear. Qed.
Print Assumptions C43_linear_in_charges.

Theorem C43_count_mismatch_raises : forall pos ch G vol, (3 = length (tshape G))%nat -> length ch <> length pos -> length ch <> 1%nat -> length pos <> 1%nat ->
  external_reciprocal pos ch G vol = Err ValueErr.
Proof. exact external_mismatch. Qed.
Print Assumptions C43_count_mismatch_raises.
Example C43_example : length ex_charge = length ex_pos /\ Forall (in_lattice ex_cell) [vzero; m1 ex_cell] /\
  Permutation (combine ex_charge ex_pos) (combine [3; 1]%R [V3 1 1 (1/2); V3 0 0 0]%R).
Proof.
  split; [reflexivity|]. split.
  - repeat constructor; [exists 0%Z, 0%Z, 0%Z|exists 0%Z, 1%Z, 0%Z]; unfold ex_cell; lin3; ring.
  - apply perm_swap.
Qed.


(** C44 *)
Theorem C44_joint_translation : forall A n1 n2 n3 G pos ch t D D' sp vol, let ns := [n1; n2; n3] in
  m3det A <> 0%R -> g_vectors A ns = Ok G -> length ch = length pos -> vol <> 0%R -> tshape D = sp :: ns -> tshape D' = sp :: ns ->
  (forall s x, (s < sp)%nat -> inb x ns -> tget D' (s :: x) = tget D (s :: x) * cis (- dot (tget G x) t)) ->
  exists e, e_external D pos ch G vol = Ok e /\ e_external D' (map (fun p => vadd p t) pos) ch G vol = Ok e.
Proof. exact e_external_shift. Qed.
Print Assumptions C44_joint_translation.

(** C45 *)
Theorem C45_parts : forall xcd dens pos ch G vol xt ks sp n1 n2 n3 vxc, let ns := [n1; n2; n3] in
  tshape dens = sp :: ns -> tshape G = ns -> length ch = length pos -> xcd dens G ks xt = Ok vxc ->
  exists D vhr ver vh ve, fftn3 (tmap RtoC dens) = Ok D /\ hartree_reciprocal D G ks = Ok vhr /\ ifftn3 vhr = Ok vh /\
    external_reciprocal pos ch G vol = Ok ver /\ ifftn3 ver = Ok ve /\ tshape vh = ns /\ tshape ve = ns /\ tshape D = sp :: ns /\
    (forall s g, tget D (s :: g) = dft ns (fun x => RtoC (tget dens (s :: x))) g) /\
    (forall x, tget vh x = idft ns (tget vhr) x) /\ (forall x, tget ve x = idft ns (tget ver) x) /\
    effective_split xcd dens pos ch G vol xt ks = Ok (vh, ve, vxc).
Proof. exact effective_parts. Qed.
Print Assumptions C45_parts.

Theorem C45_sum_of_parts : forall xcd dens pos ch G vol xt ks sp n1 n2 n3 vxc, let ns := [n1; n2; n3] in
  tshape dens = sp :: ns -> tshape G = ns -> length ch = length pos -> xcd dens G ks xt = Ok vxc -> tshape vxc = sp :: ns \/ tshape vxc = ns ->
  exists vh ve v, effective_split xcd dens pos ch G vol xt ks = Ok (vh, ve, vxc) /\ tshape vh = ns /\ tshape ve = ns /\
    effective_sum xcd dens pos ch G vol xt ks = Ok v /\
    ((tshape vxc = sp :: ns /\ tshape v = sp :: ns /\ forall s x, (s < sp)%nat -> inb x ns -> tget v (s :: x) = tget vh x + tget ve x + tget vxc (s :: x)) \/
     (tshape vxc = ns /\ tshape v = 1%nat :: ns /\ forall x, inb x ns -> tget v (0%nat :: x) = tget vh x + tget ve x + tget vxc x)).
Proof. exact effective_adds. Qed.
Print Assumptions C45_sum_of_parts.

Theorem C45_density_without_spin_axis : forall xcd dens pos ch G vol xt ks n1 n2 n3, tshape dens = [n1; n2; n3] ->
  effective_split xcd dens pos ch G vol xt ks = effective_split xcd (expand0 dens) pos ch G vol xt ks.
Proof. exact effective_rank3. Qed.
Print Assumptions C45_density_without_spin_axis.

(** C46 *)
Theorem C46_formula_and_sign : forall G kpts c sp B n1 n2 n3, let ns := [n1; n2; n3] in let K := length kpts in
  tshape G = ns -> tshape c = [sp; K; B] ++ ns ->
  (forall occ, tshape occ = [sp; K; B] -> exists t, e_kinetic G kpts c (Some occ) = Ok t /\ tshape t = [] /\
     tget t [] = sumR (indices ([sp; K; B] ++ ns)) (fun i =>
       tget occ (firstn 3 i) * Cnorm2 (tget c i) * (norm2 (vadd (tget G (skipn 3 i)) (nth (nth 1 i 0%nat) kpts vzero)) / 2))%R) /\
  (forall occ t, tshape occ = [sp; K; B] -> (forall i, inb i [sp; K; B] -> (0 <= tget occ i)%R) -> e_kinetic G kpts c (Some occ) = Ok t ->
     (0 <= tget t [])%R /\
     (tget t [] = 0%R <-> forall s k b g, (s < sp)%nat -> (k < K)%nat -> (b < B)%nat -> inb g ns ->
         tget occ [s; k; b] <> 0%R -> tget c ([s; k; b] ++ g) <> RtoC 0 -> vadd (tget G g) (nth k kpts vzero) = vzero)).
Proof. exact kinetic_facts. Qed.
Print Assumptions C46_formula_and_sign.

Theorem C46_linear_in_occupation : forall G kpts c sp B n1 n2 n3 o1 o2 a b, let ns := [n1; n2; n3] in let K := length kpts in
  tshape G = ns -> tshape c = [sp; K; B] ++ ns -> tshape o1 = [sp; K; B] -> tshape o2 = [sp; K; B] ->
  exists t1 t2 t, e_kinetic G kpts c (Some o1) = Ok t1 /\ e_kinetic G kpts c (Some o2) = Ok t2 /\
    e_kinetic G kpts c (Some (mkT [sp; K; B] (fun i => a * tget o1 i + b * tget o2 i)%R)) = Ok t /\
    tget t [] = (a * tget t1 [] + b * tget t2 [])%R.
Proof. exact kinetic_linear. Qed.
Print Assumptions C46_linear_in_occupation.

Theorem C46_agrees_with_expectation : forall G kpts c sp B n1 n2 n3 vol, let ns := [n1; n2; n3] in let K := length kpts in
  tshape G = ns -> tshape c = [sp; K; B] ++ ns ->
  exists t E, e_kinetic G kpts c None = Ok t /\ expectation c (tmap RtoC (kinetic_operator G (Some kpts))) vol None true KineticMode = Ok E /\
    tshape t = tshape E /\ forall i, inb i [sp; K; B] -> tget E i = RtoC (tget t i).
Proof. exact kinetic_as_expectation. Qed.
Print Assumptions C46_agrees_with_expectation.

(** C47 *)
Theorem C47_total_is_sum : forall xcd c pos ch G kpts vol occ ks xt e, total_energy xcd c pos ch G kpts vol occ ks xt = Ok e <->
  exists ek ee eh ex, total_energy_split xcd c pos ch G kpts vol occ ks xt = Ok (ek, ee, eh, ex) /\ e = (ek + ee + eh + ex)%R.
Proof. exact total_split. Qed.
Print Assumptions C47_total_is_sum.

Theorem C47_parts_computed_separately : forall xcd c pos ch G kpts vol occ ks xt ek ee eh ex sp K B n1 n2 n3, let ns := [n1; n2; n3] in
  tshape c = [sp; K; B] ++ ns -> tshape occ = [sp; K; B] ->
  total_energy_split xcd c pos ch G kpts vol (Some occ) ks xt = Ok (ek, ee, eh, ex) ->
  exists d0 d D t, density_grid c vol (Some occ) = Ok d0 /\ teq d d0 /\ fftn3 (tmap RtoC d) = Ok D /\
    e_kinetic G kpts c (Some occ) = Ok t /\ ek = tget t [] /\ e_external D pos ch G vol = Ok ee /\ e_hartree D G vol ks = Ok eh /\ e_xc xcd d G vol xt ks = Ok ex.
Proof. exact total_separately. Qed.
Print Assumptions C47_parts_computed_separately.

Theorem C47_default_occupation : forall xcd c pos ch G kpts vol ks xt, total_energy_split xcd c pos ch G kpts vol None ks xt =
  total_energy_split xcd c pos ch G kpts vol (Some (mkT (firstn 3 (tshape c)) (fun _ => 1%R))) ks xt.
Proof. exact total_default_occ. Qed.
Print Assumptions C47_default_occupation.

Theorem C47_returns : forall xcd A c pos ch G kpts vol occ ks xt sp B n1 n2 n3, let ns := [n1; n2; n3] in let K := length kpts in
  m3det A <> 0 -> 0 < vol -> g_vectors A ns = Ok G -> length ch = length pos ->
  tshape c = [sp; K; B] ++ ns -> tshape occ = [sp; K; B] ->
  (forall d, tshape d = sp :: ns -> exists e, xcd d G ks xt = Ok (tmap RtoC e) /\ (tshape e = ns \/ tshape e = sp :: ns)) ->
  exists e, total_energy xcd c pos ch G kpts vol (Some occ) ks xt = Ok e.
Proof. exact total_returns. Qed.
Print Assumptions C47_returns.

Theorem C47_returns_lda : forall lib vg A c pos ch G kpts vol occ ks xt sp B n1 n2 n3, let ns := [n1; n2; n3] in let K := length kpts in
  (sp = 1 \/ sp = 2)%nat -> contains "gga" xt = false -> (forall t b, In t (split_on "+" xt) -> lib t b <> None) ->
  m3det A <> 0 -> 0 < vol -> g_vectors A ns = Ok G -> length ch = length pos ->
  tshape c = [sp; K; B] ++ ns -> tshape occ = [sp; K; B] ->
  exists e, total_energy (xc_density lib vg) c pos ch G kpts vol (Some occ) ks xt = Ok e.
Proof. exact total_returns_lda. Qed.
Print Assumptions C47_returns_lda.
Example C47_example : exists G e, g_vectors ex_cell [1; 1; 3]%nat = Ok G /\
  total_energy (xc_density ex_lib ex_vg) ex_c ex_pos ex_charge G [V3 0 0 1]%R 8 (Some ex_occ) false "lda_x+lda_c_pw" = Ok e.
Proof.
  destruct ex_G as (G & HG & HA & _). exists G.
  destruct (total_returns_lda ex_lib ex_vg ex_cell ex_c ex_pos ex_charge G [V3 0 0 1]%R 8 ex_occ false "lda_x+lda_c_pw" 1 1 1 1 3) as (e & He);
    [left; reflexivity|reflexivity|discriminate|exact HA|lra|exact HG|reflexivity|reflexivity|reflexivity|].
  exists e. split; [exact HG|exact He].
Qed.


(** C48 *)
Theorem C48_band_energy_raises : forall xcd c pos ch G kpts vol occ ks xt, raises (band_energy xcd c pos ch G kpts vol occ ks xt).
Proof. exact band_energy_raises. Qed.
Print Assumptions C48_band_energy_raises.

(** C82 *)
Theorem C82_external_real_on_odd_grids : forall A n1 n2 n3 G pos ch vol, let ns := [n1; n2; n3] in
  g_vectors A ns = Ok G -> Nat.odd n1 = true -> Nat.odd n2 = true -> Nat.odd n3 = true -> length ch = length pos ->
  exists v, external_real pos ch G vol = Ok v /\ tshape v = ns /\ real_valued v.
Proof. exact external_real_odd. Qed.
Print Assumptions C82_external_real_on_odd_grids.

Theorem C82_effective_real_on_odd_grids : forall xcd dens A pos ch G vol xt ks sp n1 n2 n3 vxc, let ns := [n1; n2; n3] in
  m3det A <> 0%R -> g_vectors A ns = Ok G -> Nat.odd n1 = true -> Nat.odd n2 = true -> Nat.odd n3 = true ->
  tshape dens = sp :: ns -> length ch = length pos -> xcd dens G ks xt = Ok vxc ->
  exists vh ve, effective_split xcd dens pos ch G vol xt ks = Ok (vh, ve, vxc) /\ real_valued vh /\ real_valued ve.
Proof. exact effective_real_odd. Qed.
Print Assumptions C82_effective_real_on_odd_grids.

Theorem C82_even_grid_refuted : exists A G v, m3det A <> 0%R /\ g_vectors A [2; 1; 1]%nat = Ok G /\
  external_real [V3 (1/4) 0 0] [1%R] G 1 = Ok v /\ ~ real_valued v.
Proof. exact external_even_complex. Qed.
Print Assumptions C82_even_grid_refuted.

(** C83 *)
Theorem C83_gauge_invariance : forall xcd c c' pos ch G kpts vol occ ks xt sp B n1 n2 n3 (U : nat -> nat -> nat -> nat -> C), let ns := [n1; n2; n3] in let K := length kpts in
  xc_local xcd ks xt -> tshape G = ns -> tshape c = [sp; K; B] ++ ns -> tshape c' = [sp; K; B] ++ ns -> tshape occ = [sp; K; B] ->
  (forall s k b1 b2, (s < sp)%nat -> (k < K)%nat -> (b1 < B)%nat -> (b2 < B)%nat ->
     sumC (seq 0 B) (fun b => Cconj (U s k b b1) * U s k b b2) = RtoC (if Nat.eqb b1 b2 then 1 else 0)) ->
  (forall s k b b', (s < sp)%nat -> (k < K)%nat -> (b < B)%nat -> (b' < B)%nat -> U s k b b' <> RtoC 0 -> tget occ [s; k; b] = tget occ [s; k; b']) ->
  (forall s k b g, (s < sp)%nat -> (k < K)%nat -> (b < B)%nat -> inb g ns ->
     tget c' ([s; k; b] ++ g) = sumC (seq 0 B) (fun b' => U s k b b' * tget c ([s; k; b'] ++ g))) ->
  total_energy_split xcd c' pos ch G kpts vol (Some occ) ks xt = total_energy_split xcd c pos ch G kpts vol (Some occ) ks xt.
Proof. exact total_gauge. Qed.
Print Assumptions C83_gauge_invariance.

Theorem C83_functionals_are_local : forall lib vg ks xt, contains "gga" xt = false \/ ks = false -> xc_local (xc_density lib vg) ks xt.
Proof. exact xc_density_local. Qed.
Print Assumptions C83_functionals_are_local.

(** C84 *)
Theorem C84_translation_invariance : forall xcd A c c' pos ch G kpts vol occ ks xt sp B n1 n2 n3 t1 t2 t3, let ns := [n1; n2; n3] in let K := length kpts in
  xc_translates xcd ks xt -> m3det A <> 0%R -> (0 < vol)%R -> g_vectors A ns = Ok G -> length ch = length pos ->
  tshape c = [sp; K; B] ++ ns -> tshape c' = [sp; K; B] ++ ns -> tshape occ = [sp; K; B] ->
  (forall b g, inb b [sp; K; B] -> inb g ns -> tget c' (b ++ g) = tget c (b ++ g) * cis (- dot (tget G g) (grid_step A n1 n2 n3 t1 t2 t3))) ->
  total_energy_split xcd c' (map (fun p => vadd p (grid_step A n1 n2 n3 t1 t2 t3)) pos) ch G kpts vol (Some occ) ks xt =
  total_energy_split xcd c pos ch G kpts vol (Some occ) ks xt.
Proof. exact total_shift. Qed.
Print Assumptions C84_translation_invariance.

Theorem C84_functionals_translate : forall lib vg ks xt, contains "gga" xt = false \/ ks = false -> xc_translates (xc_density lib vg) ks xt.
Proof. exact xc_density_translates. Qed.
Print Assumptions C84_functionals_translate.

(** Two bands with equal occupation mixed by a rotation meet the hypotheses on U. *)
Definition ex_U (s k b b' : nat) : C := RtoC (if Nat.eqb b b' then 3 / 5 else if Nat.ltb b b' then 4 / 5 else - (4 / 5))%R.
Example C83_example : (forall s k b1 b2, (b1 < 2)%nat -> (b2 < 2)%nat ->
  sumC (seq 0 2) (fun b => Cconj (ex_U s k b b1) * ex_U s k b b2) = RtoC (if Nat.eqb b1 b2 then 1 else 0)%R) /\ xc_local (xc_density ex_lib ex_vg) true "lda_x".
Proof.
  split; [|apply xc_density_local; left; reflexivity].
  intros s k b1 b2 H1 H2. destruct b1 as [|[|b1]]; [| |lia]; (destruct b2 as [|[|b2]]; [| |lia]); cbn; unfold ex_U; cbn; apply injective_projections; cbn; field.
Qed.
Example C84_example : xc_translates (xc_density ex_lib ex_vg) false "gga_x_pbe" /\
  grid_step ex_cell 1 1 3 0 0 1 = V3 0 0 (2 / 3)%R.
Proof. split; [apply xc_density_translates; right; reflexivity|]. unfold grid_step, ex_cell. lin3; cbn [INR]; lra. Qed.
