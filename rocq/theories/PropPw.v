(** Plane waves, orbitals and densities: properties C30-C38, C80, C81. *)
From Coq Require Import Reals Lra Lia.
From Coquelicot Require Import Coquelicot.
From Coq Require Import Ascii String List Arith ZArith.
From Verif Require Import Base Sums Tensor DFT GridModel PadModel PadProofs Lin3 VecModel OccSpec PwModel PwSpec PwProofs PwGrad.
Import ListNotations.
Local Open Scope R_scope.

(** C30 *)
Theorem C30_coeff_orthonormal : forall cqr re im mask sp K g B, complex_qr cqr ->
  tshape re = [sp; K; g; B] -> tshape im = [sp; K; g; B] -> length (mask_positions mask) = g ->
  exists c, pw_coeff cqr re im mask = Ok c /\ tshape c = [sp; K; Nat.min g B] ++ tshape mask /\
    orthonormal_bands [sp; K] (Nat.min g B) (tshape mask) c /\
    (forall b i, inb b [sp; K; Nat.min g B] -> inb i (tshape mask) -> tget mask i = false -> tget c (b ++ i) = RtoC 0).
Proof. exact coeff_orthonormal. Qed.
Print Assumptions C30_coeff_orthonormal.
Theorem C30_coeff_of_param_init : forall cqr rnd B K mask r, complex_qr cqr ->
  (forall sh, tshape (fst (rnd sh)) = sh /\ tshape (snd (rnd sh)) = sh) ->
  (B <= length (mask_positions mask))%nat ->
  let p := pw_param_init rnd B K mask r in
  exists c, pw_coeff cqr (fst p) (snd p) mask = Ok c /\ tshape c = [num_spin r; K; B] ++ tshape mask /\
    orthonormal_bands [num_spin r; K] B (tshape mask) c.
Proof. exact coeff_of_init. Qed.
Print Assumptions C30_coeff_of_param_init.
Example C30_example : complex_qr id_qr /\
  let mask := mkT [1; 1; 5]%nat (fun i => negb (Nat.eqb (nth 2 i 0%nat) 2)) in length (mask_positions mask) = 4%nat.
Proof. split; [exact id_qr_ok|reflexivity]. Qed.

(** C31 *)
Theorem C31_inner_products : forall c vol bs n1 n2 n3 w, let ns := [n1; n2; n3] in
  Forall (fun n => (0 < n)%nat) ns -> 0 < vol -> tshape c = bs ++ ns -> wave_grid c vol = Ok w ->
  tshape w = bs ++ ns /\
  forall i j, inb i bs -> inb j bs -> (RtoC (vol / INR (nprod ns)) * inner ns w i j)%C = inner ns c i j.
Proof. exact wave_inner. Qed.
Print Assumptions C31_inner_products.
Theorem C31_returns_iff : forall c vol, (exists w, wave_grid c vol = Ok w) <-> (3 <= ndim c)%nat.
Proof. exact wave_returns. Qed.
Print Assumptions C31_returns_iff.

(** one band, all weight on frequency 1 of a 3-point axis, two electrons *)
Definition ex_c : tensor C := mkT [1; 1; 1; 1; 1; 3]%nat (fun i => if Nat.eqb (nth 5 i 0%nat) 1 then RtoC 1 else RtoC 0).
Definition ex_occ : tensor R := mkT [1; 1; 1]%nat (fun _ => 2).
Example ex_orthonormal : orthonormal_bands [1; 1]%nat 1 [1; 1; 3]%nat ex_c.
Proof.
  intros b k k' Hb Hk Hk'. assert (k = 0 /\ k' = 0)%nat as [-> ->] by lia.
  inversion Hb as [|a ? b' ? Ha Hb']; subst. inversion Hb' as [|a' ? b'' ? Ha' Hb'']; subst. inversion Hb''; subst.
  assert (a = 0 /\ a' = 0)%nat as [-> ->] by lia. unfold inner. simpl. apply injective_projections; simpl; ring.
Qed.
Example C31_example : Forall (fun n => (0 < n)%nat) [1; 1; 3]%nat /\ exists w, wave_grid ex_c 8 = Ok w.
Proof. split; [repeat constructor|]. apply wave_returns. simpl. repeat constructor. Qed.

(** C32 *)
Theorem C32_density : forall c vol occ sp K B n1 n2 n3 d, let ns := [n1; n2; n3] in
  Forall (fun n => (0 < n)%nat) ns -> 0 < vol -> tshape c = [sp; K; B] ++ ns -> tshape occ = [sp; K; B] ->
  density_grid c vol (Some occ) = Ok d ->
  tshape d = sp :: ns /\
  ((forall i, inb i [sp; K; B] -> 0 <= tget occ i) -> forall i, inb i (tshape d) -> 0 <= tget d i) /\
  (orthonormal_bands [sp; K] B ns c -> forall s, (s < sp)%nat ->
     vol / INR (nprod ns) * sumR (indices ns) (fun x => tget d (s :: x)) = channel occ s).
Proof. exact density_charge. Qed.
Print Assumptions C32_density.
Theorem C32_occupation_mismatch_raises : forall c vol occ sp K B n1 n2 n3,
  tshape c = [sp; K; B; n1; n2; n3] -> bshape [sp; K; B] (tshape occ) = None ->
  density_grid c vol (Some occ) = Err ValueErr.
Proof. exact density_mismatch. Qed.
Print Assumptions C32_occupation_mismatch_raises.
Example C32_example : tshape ex_c = [1; 1; 1]%nat ++ [1; 1; 3]%nat /\ tshape ex_occ = [1; 1; 1]%nat /\
  (exists d, density_grid ex_c 8 (Some ex_occ) = Ok d) /\ bshape [1; 4; 3]%nat [1; 4; 2]%nat = None.
Proof. repeat split. destruct (density_eq ex_c 8 ex_occ 1 1 1 1 1 3 eq_refl eq_refl) as (d & Hd & _). exists d. exact Hd. Qed.

(** C33 *)
Theorem C33_unitary_mixing : forall c c' vol occ sp K B n1 n2 n3 (U : nat -> nat -> nat -> nat -> C) d, let ns := [n1; n2; n3] in
  tshape c = [sp; K; B] ++ ns -> tshape c' = [sp; K; B] ++ ns -> tshape occ = [sp; K; B] ->
  (forall s k b1 b2, (s < sp)%nat -> (k < K)%nat -> (b1 < B)%nat -> (b2 < B)%nat ->
     sumC (seq 0 B) (fun b => (Cconj (U s k b b1) * U s k b b2)%C) = RtoC (if Nat.eqb b1 b2 then 1 else 0)) ->
  (forall s k b b', (s < sp)%nat -> (k < K)%nat -> (b < B)%nat -> (b' < B)%nat -> U s k b b' <> RtoC 0 -> tget occ [s; k; b] = tget occ [s; k; b']) ->
  (forall s k b g, (s < sp)%nat -> (k < K)%nat -> (b < B)%nat -> inb g ns ->
     tget c' ([s; k; b] ++ g) = sumC (seq 0 B) (fun b' => (U s k b b' * tget c ([s; k; b'] ++ g))%C)) ->
  density_grid c vol (Some occ) = Ok d -> exists d', density_grid c' vol (Some occ) = Ok d' /\ teq d' d.
Proof. exact density_gauge. Qed.
Print Assumptions C33_unitary_mixing.
Theorem C33_phases : forall c c' vol occ sp K B n1 n2 n3 (t : nat -> nat -> nat -> R) d, let ns := [n1; n2; n3] in
  tshape c = [sp; K; B] ++ ns -> tshape c' = [sp; K; B] ++ ns -> tshape occ = [sp; K; B] ->
  (forall s k b g, (s < sp)%nat -> (k < K)%nat -> (b < B)%nat -> inb g ns ->
     tget c' ([s; k; b] ++ g) = (cis (t s k b) * tget c ([s; k; b] ++ g))%C) ->
  density_grid c vol (Some occ) = Ok d -> exists d', density_grid c' vol (Some occ) = Ok d' /\ teq d' d.
Proof. exact density_phase. Qed.
Print Assumptions C33_phases.
(** swapping two bands of equal occupation *)
Example C33_example : let U := fun (_ _ b b' : nat) => if Nat.eqb (b + b') 1 then RtoC 1 else RtoC 0 in
  forall s k b1 b2, (s < 1)%nat -> (k < 1)%nat -> (b1 < 2)%nat -> (b2 < 2)%nat ->
     sumC (seq 0 2) (fun b => (Cconj (U s k b b1) * U s k b b2)%C) = RtoC (if Nat.eqb b1 b2 then 1 else 0).
Proof.
  intros U s k b1 b2 _ _ H1 H2. destruct b1 as [|[|]]; destruct b2 as [|[|]]; try lia; simpl; apply injective_projections; simpl; ring.
Qed.

(** C34 *)
Theorem C34_reciprocal_density : forall c vol occ sp K B n1 n2 n3 d D, let ns := [n1; n2; n3] in
  Forall (fun n => (0 < n)%nat) ns -> 0 < vol -> tshape c = [sp; K; B] ++ ns -> tshape occ = [sp; K; B] ->
  density_grid c vol (Some occ) = Ok d -> density_grid_reciprocal c vol (Some occ) = Ok D ->
  tshape D = sp :: ns /\
  (orthonormal_bands [sp; K] B ns c -> forall s, (s < sp)%nat -> tget D [s; 0; 0; 0]%nat = RtoC (INR (nprod ns) / vol * channel occ s)) /\
  (forall s g, (s < sp)%nat -> inb g ns -> tget D (s :: neg_index ns g) = Cconj (tget D (s :: g))) /\
  (exists d', ifftn3 D = Ok d' /\ teq d' (tmap RtoC d)).
Proof. exact recip_props. Qed.
Print Assumptions C34_reciprocal_density.
Example C34_example : (exists D, density_grid_reciprocal ex_c 8 (Some ex_occ) = Ok D) /\ neg_index [4; 5; 6]%nat [0; 2; 5]%nat = [0; 3; 1]%nat.
Proof. split; [|reflexivity]. destruct (recip_eq ex_c 8 ex_occ 1 1 1 1 1 3 eq_refl eq_refl) as (d & D & _ & HD & _). exists D. exact HD. Qed.

(** C35 *)
Theorem C35_autocorrelation : forall c vol occ sp K B n1 n2 n3 m D, let ns := [n1; n2; n3] in
  Forall (fun n => (1 <= n)%nat /\ n <> 2%nat) ns -> 0 < vol ->
  tshape c = [sp; K; B] ++ ns -> tshape occ = [sp; K; B] ->
  cubic_mask (map Z.of_nat ns) = Ok m ->
  (forall b g, inb b [sp; K; B] -> inb g ns -> m (zs g) = false -> tget c (b ++ g) = RtoC 0) ->
  density_grid_reciprocal c vol (Some occ) = Ok D ->
  forall s d, (s < sp)%nat -> inb d ns ->
  tget D (s :: d) = (RtoC (INR (nprod ns) / vol) *
    sumC (seq 0 K) (fun k => sumC (seq 0 B) (fun b => RtoC (tget occ [s; k; b]) *
      sumC (indices ns) (fun g => sumC (indices ns) (fun h =>
        if list_eq_dec Z.eq_dec (zsub (freqs ns h) (freqs ns g)) (freqs ns d)
        then Cconj (tget c ([s; k; b] ++ g)) * tget c ([s; k; b] ++ h) else RtoC 0)))))%C.
Proof. exact recip_autocorrelation. Qed.
Print Assumptions C35_autocorrelation.
Example C35_example : exists m, cubic_mask (map Z.of_nat [1; 1; 5]%nat) = Ok m /\
  m (zs [0; 0; 1]%nat) = true /\ m (zs [0; 0; 2]%nat) = false /\ freqs [1; 1; 5]%nat [0; 0; 4]%nat = [0; 0; -1]%Z.
Proof. eexists. repeat split. Qed.

(** C36 *)
Theorem C36_shift : forall c c' vol occ sp K B n1 n2 n3 t d, let ns := [n1; n2; n3] in
  tshape c = [sp; K; B] ++ ns -> tshape c' = [sp; K; B] ++ ns -> tshape occ = [sp; K; B] -> length t = 3%nat ->
  (forall b g, inb b [sp; K; B] -> inb g ns -> tget c' (b ++ g) = (tget c (b ++ g) * cis (- (2 * PI * phase ns (zs g) t)))%C) ->
  density_grid c vol (Some occ) = Ok d ->
  exists d', density_grid c' vol (Some occ) = Ok d' /\ tshape d' = tshape d /\
    forall s x, (s < sp)%nat -> inb x ns -> inb (shift_index ns x t) ns /\ tget d' (s :: x) = tget d (s :: shift_index ns x t).
Proof. exact density_shift. Qed.
Print Assumptions C36_shift.
Example C36_example : shift_index [4; 5; 6]%nat [1; 0; 5]%nat [3; 1; -2]%Z = [2; 4; 1]%nat.
Proof. reflexivity. Qed.

(** C37 *)
Theorem C37_gradient : forall c A sp K B n1 n2 n3 r1 r2 r3 G occ, let ns := [n1; n2; n3] in
  m3det A <> 0 -> g_vectors A ns = Ok G -> tshape c = [sp; K; B; n1; n2; n3] -> tshape occ = [sp; K; B] ->
  exists v, nabla_density_grid [r1; r2; r3] c A None (Some occ) = Ok v /\ tshape v = [] /\
    nabla_density_grid [r1; r2; r3] c A (Some G) (Some occ) = Ok v /\
    forall e, is_derive (fun t => density_at ns G (volume A) c occ (vadd (V3 r1 r2 r3) (vscale t e))) 0 (dot (tget v []) e).
Proof. exact nabla_density. Qed.
Print Assumptions C37_gradient.
(** without occupations the factor 1/vol is missing *)
Theorem C37_no_occupation_scaled_by_volume : forall c A sp K B n1 n2 n3 r1 r2 r3 G, let ns := [n1; n2; n3] in
  m3det A <> 0 -> g_vectors A ns = Ok G -> tshape c = [sp; K; B; n1; n2; n3] ->
  exists v, nabla_density_grid [r1; r2; r3] c A None None = Ok v /\ tshape v = [sp; K; B] /\
    forall b e, inb b [sp; K; B] ->
      is_derive (fun t => volume A * Cnorm2 (orbital_at ns G (volume A) c b (vadd (V3 r1 r2 r3) (vscale t e)))) 0 (dot (tget v b) e).
Proof. exact nabla_density_none. Qed.
Print Assumptions C37_no_occupation_scaled_by_volume.
Definition ex_cell : m3 := M3 (V3 2 0 0) (V3 1 2 0) (V3 0 0 2).
Example C37_example : m3det ex_cell <> 0 /\ exists G, g_vectors ex_cell [1; 1; 3]%nat = Ok G.
Proof. split; [unfold m3det, ex_cell, dot, cross; simpl; lra|]. apply VecProofs.g_vectors_ok. lia. Qed.

(** C38 *)
Theorem C38_wave_r_raises : forall r c A g, raises (wave_r r c A g).
Proof. exact wave_r_raises. Qed.
Print Assumptions C38_wave_r_raises.
Theorem C38_density_r_raises : forall r c A g occ, raises (density_r r c A g occ).
Proof. exact density_r_raises. Qed.
Print Assumptions C38_density_r_raises.
Theorem C38_nabla_density_r_raises : forall gr r c A g occ, raises (nabla_density_r gr r c A g occ).
Proof. exact nabla_density_r_raises. Qed.
Print Assumptions C38_nabla_density_r_raises.
(** the only obstacle is the output subscript: with "l" instead of "skb" the orbital is returned *)
Theorem C38_subscript_is_the_cause : forall r1 r2 r3 c A bs n1 n2 n3 G, let ns := [n1; n2; n3] in
  g_vectors A ns = Ok G -> tshape c = bs ++ ns ->
  exists w, wave_r_with "l"%string [r1; r2; r3] c A None = Ok w /\ tshape w = bs /\
    forall b, tget w b = orbital_at ns G (volume A) c b (V3 r1 r2 r3).
Proof. exact wave_r_fixed. Qed.
Print Assumptions C38_subscript_is_the_cause.

(** C80 *)
Theorem C80_wave_formula : forall c vol bs A n1 n2 n3 G X w, let ns := [n1; n2; n3] in
  m3det A <> 0 -> 0 < vol -> g_vectors A ns = Ok G -> r_vectors A ns = Ok X -> tshape c = bs ++ ns ->
  wave_grid c vol = Ok w ->
  forall b x, inb b bs -> inb x ns -> tget w (b ++ x) = orbital_at ns G vol c b (tget X x).
Proof. exact wave_formula. Qed.
Print Assumptions C80_wave_formula.
Theorem C80_density_formula : forall c vol occ A sp K B n1 n2 n3 G X d, let ns := [n1; n2; n3] in
  m3det A <> 0 -> 0 < vol -> g_vectors A ns = Ok G -> r_vectors A ns = Ok X ->
  tshape c = [sp; K; B] ++ ns -> tshape occ = [sp; K; B] -> density_grid c vol (Some occ) = Ok d ->
  forall x, inb x ns -> sumR (seq 0 sp) (fun s => tget d (s :: x)) = density_at ns G vol c occ (tget X x).
Proof. exact density_formula. Qed.
Print Assumptions C80_density_formula.
Example C80_example : exists X, r_vectors ex_cell [1; 1; 3]%nat = Ok X.
Proof. eexists. reflexivity. Qed.

(** C81 *)
Theorem C81_wave_to_density : forall c vol occ sp K B n1 n2 n3 w d, let ns := [n1; n2; n3] in
  tshape c = [sp; K; B] ++ ns -> tshape occ = [sp; K; B] ->
  wave_grid c vol = Ok w -> density_grid c vol (Some occ) = Ok d ->
  exists d', wave_to_density w (Some occ) = Ok d' /\ teq d' d.
Proof. exact wave_to_density_eq. Qed.
Print Assumptions C81_wave_to_density.
Example C81_example : exists w d, wave_grid ex_c 8 = Ok w /\ density_grid ex_c 8 (Some ex_occ) = Ok d.
Proof.
  destruct (density_eq ex_c 8 ex_occ 1 1 1 1 1 3 eq_refl eq_refl) as (d & Hd & _).
  destruct (wave_grid_eq ex_c 8 [1; 1; 1]%nat [1; 1; 3]%nat eq_refl eq_refl) as (w & Hw & _). exists w, d. auto.
Qed.
