(** Rotating and reflecting the whole crystal. *)
From Coq Require Import Reals Lra Lia.
From Coquelicot Require Import Coquelicot.
From Coq Require Import Ascii String List Arith ZArith Bool FunctionalExtensionality.
From Verif Require Import Base Sums Tensor DFT GridModel PadModel Lin3 VecModel VecProofs PwModel BraketModel XcModel GgaModel EnergyModel HamModel
  EwaldModel EwaldSpec EwaldProofs.
Import ListNotations.
Local Open Scope R_scope.

Definition turn (Q : m3) (v : v3) : v3 := vmul v Q.

Lemma turn_zero Q : turn Q vzero = vzero. Proof. apply vmul_zero. Qed.
Lemma dot_turn Q u v : orthogonal Q -> dot (turn Q u) (turn Q v) = dot u v.
Proof. apply dot_orth. Qed.
Lemma turn_add Q u v : turn Q (vadd u v) = vadd (turn Q u) (turn Q v). Proof. apply vmul_add. Qed.
Lemma nth_turn Q l k : nth k (map (turn Q) l) vzero = turn Q (nth k l vzero).
Proof. rewrite <- (turn_zero Q) at 1. apply map_nth. Qed.

(** ** Grids *)
Lemma orthogonal_det Q : orthogonal Q -> m3det Q * m3det Q = 1.
Proof. intros H. apply (f_equal m3det) in H. rewrite m3det_mul, m3det_t, m3det_id in H. exact H. Qed.
Lemma volume_turn A Q : orthogonal Q -> volume (m3mul A Q) = volume A.
Proof.
  intros H. unfold volume. rewrite m3det_mul, Rabs_mult.
  assert (E : Rabs (m3det Q) = 1).
  { pose proof (orthogonal_det Q H) as D. pose proof (Rabs_pos (m3det Q)).
    assert (F : Rabs (m3det Q) * Rabs (m3det Q) = 1) by (rewrite <- Rabs_mult, D; apply Rabs_R1). nra. }
  rewrite E. ring.
Qed.
Lemma reciprocal_turn A Q : orthogonal Q -> m3det A <> 0 -> reciprocal_vectors (m3mul A Q) = m3mul (reciprocal_vectors A) Q.
Proof.
  intros H HA. unfold reciprocal_vectors. rewrite m3mul_scale_l. f_equal.
  rewrite (m3inv_unique (m3mul A Q) (m3mul (m3t Q) (m3inv A))).
  - rewrite m3t_mul, m3t_t. reflexivity.
  - rewrite m3mul_assoc, <- (m3mul_assoc Q), H, m3mul_id_l. apply m3inv_r. exact HA.
Qed.
Lemma m0_mul A B : m0 (m3mul A B) = vmul (m0 A) B. Proof. reflexivity. Qed.
Lemma m1_mul A B : m1 (m3mul A B) = vmul (m1 A) B. Proof. reflexivity. Qed.
Lemma m2_mul A B : m2 (m3mul A B) = vmul (m2 A) B. Proof. reflexivity. Qed.
Lemma vector_grid_turn B Q sizes nz : vector_grid (m3mul B Q) sizes nz = rmap (tmap (turn Q)) (vector_grid B sizes nz).
Proof.
  unfold vector_grid. destruct sizes as [|n1 [|n2 [|n3 [|]]]]; try reflexivity.
  destruct ((n1 =? 0)%nat || (n2 =? 0)%nat || (n3 =? 0)%nat); [reflexivity|]. cbn [rmap]. unfold tmap. cbn [tshape tget]. f_equal. f_equal.
  apply functional_extensionality. intros i. rewrite m0_mul, m1_mul, m2_mul. unfold turn. rewrite !vmul_add, !vmul_scale. reflexivity.
Qed.
Lemma g_vectors_turn A Q sizes : orthogonal Q -> m3det A <> 0 ->
  g_vectors (m3mul A Q) sizes = rmap (tmap (turn Q)) (g_vectors A sizes).
Proof. intros H HA. unfold g_vectors. rewrite reciprocal_turn by assumption. apply vector_grid_turn. Qed.
Lemma r_vectors_turn A Q sizes : r_vectors (m3mul A Q) sizes = rmap (tmap (turn Q)) (r_vectors A sizes).
Proof. apply vector_grid_turn. Qed.
Lemma k_vectors_turn A Q sizes : orthogonal Q -> m3det A <> 0 ->
  k_vectors (m3mul A Q) sizes = rmap (map (turn Q)) (k_vectors A sizes).
Proof.
  intros H HA. unfold k_vectors. destruct (monkhorst_pack sizes) as [ks|e]; [|reflexivity]. cbn [bind rmap]. f_equal. rewrite map_map.
  apply map_ext. intros k. rewrite reciprocal_turn by assumption. unfold turn. rewrite vmul_assoc. reflexivity.
Qed.
Lemma translation_turn A Q cutoff : orthogonal Q -> translation_vectors (m3mul A Q) cutoff = rmap (map (turn Q)) (translation_vectors A cutoff).
Proof.
  intros H. unfold translation_vectors.
  assert (E : norm (vadd (vadd (m0 (m3mul A Q)) (m1 (m3mul A Q))) (m2 (m3mul A Q))) = norm (vadd (vadd (m0 A) (m1 A)) (m2 A))).
  { rewrite m0_mul, m1_mul, m2_mul, <- !vmul_add. unfold norm, norm2. f_equal. apply dot_orth. exact H. }
  rewrite E. destruct (Req_EM_T _ 0); [reflexivity|]. destruct (_ <? 0)%Z; [reflexivity|].
  rewrite vector_grid_turn. destruct (vector_grid A _ false) as [g|e]; [|reflexivity]. cbn [rmap bind]. f_equal.
  unfold tmap. cbn [tshape tget]. rewrite map_map. reflexivity.
Qed.
Lemma mask_turn A Q sizes cutoff : orthogonal Q -> m3det A <> 0 -> spherical_mask (m3mul A Q) sizes cutoff = spherical_mask A sizes cutoff.
Proof.
  intros H HA. unfold spherical_mask. rewrite g_vectors_turn by assumption. destruct (g_vectors A sizes) as [g|e]; [|reflexivity]. cbn [rmap bind].
  f_equal. unfold tmap. cbn [tshape tget]. f_equal. apply functional_extensionality. intros i. unfold norm, norm2. rewrite dot_turn by exact H. reflexivity.
Qed.

Lemma bind_same {X Y} (r : res X) (f g : X -> res Y) : (forall x, f x = g x) -> bind r f = bind r g.
Proof. intros H. destruct r; cbn [bind]; [apply H|reflexivity]. Qed.

Lemma ok_same {X} sh (f g : list nat -> X) : (forall i, f i = g i) -> Ok (mkT sh f) = Ok (mkT sh g).
Proof. intros H. rewrite (functional_extensionality f g H). reflexivity. Qed.

(** ** Energies and potentials *)
Section turned.
Variable Q : m3.
Hypothesis HQ : orthogonal Q.
Notation rG := (tmap (turn Q)).

Lemma hartree_turn D G ks : hartree_reciprocal D (rG G) ks = hartree_reciprocal D G ks.
Proof.
  unfold hartree_reciprocal. unfold tmap, ndim. cbn [tshape tget].
  replace (fun i => if EnergyModel.is_origin i then 1 else dot (turn Q (tget G i)) (turn Q (tget G i)))
    with (fun i => if EnergyModel.is_origin i then 1 else dot (tget G i) (tget G i)); [reflexivity|].
  apply functional_extensionality. intros i. rewrite dot_turn by exact HQ. reflexivity.
Qed.
Lemma external_turn pos ch G vol : external_reciprocal (map (turn Q) pos) ch (rG G) vol = external_reciprocal pos ch G vol.
Proof.
  unfold external_reciprocal. unfold tmap, ndim. cbn [tshape tget]. rewrite map_length. destruct (negb _); [reflexivity|].
  destruct (bshape _ _) as [[|m [|]]|]; try reflexivity. f_equal. f_equal. apply functional_extensionality. intros i. f_equal. f_equal.
  apply sumC_ext. intros a _. rewrite nth_turn, !dot_turn by exact HQ. reflexivity.
Qed.
Lemma kinetic_turn G kpts c occ : e_kinetic (rG G) (map (turn Q) kpts) c occ = e_kinetic G kpts c occ.
Proof.
  unfold e_kinetic. change (ndim (rG G)) with (ndim G). change (tshape (rG G)) with (tshape G). rewrite map_length. cbv zeta.
  assert (E : (fun i => dot (vadd (tget (rG G) (skipn 3 i)) (nth (nth 1 i 0%nat) (map (turn Q) kpts) vzero)) (vadd (tget (rG G) (skipn 3 i)) (nth (nth 1 i 0%nat) (map (turn Q) kpts) vzero)))
    = (fun i => dot (vadd (tget G (skipn 3 i)) (nth (nth 1 i 0%nat) kpts vzero)) (vadd (tget G (skipn 3 i)) (nth (nth 1 i 0%nat) kpts vzero)))).
  { apply functional_extensionality. intros i. change (tget (rG G) (skipn 3 i)) with (turn Q (tget G (skipn 3 i))).
    rewrite nth_turn, <- turn_add, dot_turn by exact HQ. reflexivity. }
  rewrite E. reflexivity.
Qed.

Lemma grad_turn ns G rho x : let g a := grad_component ns G rho a x in 
  forall a, grad_component ns (rG G) rho a x =
    (RtoC (vcomp a (m0 Q)) * g 0%nat + (RtoC (vcomp a (m1 Q)) * g 1%nat + RtoC (vcomp a (m2 Q)) * g 2%nat))%C.
Proof.
  cbv zeta. intros a. unfold grad_component.
  rewrite <- (idft_scal ns (RtoC (vcomp a (m0 Q)))), <- (idft_scal ns (RtoC (vcomp a (m1 Q)))), <- (idft_scal ns (RtoC (vcomp a (m2 Q)))).
  rewrite <- (idft_plus ns (fun g => RtoC (vcomp a (m1 Q)) * _)%C), <- (idft_plus ns (fun g => RtoC (vcomp a (m0 Q)) * _)%C). apply idft_ext. intros g _. unfold tmap. cbn [tget].
  assert (E : vcomp a (turn Q (tget G g)) = vcomp a (m0 Q) * vcomp 0 (tget G g) + (vcomp a (m1 Q) * vcomp 1 (tget G g) + vcomp a (m2 Q) * vcomp 2 (tget G g))).
  { unfold turn. destruct Q as [[? ? ?] [? ? ?] [? ? ?]], (tget G g). destruct a as [|[|]]; cbn; ring. }
  rewrite E, !RtoC_plus, !RtoC_mult. ring.
Qed.
Lemma orth_entries : let q i a := vcomp a (nth i [m0 Q; m1 Q; m2 Q] vzero) in
  forall i j, (i < 3)%nat -> (j < 3)%nat -> q i 0%nat * q j 0%nat + q i 1%nat * q j 1%nat + q i 2%nat * q j 2%nat = if Nat.eqb i j then 1 else 0.
Proof.
  cbv zeta. pose proof HQ as H. unfold orthogonal in H. destruct Q as [[a b c] [d e f] [g h k]]. unfold m3mul, vmul, vadd, vscale, m3t, m3id in H. cbn [m0 m1 m2 vx vy vz] in *.
  injection H as H1 H2 H3 H4 H5 H6 H7 H8 H9.
  intros i j Hi Hj. destruct i as [|[|[|]]]; try lia; destruct j as [|[|[|]]]; try lia; cbn; lra.
Qed.
Lemma sigma_turn rho G : sigma_r_fn rho (rG G) = sigma_r_fn rho G.
Proof.
  unfold sigma_r_fn. destruct (tshape rho) as [|s [|n1 [|n2 [|n3 [|]]]]]; [reflexivity..| |reflexivity].
  change (tshape (rG G)) with (tshape G). destruct (list_eq_dec Nat.eq_dec (tshape G) [n1; n2; n3]); [|reflexivity].
  assert (P : forall k l x,
    Re (sumC (seq 0 3) (fun a => Cconj (grad_component [n1; n2; n3] (rG G) (fun y => tget rho (k :: y)) a x) * grad_component [n1; n2; n3] (rG G) (fun y => tget rho (l :: y)) a x)%C)
    = Re (sumC (seq 0 3) (fun a => Cconj (grad_component [n1; n2; n3] G (fun y => tget rho (k :: y)) a x) * grad_component [n1; n2; n3] G (fun y => tget rho (l :: y)) a x)%C)).
  { intros k l x. f_equal. unfold sumC. cbn [seq map fold_right].
    rewrite !grad_turn.
    pose proof (orth_entries 0 0) as H00. pose proof (orth_entries 0 1) as H01. pose proof (orth_entries 0 2) as H02.
    pose proof (orth_entries 1 1) as H11. pose proof (orth_entries 1 2) as H12. pose proof (orth_entries 2 2) as H22.
    cbv zeta in *. cbn [nth Nat.eqb] in *.
    specialize (H00 ltac:(lia) ltac:(lia)). specialize (H01 ltac:(lia) ltac:(lia)). specialize (H02 ltac:(lia) ltac:(lia)).
    specialize (H11 ltac:(lia) ltac:(lia)). specialize (H12 ltac:(lia) ltac:(lia)). specialize (H22 ltac:(lia) ltac:(lia)).
    destruct (grad_component [n1; n2; n3] G (fun y => tget rho (k :: y)) 0 x) as [u0 w0].
    destruct (grad_component [n1; n2; n3] G (fun y => tget rho (k :: y)) 1 x) as [u1 w1].
    destruct (grad_component [n1; n2; n3] G (fun y => tget rho (k :: y)) 2 x) as [u2 w2].
    destruct (grad_component [n1; n2; n3] G (fun y => tget rho (l :: y)) 0 x) as [p0 q0].
    destruct (grad_component [n1; n2; n3] G (fun y => tget rho (l :: y)) 1 x) as [p1 q1].
    destruct (grad_component [n1; n2; n3] G (fun y => tget rho (l :: y)) 2 x) as [p2 q2].
    set (a00 := vcomp 0 (m0 Q)) in *. set (a01 := vcomp 1 (m0 Q)) in *. set (a02 := vcomp 2 (m0 Q)) in *.
    set (a10 := vcomp 0 (m1 Q)) in *. set (a11 := vcomp 1 (m1 Q)) in *. set (a12 := vcomp 2 (m1 Q)) in *.
    set (a20 := vcomp 0 (m2 Q)) in *. set (a21 := vcomp 1 (m2 Q)) in *. set (a22 := vcomp 2 (m2 Q)) in *.
    clearbody a00 a01 a02 a10 a11 a12 a20 a21 a22.
    apply injective_projections; unfold Cmult, Cplus, Cconj, RtoC; cbn [fst snd].
    - transitivity ((a00*a00+a01*a01+a02*a02) * (u0*p0+w0*q0) + (a10*a10+a11*a11+a12*a12) * (u1*p1+w1*q1) + (a20*a20+a21*a21+a22*a22) * (u2*p2+w2*q2)
        + (a00*a10+a01*a11+a02*a12) * (u0*p1+w0*q1+u1*p0+w1*q0) + (a00*a20+a01*a21+a02*a22) * (u0*p2+w0*q2+u2*p0+w2*q0) + (a10*a20+a11*a21+a12*a22) * (u1*p2+w1*q2+u2*p1+w2*q1)).
      + ring.
      + rewrite H00, H01, H02, H11, H12, H22. ring.
    - transitivity ((a00*a00+a01*a01+a02*a02) * (u0*q0-w0*p0) + (a10*a10+a11*a11+a12*a12) * (u1*q1-w1*p1) + (a20*a20+a21*a21+a22*a22) * (u2*q2-w2*p2)
        + (a00*a10+a01*a11+a02*a12) * (u0*q1-w0*p1+u1*q0-w1*p0) + (a00*a20+a01*a21+a02*a22) * (u0*q2-w0*p2+u2*q0-w2*p0) + (a10*a20+a11*a21+a12*a22) * (u1*q2-w1*p2+u2*q1-w2*p1)).
      + ring.
      + rewrite H00, H01, H02, H11, H12, H22. ring. }
  cbv zeta. destruct (s =? 2)%nat; f_equal; f_equal; apply functional_extensionality; intros i; [destruct (hd 0%nat i) as [|[|]]|]; apply P.
Qed.
Lemma xc_turn lib vg rho G ks xt : ks = false \/ contains "gga" xt = false ->
  xc_density lib vg rho (rG G) ks xt = xc_density lib vg rho G ks xt.
Proof.
  intros H. unfold xc_density. destruct (contains "gga" xt) eqn:E; [|reflexivity].
  rewrite sigma_turn. destruct H as [->|H]; [reflexivity|discriminate].
Qed.
Lemma effective_turn lib vg d pos ch G vol xt ks : ks = false \/ contains "gga" xt = false ->
  effective_sum (xc_density lib vg) d (map (turn Q) pos) ch (rG G) vol xt ks = effective_sum (xc_density lib vg) d pos ch G vol xt ks.
Proof.
  intros H. unfold effective_sum, effective_split. rewrite external_turn.
  destruct (negb _); [reflexivity|]. destruct (fftn3 _) as [D|]; [|reflexivity]. cbn [bind]. rewrite hartree_turn, xc_turn by exact H. reflexivity.
Qed.
Lemma total_turn lib vg c pos ch G kpts vol occ ks xt : ks = false \/ contains "gga" xt = false ->
  total_energy_split (xc_density lib vg) c (map (turn Q) pos) ch (rG G) (map (turn Q) kpts) vol occ ks xt =
  total_energy_split (xc_density lib vg) c pos ch G kpts vol occ ks xt.
Proof.
  intros H. unfold total_energy_split. destruct (wave_grid c vol) as [w|]; [|reflexivity]. cbn [bind].
  destruct (wave_to_density w _) as [d|]; [|reflexivity]. cbn [bind].
  destruct (wave_to_density_reciprocal w _) as [D|]; [|reflexivity]. cbn [bind]. rewrite kinetic_turn.
  unfold e_external, e_hartree, e_xc. rewrite external_turn, hartree_turn, xc_turn by exact H. reflexivity.
Qed.
Lemma kinetic_operator_turn G kpts : kinetic_operator (rG G) (Some (map (turn Q) kpts)) = kinetic_operator G (Some kpts).
Proof.
  unfold kinetic_operator. cbv zeta. change (tshape (rG G)) with (tshape G). rewrite map_length. f_equal.
  apply functional_extensionality. intros i. change (tget (rG G) (tl i)) with (turn Q (tget G (tl i))).
  rewrite nth_turn, <- turn_add, dot_turn by exact HQ. reflexivity.
Qed.
Lemma trace_turn lib vg c pos ch d G kpts vol xt ks keep : ks = false \/ contains "gga" xt = false ->
  hamiltonian_matrix_trace (xc_density lib vg) c (map (turn Q) pos) ch d (rG G) (map (turn Q) kpts) vol xt ks keep =
  hamiltonian_matrix_trace (xc_density lib vg) c pos ch d G kpts vol xt ks keep.
Proof. intros H. unfold hamiltonian_matrix_trace. rewrite effective_turn, kinetic_operator_turn by exact H. reflexivity. Qed.
Lemma matrix_turn lib vg c pos ch d G kpts vol xt ks : ks = false \/ contains "gga" xt = false ->
  hamiltonian_matrix (xc_density lib vg) c (map (turn Q) pos) ch d (rG G) (map (turn Q) kpts) vol xt ks =
  hamiltonian_matrix (xc_density lib vg) c pos ch d G kpts vol xt ks.
Proof.
  intros H. unfold hamiltonian_matrix. destruct (tshape c) as [|sp [|K [|B [|x [|y [|z [|]]]]]]]; [reflexivity..| |reflexivity]. rewrite map_length.
  assert (E : efun (xc_density lib vg) c (map (turn Q) pos) ch d (rG G) (map (turn Q) kpts) vol xt ks B = efun (xc_density lib vg) c pos ch d G kpts vol xt ks B).
  { apply functional_extensionality. intros s. apply functional_extensionality. intros k. apply functional_extensionality. intros u. unfold efun.
    rewrite nth_turn. change [turn Q (nth k kpts vzero)] with (map (turn Q) [nth k kpts vzero]). rewrite trace_turn by exact H. reflexivity. }
  rewrite E. reflexivity.
Qed.
Lemma basis_turn lib vg mask pos ch d G kpts vol xt ks : ks = false \/ contains "gga" xt = false ->
  hamiltonian_matrix_basis (xc_density lib vg) mask (map (turn Q) pos) ch d (rG G) (map (turn Q) kpts) vol xt ks =
  hamiltonian_matrix_basis (xc_density lib vg) mask pos ch d G kpts vol xt ks.
Proof.
  intros H. unfold hamiltonian_matrix_basis. rewrite map_length.
  assert (E : forall k, efun_basis (xc_density lib vg) mask (map (turn Q) pos) ch d (rG G) (nth k (map (turn Q) kpts) vzero) vol xt ks
    = efun_basis (xc_density lib vg) mask pos ch d G (nth k kpts vzero) vol xt ks).
  { intros k. apply functional_extensionality. intros u. unfold efun_basis. rewrite nth_turn.
    change [turn Q (nth k kpts vzero)] with (map (turn Q) [nth k kpts vzero]). cbv zeta.
    apply bind_same. intros co. rewrite trace_turn by exact H. reflexivity. }
  cbv zeta. rewrite (E 0%nat). apply bind_same. intros _. apply ok_same. intros i. rewrite E. reflexivity.
Qed.
Lemma nuclear_turn erfc pos q A G vol eta cutoff :
  nuclear_repulsion erfc (map (turn Q) pos) q (m3mul A Q) (rG G) vol eta cutoff = nuclear_repulsion erfc pos q A G vol eta cutoff.
Proof.
  unfold nuclear_repulsion. rewrite translation_turn by exact HQ. destruct (translation_vectors A cutoff) as [T|]; [|reflexivity]. cbn [rmap bind].
  destruct (Nat.eq_dec (length q) (length pos)) as [E|E].
  - assert (Z : exists l, positions l = pos /\ charges l = q).
    { exists (combine pos q). clear -E. unfold positions, charges. revert q E. induction pos as [|p ps IH]; intros [|x q] E; try discriminate; [split; reflexivity|].
      cbn [combine map fst snd]. destruct (IH q ltac:(cbn in E; lia)) as [A1 A2]. rewrite A1, A2. split; reflexivity. }
    destruct Z as (l & <- & <-).
    assert (M : map (turn Q) (positions l) = positions (move_all (fun p => vmul p Q) l)).
    { unfold positions, move_all. rewrite !map_map. apply map_ext. intros a. reflexivity. }
    rewrite M. apply ewald_rotation. exact HQ.
  - unfold ewald_coulomb_repulsion. rewrite map_length. apply Nat.eqb_neq in E. rewrite E. reflexivity.
Qed.
End turned.

(** ** From the cell *)
Lemma grids_turn A Q sizes cutoff : orthogonal Q -> m3det A <> 0 ->
  volume (m3mul A Q) = volume A /\
  g_vectors (m3mul A Q) sizes = rmap (tmap (turn Q)) (g_vectors A sizes) /\
  r_vectors (m3mul A Q) sizes = rmap (tmap (turn Q)) (r_vectors A sizes) /\
  k_vectors (m3mul A Q) sizes = rmap (map (turn Q)) (k_vectors A sizes) /\
  translation_vectors (m3mul A Q) cutoff = rmap (map (turn Q)) (translation_vectors A cutoff) /\
  spherical_mask (m3mul A Q) sizes cutoff = spherical_mask A sizes cutoff.
Proof.
  intros H HA. repeat apply conj; [apply volume_turn|apply g_vectors_turn|apply r_vectors_turn|apply k_vectors_turn|apply translation_turn|apply mask_turn]; assumption.
Qed.
Lemma grid_turned A Q sizes G G' : orthogonal Q -> m3det A <> 0 -> g_vectors A sizes = Ok G -> g_vectors (m3mul A Q) sizes = Ok G' -> G' = tmap (turn Q) G.
Proof. intros H HA E E'. rewrite g_vectors_turn, E in E' by assumption. injection E' as <-. reflexivity. Qed.
Lemma total_cell_turn lib vg A Q sizes G G' c pos ch kpts occ ks xt : orthogonal Q -> m3det A <> 0 ->
  g_vectors A sizes = Ok G -> g_vectors (m3mul A Q) sizes = Ok G' -> ks = false \/ contains "gga" xt = false ->
  total_energy_split (xc_density lib vg) c (map (turn Q) pos) ch G' (map (turn Q) kpts) (volume (m3mul A Q)) occ ks xt =
  total_energy_split (xc_density lib vg) c pos ch G kpts (volume A) occ ks xt.
Proof. intros H HA E E' Hx. rewrite (grid_turned A Q sizes G G'), volume_turn by assumption. apply total_turn; assumption. Qed.
Lemma matrices_cell_turn lib vg A Q sizes G G' c mask pos ch d kpts ks xt : orthogonal Q -> m3det A <> 0 ->
  g_vectors A sizes = Ok G -> g_vectors (m3mul A Q) sizes = Ok G' -> ks = false \/ contains "gga" xt = false ->
  hamiltonian_matrix (xc_density lib vg) c (map (turn Q) pos) ch d G' (map (turn Q) kpts) (volume (m3mul A Q)) xt ks =
  hamiltonian_matrix (xc_density lib vg) c pos ch d G kpts (volume A) xt ks /\
  hamiltonian_matrix_basis (xc_density lib vg) mask (map (turn Q) pos) ch d G' (map (turn Q) kpts) (volume (m3mul A Q)) xt ks =
  hamiltonian_matrix_basis (xc_density lib vg) mask pos ch d G kpts (volume A) xt ks.
Proof.
  intros H HA E E' Hx. rewrite (grid_turned A Q sizes G G'), volume_turn by assumption. split; [apply matrix_turn|apply basis_turn]; assumption.
Qed.
Lemma nuclear_cell_turn erfc A Q sizes G G' pos q eta cutoff : orthogonal Q -> m3det A <> 0 ->
  g_vectors A sizes = Ok G -> g_vectors (m3mul A Q) sizes = Ok G' ->
  nuclear_repulsion erfc (map (turn Q) pos) q (m3mul A Q) G' (volume (m3mul A Q)) eta cutoff =
  nuclear_repulsion erfc pos q A G (volume A) eta cutoff.
Proof. intros H HA E E'. rewrite (grid_turned A Q sizes G G'), volume_turn by assumption. apply nuclear_turn. assumption. Qed.
