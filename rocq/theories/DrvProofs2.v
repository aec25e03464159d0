(** Problems built from a configuration; occupations and orbitals along a run; the density. *)
From Coq Require Import Reals Lra Lia.
From Coquelicot Require Import Complex.
From Coq Require Import Ascii String List Arith ZArith Bool.
From Verif Require Import Base Sums Tensor Lin3 VecModel VecProofs OccModel OccSpec OccProofs PadModel PwModel PwSpec PwProofs EnergyModel EnergySpec
  EwaldModel GridModel RespProofs TotalProofs CalcSpec CalcModel CalcProofs CalcProofs2 CalcProofs3 DrvModel DrvSpec DrvProofs.
Import ListNotations.
Local Open Scope R_scope.

Tactic Notation "step" hyp(H) ident(x) ident(E) := apply bind_ok in H; destruct H as (x & E & H).

Lemma setup_inv erfc pkg read devices c electrons ions init pb : setup erfc pkg read devices c electrons ions init = Ok pb ->
  create_crystal pkg read c = Ok (pb_crystal pb) /\ electrons (pb_crystal pb) = Ok (pb_electrons pb) /\
  (exists r, create_grids pkg read c = Ok (pb_G pb, r, pb_k pb)) /\ create_freq_mask pkg read c = Ok (pb_mask pb) /\
  ions (pb_crystal pb) (pb_G pb) (pb_k pb) (pb_vol pb) = Ok (pb_ions pb) /\ get_ewald_coulomb_repulsion erfc pkg read c = Ok (pb_ewald pb) /\
  (exists e v, getattr c "empty_bands" = Ok v /\ cfg_int v = Ok e /\ Z.of_nat (pb_bands pb) = num_bands (pb_electrons pb) e) /\
  (exists v, getattr c "occupation" = Ok (VStr v) /\ pb_method pb = method_of_name v) /\
  (exists v, getattr c "spin_restricted" = Ok v /\ pb_restricted pb = truthy v) /\ pb_init_restricted pb = init (pb_restricted pb) /\
  (exists w thr, pb_checker pb = new_checker w thr) /\ (length (pb_k pb) mod pb_devices pb = 0)%nat.
Proof.
  unfold setup. intros H. step H u0 E0. step H u1 E1. step H u2 E2. step H sm E3. step H cr E4. step H N E5. step H u6 E6. step H eps E7. step H par E8.
  cbv zeta in H. step H grids E9. destruct grids as [[g r] k]. step H eb E10. step H ebz E11. step H xc E12. step H xcs E13. step H oc E14. step H ocs E15.
  step H mask E16. step H ew E17. step H ck E18. step H io E19. step H u20 E20. step H rr E21. step H ep E22. step H epz E23.
  destruct (num_bands N ebz <? 0)%Z eqn:EB; [discriminate|]. injection H as <-. cbn [pb_crystal pb_electrons pb_G pb_k pb_mask pb_ions pb_vol pb_ewald pb_bands pb_method pb_restricted pb_init_restricted pb_checker pb_devices].
  apply Z.ltb_ge in EB. split; [exact E4|]. split; [exact E5|]. split; [eauto|]. split; [exact E16|]. split; [exact E19|]. split; [exact E17|].
  split; [exists ebz, eb; rewrite Z2Nat.id by exact EB; auto|].
  split; [destruct oc; try discriminate; cbn in E15; injection E15 as <-; eauto|]. split; [eauto|]. split; [reflexivity|]. split.
  - unfold create_convergence_checker in E18. step E18 a Ea. step E18 b Eb. step E18 d Ed. step E18 e Ee. injection E18 as <-. eauto.
  - destruct (_ mod _ =? 0)%nat eqn:Em in E20; [|discriminate]. apply Nat.eqb_eq, Em.
Qed.

Lemma setup_grids erfc pkg read devices c electrons ions init pb : setup erfc pkg read devices c electrons ions init = Ok pb -> has_grids pb.
Proof.
  intros H. destruct (setup_inv _ _ _ _ _ _ _ _ _ H) as (Hcr & _ & (r & Hg) & Hm & _).
  destruct (create_grids_inv _ _ _ _ _ _ Hg) as (cr & gs & n & ks & nk & Ecr & _ & _ & _ & _ & HG & _ & Hk). rewrite Hcr in Ecr. injection Ecr as <-.
  destruct (vector_grid_inv _ _ _ _ HG) as (n1 & n2 & n3 & En & _). exists n1, n2, n3. rewrite <- En. split; [exact HG|].
  destruct (grids_and_mask_agree _ _ _ _ _ _ _ Hg Hm) as (<- & _). split; [rewrite (vector_grid_shape _ _ _ _ HG); reflexivity|].
  destruct (k_vectors_eval _ _ _ Hk) as (k1 & k2 & k3 & Ek & H1 & H2 & H3 & _). rewrite (k_vectors_length _ _ _ Hk), Ek. cbn. nia.
Qed.

Lemma ae_parity erfc pkg read devices c pb : ae_problem erfc pkg read devices c = Ok pb ->
  pb_electrons pb = num_electron (pb_crystal pb) /\ (pb_electrons pb mod 2 = pb_spin pb mod 2)%Z /\ pb_ions pb = None /\ pb_init_restricted pb = pb_restricted pb.
Proof.
  intros H. destruct (setup_inv _ _ _ _ _ _ _ _ _ H) as (Hcr & HN & _ & _ & Hi & _ & _ & _ & _ & Hr & _). injection HN as HN. injection Hi as Hi.
  rewrite <- HN. split; [reflexivity|]. split; [apply (create_crystal_parity _ _ _ _ Hcr)|]. auto.
Qed.

(** ** along the trajectory *)
Lemma traj_reachable {Os} pb grad (opt : optax Os) rnd rpw p0 n : ae_init rnd rpw pb = Ok p0 -> (fixed_occ (pb_method pb) -> leaves_constants opt) ->
  reachable pb p0 (fst (run_traj pb grad opt p0 n)).
Proof.
  intros Hi Hl. split; [apply traj_shapes|]. intros Hf.
  assert (E : exists o, p_occ p0 = PArr o).
  { unfold ae_init in Hi. cbv zeta in Hi. step Hi o Ho. injection Hi as <-. cbn [p_occ].
    destruct Hf as [Hf|Hf]; rewrite Hf in Ho; cbn [occ_param_init] in Ho; step Ho x Hx; injection Ho as <-; eauto. }
  destruct E as [o Eo]. destruct (traj_fixed_occ pb grad opt p0 n Hf (Hl Hf) o Eo) as (_ & o' & H). exists o, o'. tauto.
Qed.

Lemma total_ext a b : teq a b -> total a = total b.
Proof. intros [H1 H2]. unfold total. rewrite H1. apply sumR_ext. intros i Hi. apply H2. rewrite H1. apply in_indices, Hi. Qed.
Lemma channel_ext a b s S sh : tshape a = S :: sh -> (s < S)%nat -> teq a b -> channel a s = channel b s.
Proof.
  intros Sa Hs [H1 H2]. unfold channel. rewrite <- H1, Sa. cbn [tl]. apply sumR_ext. intros i Hi. apply H2. rewrite Sa. constructor; [exact Hs|apply in_indices, Hi].
Qed.

(** The occupations anywhere along a run. *)
Lemma occ_along rnd rpw pb p0 p qr : reduced_qr qr -> shape_ok rnd -> has_grids pb -> ae_init rnd rpw pb = Ok p0 -> reachable pb p0 p ->
  (pb_electrons pb mod 2 = pb_spin pb mod 2)%Z -> (fixed_occ (pb_method pb) -> pb_init_restricted pb = pb_restricted pb) -> bands_hold (pb_method pb) (pb_electrons pb) (pb_spin pb) (pb_bands pb) ->
  exists occ, get_occupation qr pb p = Ok occ /\ tshape occ = [num_spin (pb_restricted pb); length (pb_k pb); pb_bands pb] /\
    (forall i, inb i (tshape occ) -> 0 <= tget occ i) /\ total occ = IZR (kept_electrons (pb_method pb) (pb_electrons pb) (pb_spin pb)) /\
    (pb_restricted pb = false -> channel occ 0 - channel occ 1 = IZR (kept_spin (pb_method pb) (pb_spin pb))).
Proof.
  intros Hq Hr (n1 & n2 & n3 & _ & _ & HK) Hi [Hsh Hfx] Hpar Hir Hb. unfold ae_init in Hi. cbv zeta in Hi. step Hi o Ho. injection Hi as <-. cbn [p_occ p_re p_im] in *.
  unfold get_occupation. set (N := pb_electrons pb) in *. set (s := pb_spin pb) in *. set (B := pb_bands pb) in *. set (K := length (pb_k pb)) in *. set (r := pb_restricted pb) in *.
  destruct Hsh as (_ & _ & Hso). cbn [p_occ] in Hso. destruct (pb_method pb) eqn:Em; cbn [occ_param_init bands_hold kept_electrons kept_spin] in *.
  - (* idempotent *) step Ho p' Hp'. injection Ho as <-. destruct (idem_init_inv rnd B N K s true p' Hr HK Hp') as (_ & Hn0 & _ & Su & Sd).
    destruct (p_occ p) as [u d|]; [|contradiction]. destruct Hso as [Hu Hd]. rewrite Su in Hu. rewrite Sd in Hd. cbn [occupation].
    destruct (proj2 (idempotent_ok_iff qr u d K r _ _ _ Hq Hu Hd)) as [occ Eo].
    { split; [exact HK|]. apply Nat.mod_mul. lia. }
    exists occ. split; [exact Eo|]. destruct (idempotent_spec qr u d K r occ _ _ _ Hq Hu Hd Eo) as ((B' & HB' & So) & Hw & Ht & Hc).
    assert (B' = B) by nia. subst B'. split; [exact So|].
    assert (HKp : 0 < INR K) by (apply lt_0_INR; lia).
    assert (Hmin : Nat.min (B * K) (Z.to_nat ((N + s) / 2) * K) = (Z.to_nat ((N + s) / 2) * K)%nat) by (apply Nat.min_r; assert ((N + s) / 2 <= Z.of_nat B)%Z by lia; nia).
    assert (E2 : (2 * ((N + s) / 2) = N + s)%Z).
    { pose proof (Z.div_mod (N + s) 2 ltac:(lia)). assert ((N + s) mod 2 = 0)%Z; [|lia]. rewrite Z.add_mod, Hpar by lia. rewrite <- Z.add_mod by lia. replace (s + s)%Z with (s * 2)%Z by lia. apply Z.mod_mul. lia. }
    split; [intros i Hi; apply (Hw i Hi)|]. split.
    + rewrite Ht, Hmin. rewrite mult_INR, (INR_IZR_INZ (Z.to_nat _)), Z2Nat.id by exact Hn0. clear - E2 HKp. remember ((N + s) / 2)%Z as q. rewrite <- E2, mult_IZR. field. lra.
    + intros Hrf. destruct (Hc Hrf) as [-> ->]. lra.
  - (* uniform *) rewrite (Hir (or_introl eq_refl)) in Ho. fold r in Ho. step Ho u Hu. injection Ho as <-. destruct (Hfx (or_introl eq_refl)) as (a & o' & Ea & Eo' & So' & Go'). injection Ea as <-. rewrite Eo' in *. cbn [occupation].
    destruct (uniform_holds K N s (Some B) r u Hu Hpar) as (H1 & H2 & H3 & H4); [lia|intros b Eb; injection Eb as <-; lia|].
    assert (T : teq o' u) by (split; [exact So'|intros; apply Go']). exists o'. split; [reflexivity|]. rewrite So'. split; [exact H1|]. split; [intros i Hi; rewrite Go'; apply H3, Hi|].
    split; [rewrite (total_ext o' u T); exact H2|]. intros Hrf. assert (S2 : tshape o' = [2; K; B]%nat) by (rewrite So', H1, Hrf; reflexivity).
    rewrite !(channel_ext o' u _ 2 [K; B]) by (auto; lia). apply H4, Hrf.
  - (* gamma *) rewrite (Hir (or_intror eq_refl)) in Ho. fold r in Ho. step Ho u Hu. injection Ho as <-. destruct (Hfx (or_intror eq_refl)) as (a & o' & Ea & Eo' & So' & Go'). injection Ea as <-. rewrite Eo' in *. cbn [occupation].
    destruct (gamma_holds K N s (Some B) r u HK Hu Hpar) as (H1 & H2 & H3 & _ & H4); [lia|intros b Eb; injection Eb as <-; lia|].
    assert (T : teq o' u) by (split; [exact So'|intros; apply Go']). exists o'. split; [reflexivity|]. rewrite So'. split; [exact H1|]. split; [intros i Hi; rewrite Go'; apply H3, Hi|].
    split; [rewrite (total_ext o' u T); exact H2|]. intros Hrf. assert (S2 : tshape o' = [2; K; B]%nat) by (rewrite So', H1, Hrf; reflexivity).
    rewrite !(channel_ext o' u _ 2 [K; B]) by (auto; lia). apply H4, Hrf.
  - (* simplex *) injection Ho as <-. destruct (p_occ p) as [u d|]; [|contradiction]. destruct Hso as [Hu Hd]. cbn [simplex_projector_init tshape] in Hu, Hd. cbn [occupation].
    destruct Hb as [Hb1 Hb2]. destruct (simplex_spec u d N s r K B HK Hu Hd Hpar Hb1 Hb2) as (occ & Eo & So & Ht & Hw & Hc). exists occ. split; [exact Eo|]. split; [exact So|].
    split; [intros i Hi; apply (Hw i Hi)|]. auto.
  - contradiction.
Qed.

(** The orbitals anywhere along a run. *)
Lemma coeff_along rnd rpw pb p0 p cqr : complex_qr cqr -> pair_shape_ok rpw -> ae_init rnd rpw pb = Ok p0 -> same_shapes p p0 -> bands_fit_basis pb ->
  exists c, get_coeff cqr pb p = Ok c /\ tshape c = [num_spin (pb_restricted pb); length (pb_k pb); pb_bands pb] ++ tshape (pb_mask pb) /\
    orthonormal_bands [num_spin (pb_restricted pb); length (pb_k pb)] (pb_bands pb) (tshape (pb_mask pb)) c /\
    (forall b i, inb b [num_spin (pb_restricted pb); length (pb_k pb); pb_bands pb] -> inb i (tshape (pb_mask pb)) -> tget (pb_mask pb) i = false -> tget c (b ++ i) = RtoC 0).
Proof.
  intros Hq Hr Hi (H1 & H2 & _) HB. unfold ae_init in Hi. cbv zeta in Hi. step Hi o Ho. injection Hi as <-. cbn [p_re p_im] in *.
  unfold pw_param_init in H1, H2. destruct (Hr (pw_param_shape (pb_bands pb) (length (pb_k pb)) (pb_mask pb) (pb_restricted pb))) as [R1 R2]. rewrite R1 in H1. rewrite R2 in H2.
  destruct (coeff_orthonormal cqr (p_re p) (p_im p) (pb_mask pb) _ _ _ _ Hq H1 H2 eq_refl) as (c & Hc & Sc & Ho' & Hz). rewrite Nat.min_r in * by exact HB.
  exists c. split; [exact Hc|]. split; [exact Sc|]. split; [exact Ho'|]. exact Hz.
Qed.

Lemma total_channels (t : tensor R) S sh : tshape t = S :: sh -> total t = sumR (seq 0 S) (fun s => channel t s).
Proof.
  intros E. unfold total, channel. rewrite E. cbn [indices tl]. rewrite sumR_flat_map. apply sumR_ext. intros s _. rewrite sumR_map. reflexivity.
Qed.
Lemma integral_channels vol (d : tensor R) S sh : tshape d = S :: sh -> cell_integral vol d = sumR (seq 0 S) (fun s => channel_integral vol d s).
Proof.
  intros E. unfold cell_integral, channel_integral. change (sumR (indices (tshape d)) (tget d)) with (total d). rewrite (total_channels d S sh E), E. cbn [tl]. unfold channel. rewrite E. cbn [tl].
  symmetry. apply sumR_scal.
Qed.
