(** Every setting a ground-state driver takes from the configuration. *)
From Coq Require Import Reals Lra Lia.
From Coquelicot Require Import Complex.
From Coq Require Import Ascii String List Arith ZArith Bool.
From Verif Require Import Base Sums Tensor Lin3 VecModel OccModel OccSpec EwaldModel CalcSpec CalcModel CalcProofs DrvModel DrvSpec DrvProofs DrvProofs2.
Import ListNotations.
Local Open Scope R_scope.

Lemma setup_settings erfc pkg read devices c electrons ions init pb : setup erfc pkg read devices c electrons ions init = Ok pb -> reads_settings devices c pb.
Proof.
  unfold setup. intros H. step H u0 E0. step H u1 E1. step H u2 E2. step H sm E3. step H cr E4. step H N E5. step H u6 E6. step H eps E7. step H par E8.
  cbv zeta in H. step H grids E9. destruct grids as [[g r] k]. step H eb E10. step H ebz E11. step H xc E12. step H xcs E13. step H oc E14. step H ocs E15.
  step H mask E16. step H ew E17. step H ck E18. step H io E19. step H u20 E20. step H rr E21. step H ep E22. step H epz E23.
  destruct (num_bands N ebz <? 0)%Z eqn:EB; [discriminate|]. injection H as <-. unfold reads_settings, reads. cbn [pb_checker pb_smearing pb_eps pb_epoch pb_xc pb_devices].
  split; [|split; [|split; [|split; [|split]]]].
  - unfold create_convergence_checker in E18. step E18 a Ea. step E18 b Eb. step E18 d Ed. step E18 e Ee. injection E18 as <-. exists b, e. eauto 8.
  - eauto.
  - eauto.
  - exists epz. eauto.
  - destruct xc; try discriminate. cbn in E13. injection E13 as <-. exact E12.
  - eauto.
Qed.
Lemma ae_settings erfc pkg read devices c pb : ae_problem erfc pkg read devices c = Ok pb -> reads_settings devices c pb /\ pb_ions pb = None /\ pb_init_restricted pb = pb_restricted pb.
Proof. intros H. split; [exact (setup_settings _ _ _ _ _ _ _ _ _ H)|]. destruct (ae_parity _ _ _ _ _ _ H) as (_ & _ & A & B). split; assumption. Qed.
Lemma nc_settings {PP} erfc pkg read (nc us : crystal -> string -> res PP) valence pp_local pp_nonlocal devices c pb :
  nc_problem erfc pkg read nc us valence pp_local pp_nonlocal devices c = Ok pb -> reads_settings devices c pb /\ pb_init_restricted pb = true /\
    exists pp V psi, create_pseudopotential pkg read nc us c = Ok pp /\ pp_local pp (pb_crystal pb) (pb_G pb) (pb_vol pb) = Ok V /\ pp_nonlocal pp (pb_crystal pb) (pb_G pb) (pb_k pb) = Ok psi /\ pb_ions pb = Some (V, psi).
Proof.
  intros H. split; [exact (setup_settings _ _ _ _ _ _ _ _ _ H)|]. destruct (setup_inv _ _ _ _ _ _ _ _ _ H) as (_ & _ & _ & _ & Hi & _ & _ & _ & _ & Hr & _). split; [exact Hr|].
  cbv beta in Hi. step Hi pp Ep. step Hi V EV. step Hi psi Epsi. injection Hi as Hi. exists pp, V, psi. rewrite <- Hi. auto.
Qed.

(** *** One step *)
Lemma step_adds {Os} qr cqr xcd pb grad (optimizer : params -> Os -> params * Os) p o T p' o' f eh : drv_update qr cqr xcd pb grad optimizer p o T = Ok (p', o', f, eh) ->
  exists g u, optimizer g o = (u, o') /\ p_re g = p_re (grad T p) /\ p_im g = p_im (grad T p) /\
    (fixed_occ (pb_method pb) -> occ_zero (p_occ g)) /\ (~ fixed_occ (pb_method pb) -> p_occ g = p_occ (grad T p)) /\
    added (p_re p) (p_re u) (p_re p') /\ added (p_im p) (p_im u) (p_im p') /\ (same_kind (p_occ p) (p_occ u) -> occ_added (p_occ p) (p_occ u) (p_occ p')).
Proof.
  unfold drv_update. intros H. step H x Hx. set (g := stop_gradient (pb_method pb) (grad T p)) in *. destruct (optimizer g o) as [u o2] eqn:E. injection H as <- <- _ _. exists g, u. split; [exact E|].
  split; [unfold g; destruct (pb_method pb); reflexivity|]. split; [unfold g; destruct (pb_method pb); reflexivity|].
  split. { unfold g, fixed_occ. intros [->| ->]; cbn [stop_gradient p_occ]; destruct (p_occ (grad T p)); cbn; try split; reflexivity. }
  split. { unfold g, fixed_occ. intros Hn. destruct (pb_method pb); try reflexivity; exfalso; apply Hn; auto. }
  split; [split; reflexivity|]. split; [split; reflexivity|]. cbn [apply_updates p_occ]. destruct (p_occ p), (p_occ u); cbn; try contradiction; intros _; repeat split.
Qed.
Lemma cfg_numbers v : (forall z, cfg_int v = Ok z <-> v = VInt z \/ exists b : bool, v = VBool b /\ z = (if b then 1 else 0)%Z) /\
  (forall x, cfg_real v = Ok x <-> v = VReal x \/ (exists z, v = VInt z /\ x = IZR z) \/ exists b : bool, v = VBool b /\ x = if b then 1 else 0) /\ (forall s, cfg_str v = Ok s <-> v = VStr s).
Proof.
  split; [|split].
  - intros z. split.
    + destruct v; cbn; intros H; try discriminate; injection H as <-; [right; eexists; split; reflexivity|left; reflexivity].
    + intros [->|(b & -> & ->)]; reflexivity.
  - intros x. split.
    + destruct v; cbn; intros H; try discriminate; injection H as <-; [right; right; eexists; split; reflexivity|right; left; eexists; split; reflexivity|left; reflexivity].
    + intros [->|[(z & -> & ->)|(b & -> & ->)]]; reflexivity.
  - intros s. split; [destruct v; cbn; intros H; try discriminate; injection H as <-; reflexivity|intros ->; reflexivity].
Qed.
Lemma names s : (method_of_name s = MIdempotent <-> s = "idempotent"%string) /\ (method_of_name s = MUniform <-> s = "uniform"%string) /\ (method_of_name s = MGamma <-> s = "gamma"%string) /\ (method_of_name s = MSimplex <-> s = "simplex-projector"%string).
Proof.
  unfold method_of_name. destruct (String.eqb_spec s "idempotent") as [->|N1]; [repeat split; congruence|]. destruct (String.eqb_spec s "uniform") as [->|N2]; [repeat split; congruence|].
  destruct (String.eqb_spec s "gamma") as [->|N3]; [repeat split; congruence|]. destruct (String.eqb_spec s "simplex-projector") as [->|N4]; repeat split; congruence.
Qed.
