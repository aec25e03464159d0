(** The driver loop follows the trajectory of the optimiser; what stays fixed along it. *)
From Coq Require Import Reals Lra Lia.
From Coquelicot Require Import Complex.
From Coq Require Import Ascii String List Arith ZArith Bool.
From Verif Require Import Base Sums Tensor Lin3 VecModel VecProofs OccModel OccSpec OccProofs PadModel PwModel PwSpec PwProofs EnergyModel EnergySpec
  RespProofs TotalProofs CalcSpec CalcModel CalcProofs CalcProofs2 CalcProofs3 DrvModel DrvSpec.
Import ListNotations.
Local Open Scope R_scope.

(** ** the loop *)
Section Run.
  Context {Os : Type}.
  Variables (qr : tensor R -> tensor R) (cqr : tensor C -> tensor C) (xcd : xcdens) (pb : problem)
            (grad : R -> params -> params) (opt : optax Os) (p0 : params).
  Let traj := run_traj pb grad opt p0.
  Let value (r : res R) : R := match r with Ok e => e | Err _ => 0 end.
  Let tot p := value (objective qr cqr xcd pb p).
  Let ent p := value (get_entropy qr pb p).
  Let g' := fun T p => stop_gradient (pb_method pb) (grad T p).
  Let temp := temperature (pb_smearing pb) (pb_epoch pb).

  Lemma traj_S j : traj (S j) = opt_step g' (snd opt) apply_updates (temp j) (traj j).
  Proof. reflexivity. Qed.
  Lemma loop_traj k : forall j s s', (ls_params s, ls_opt s) = traj j -> ls_steps s = j ->
    drv_loop qr cqr xcd pb grad (snd opt) (seq j k) s = Ok s' ->
    exists n, (j <= n <= j + k)%nat /\ (ls_params s', ls_opt s') = traj n /\ ls_steps s' = n /\ (forall m, (j <= m < n)%nat ->
       (exists e, objective qr cqr xcd pb (fst (traj m)) = Ok e) /\ exists h, get_entropy qr pb (fst (traj m)) = Ok h) /\
      main_loop tot ent g' (snd opt) apply_updates temp (seq j k) s = s'.
  Proof.
    induction k as [|k IH]; intros j s s' Hj Hst H.
    - cbn in H. injection H as <-. exists j. repeat split; auto; lia.
    - cbn [seq drv_loop] in H. apply bind_ok in H. destruct H as ([[[p o] l] [e h]] & Hu & H).
      unfold drv_update in Hu. apply bind_ok in Hu. destruct Hu as (f & Hf & Hu).
      unfold free_energy_of in Hf. apply bind_ok in Hf. destruct Hf as (e1 & He1 & Hf). apply bind_ok in Hf. destruct Hf as (h1 & Hh1 & Hf). injection Hf as <-.
      destruct (snd opt (stop_gradient (pb_method pb) (grad (temperature (pb_smearing pb) (pb_epoch pb) j) (ls_params s))) (ls_opt s)) as [u o'] eqn:Eu.
      cbn [fst snd] in Hu. injection Hu as <- <- <- <- <-.
      assert (Hn : (apply_updates (ls_params s) u, o') = traj (S j)).
      { rewrite traj_S, <- Hj. unfold opt_step. cbn [fst snd]. unfold g', temp. rewrite Eu. reflexivity. }
      assert (Hp : ls_params s = fst (traj j)) by (rewrite <- Hj; reflexivity).
      assert (Hm : update tot ent g' (snd opt) apply_updates (ls_params s) (ls_opt s) (temp j) =
                   (apply_updates (ls_params s) u, o', free_energy tot ent (temp j) (ls_params s), (e1, h1))).
      { unfold update. fold temp in Eu. unfold g'. rewrite Eu. unfold tot, ent. rewrite He1, Hh1. reflexivity. }
      destruct (check (ls_checker s) e1) as [ck conv] eqn:Ec. destruct conv.
      + injection H as <-. exists (S j). split; [lia|]. split; [exact Hn|]. cbn [ls_steps]. split; [lia|]. split.
        * intros m Hmm. assert (m = j) as -> by lia. rewrite <- Hp. eauto.
        * cbn [seq main_loop]. rewrite Hm, Ec. reflexivity.
      + destruct (IH (S j) (LoopState (apply_updates (ls_params s) u) o' (Some e1) ck false (S (ls_steps s))) s' Hn (f_equal S Hst) H) as (n & Hb & Hn' & Hs' & Hall & Hmain). exists n. split; [lia|]. split; [exact Hn'|]. split; [exact Hs'|]. split.
        * intros m Hmm. destruct (Nat.eq_dec m j) as [->|]; [rewrite <- Hp; eauto|apply Hall; lia].
        * cbn [seq main_loop]. rewrite Hm, Ec. exact Hmain.
  Qed.

  Lemma loop_returns k : forall j s, (ls_params s, ls_opt s) = traj j ->
    (forall m, (exists e, objective qr cqr xcd pb (fst (traj m)) = Ok e) /\ exists h, get_entropy qr pb (fst (traj m)) = Ok h) ->
    exists s', drv_loop qr cqr xcd pb grad (snd opt) (seq j k) s = Ok s' /\ ((1 <= k)%nat -> ls_etot s' <> None).
  Proof.
    induction k as [|k IH]; intros j s Hj Hall; [exists s; split; [reflexivity|lia]|].
    cbn [seq drv_loop]. destruct (Hall j) as ([e He] & [h Hh]). rewrite <- Hj in He, Hh. cbn [fst] in He, Hh. unfold drv_update, free_energy_of. rewrite He. cbn [bind]. rewrite Hh. cbn [bind].
    destruct (snd opt (stop_gradient (pb_method pb) (grad (temperature (pb_smearing pb) (pb_epoch pb) j) (ls_params s))) (ls_opt s)) as [u o'] eqn:Eu.
    cbn [bind fst snd]. destruct (check (ls_checker s) e) as [ck conv]. destruct conv; [eexists; split; [reflexivity|discriminate]|].
    destruct (IH (S j) (LoopState (apply_updates (ls_params s) u) o' (Some e) ck false (S (ls_steps s)))) as (s' & Hs' & Hne).
    - cbn [ls_params ls_opt]. rewrite traj_S, <- Hj. unfold opt_step. cbn [fst snd]. unfold g', temp. rewrite Eu. reflexivity.
    - exact Hall.
    - exists s'. split; [exact Hs'|]. intros _. destruct k; [cbn in Hs'; injection Hs' as <-; discriminate|apply Hne; lia].
  Qed.

  (** A run that returns stopped as specified, with the values of the trajectory. *)
  Lemma run_spec out w thr : pb_checker pb = new_checker w thr -> drv_run qr cqr xcd pb grad (fst opt) (snd opt) p0 = Ok out ->
    exists n e, (1 <= n <= pb_epoch pb)%nat /\ num_updates out = n /\
      get_density qr cqr pb (fst (traj n)) = Ok (returned out) /\
      objective qr cqr xcd pb (fst (traj (n - 1)%nat)) = Ok e /\ logged_total out = e + pb_ewald pb /\
      (exists es, length es = n /\ (forall m, (m < n)%nat -> objective qr cqr xcd pb (fst (traj m)) = Ok (nth m es 0)) /\
         (forall m, (1 <= m < n)%nat -> ~ settled w thr (firstn m es)) /\
         (logged_converged out = true <-> settled w thr es)) /\
      (logged_converged out = false -> n = pb_epoch pb).
  Proof.
    intros Hck H. unfold drv_run in H. apply bind_ok in H. destruct H as (s & Hs & H). apply bind_ok in H. destruct H as (eo & Heo & H). apply bind_ok in H. destruct H as (d & Hd & H).
    destruct (ls_etot s) as [e|] eqn:Ee; [|discriminate]. injection H as <-. cbn [num_updates returned logged_total logged_converged].
    destruct (loop_traj (pb_epoch pb) 0 (LoopState p0 (fst opt p0) None (pb_checker pb) false 0) s eq_refl eq_refl Hs) as (n0 & Hn0 & Hp & Hst & Hall & Hm).
    assert (Hepoch : (1 <= pb_epoch pb)%nat).
    { destruct (Nat.eq_dec (pb_epoch pb) 0) as [Z|]; [|lia]. rewrite Z in Hs. cbn in Hs. injection Hs as <-. discriminate. }
    destruct (ground_state_spec tot ent g' (snd opt) apply_updates (fun p => p) (pb_smearing pb) (pb_epoch pb) w thr (pb_ewald pb) p0 (fst opt p0) Hepoch)
      as (n & conv & Hn & Hg & Hns & Hcv & Hlast).
    change (trajectory _ _) with traj in Hg, Hns, Hcv.
    unfold ground_state in Hg. rewrite <- Hck in Hg. fold temp in Hg. rewrite Hm, Ee in Hg. injection Hg as Hg1 Hg2 Hg3 Hg4.
    assert (En : n0 = n) by lia. rewrite En in *. clear n0 En.
    assert (Ht : forall m, (m < n)%nat -> objective qr cqr xcd pb (fst (traj m)) = Ok (tot (fst (traj m)))).
    { intros m Hlt. destruct (Hall m ltac:(lia)) as ([x Hx] & _). unfold tot. rewrite Hx. reflexivity. }
    exists n, (tot (fst (traj (n - 1)%nat))). split; [exact Hn|]. split; [exact Hst|]. split; [rewrite <- Hp; exact Hd|]. split; [apply Ht; lia|].
    split; [lra|]. split.
    - exists (map (fun m => tot (fst (traj m))) (seq 0 n)). split; [rewrite map_length, seq_length; reflexivity|]. split; [|split].
      + intros m Hlt. rewrite (Ht m Hlt). f_equal. symmetry. apply nth_error_nth. refine (map_nth_error (fun m => tot (fst (traj m))) m (seq 0 n) _). rewrite (nth_error_nth' _ 0%nat) by (rewrite seq_length; lia). rewrite seq_nth by lia. reflexivity.
      + intros m Hlt. rewrite firstn_map. replace (firstn m (seq 0 n)) with (seq 0 m); [apply Hns, Hlt|].
        replace n with (m + (n - m))%nat by lia. rewrite seq_app, firstn_app, seq_length, Nat.sub_diag. cbn [firstn]. rewrite app_nil_r, firstn_all2; [reflexivity|rewrite seq_length; lia].
      + rewrite Hg3. exact Hcv.
    - rewrite Hg3. exact Hlast.
  Qed.

  Lemma run_returns : (1 <= pb_epoch pb)%nat ->
    (forall m, (exists e, objective qr cqr xcd pb (fst (traj m)) = Ok e) /\ exists h, get_entropy qr pb (fst (traj m)) = Ok h) ->
    exists out, drv_run qr cqr xcd pb grad (fst opt) (snd opt) p0 = Ok out.
  Proof.
    intros He Hall. unfold drv_run. destruct (loop_returns (pb_epoch pb) 0 (LoopState p0 (fst opt p0) None (pb_checker pb) false 0) eq_refl Hall) as (s & Hs & Hne).
    rewrite Hs. cbn [bind]. destruct (loop_traj (pb_epoch pb) 0 (LoopState p0 (fst opt p0) None (pb_checker pb) false 0) s eq_refl eq_refl Hs) as (n & Hn & Hp & _).
    destruct (Hall n) as ([e Ho] & _). rewrite <- Hp in Ho. cbn [fst] in Ho. rewrite Ho. cbn [bind].
    unfold get_density. unfold objective in Ho. apply bind_ok in Ho. destruct Ho as (c & Hc & Ho). apply bind_ok in Ho. destruct Ho as (occ & Hocc & Ho). apply bind_ok in Ho. destruct Ho as (d & Hd & _).
    rewrite Hc. cbn [bind]. rewrite Hocc. cbn [bind]. rewrite Hd. cbn [bind]. destruct (ls_etot s); [eauto|exfalso; apply (Hne He); reflexivity].
  Qed.

  (** ** what stays fixed *)
  Lemma same_shapes_refl p : same_shapes p p.
  Proof. unfold same_shapes. destruct (p_occ p); auto. Qed.
  Lemma apply_same p u q : same_shapes p q -> same_shapes (apply_updates p u) q.
  Proof.
    unfold same_shapes, apply_updates. intros (H1 & H2 & H3). cbn [p_re p_im p_occ add_leaf tshape]. split; [exact H1|]. split; [exact H2|].
    destruct (p_occ p), (p_occ u), (p_occ q); cbn [add_leaf tshape]; auto.
  Qed.
  Lemma traj_shapes n : same_shapes (fst (traj n)) p0.
  Proof. induction n as [|n IH]; [apply same_shapes_refl|]. unfold traj, run_traj. cbn [trajectory]. unfold opt_step at 1. cbn [fst]. apply apply_same. exact IH. Qed.

  Lemma stop_gradient_no_occ g : fixed_occ (pb_method pb) -> no_occ (stop_gradient (pb_method pb) g).
  Proof. intros [-> | ->]; unfold no_occ; cbn [stop_gradient p_occ]; destruct (p_occ g); cbn; auto. Qed.

  Lemma traj_fixed_occ n : fixed_occ (pb_method pb) -> leaves_constants opt -> forall o, p_occ p0 = PArr o ->
    (exists gs, Forall no_occ gs /\ snd (traj n) = opt_after (snd opt) (fst opt p0) gs) /\
    exists o', p_occ (fst (traj n)) = PArr o' /\ tshape o' = tshape o /\ forall i, tget o' i = tget o i.
  Proof.
    intros Hf Hl o Ho. induction n as [|n [(gs & Hgs & Hs) (o' & Ho' & So' & Go')]].
    - split; [exists []; split; [constructor|reflexivity]|]. exists o. cbn. auto.
    - set (g := stop_gradient (pb_method pb) (grad (temperature (pb_smearing pb) (pb_epoch pb) n) (fst (traj n)))).
      assert (Hg : no_occ g) by (apply stop_gradient_no_occ, Hf).
      assert (Et : traj (S n) = (apply_updates (fst (traj n)) (fst (snd opt g (snd (traj n)))), snd (snd opt g (snd (traj n))))) by reflexivity.
      rewrite Et. cbn [fst snd]. split.
      + exists (gs ++ [g]). split; [apply Forall_app; auto|]. unfold opt_after. rewrite fold_left_app. cbn [fold_left]. fold (opt_after (snd opt) (fst opt p0) gs). rewrite <- Hs. reflexivity.
      + pose proof (Hl p0 gs g Hgs Hg) as Hz. rewrite <- Hs in Hz. unfold apply_updates. cbn [p_occ]. rewrite Ho'. unfold no_occ in Hz. destruct (p_occ (fst (snd opt g (snd (traj n))))) as [a b|a].
        * exists o'. auto.
        * exists (add_leaf o' a). split; [reflexivity|]. cbn [add_leaf tshape tget]. split; [exact So'|]. intros i. rewrite Hz, Go'. ring.
  Qed.
End Run.
