From Coq Require Import Reals Lra Lia Ascii String List Arith ZArith Bool FunctionalExtensionality.
From Coquelicot Require Import Complex.
From Verif Require Import Base Sums Tensor Lin3 VecModel OccModel EwaldModel GridModel GridProofs CalcModel CalcSpec CalcProofs.
Import ListNotations.
Local Open Scope R_scope.

(** ** The loop *)
Lemma since_reset_checks l : since_reset (map Check l) = l.
Proof.
  rewrite <- (rev_involutive l). set (r := rev l). clearbody r. induction r as [|x r IH]; [reflexivity|].
  cbn [rev]. unfold since_reset in *. rewrite map_app, fold_left_app, IH. reflexivity.
Qed.

Section Loop.
  Context {P Os D G : Type}.
  Variables (total entropy : P -> R) (grad : R -> P -> G)
            (optimizer : G -> Os -> G * Os) (apply_updates : P -> G -> P) (density : P -> D).

  Notation opt_step := (opt_step grad optimizer apply_updates).

  Section Run.
  Variables (sched : nat -> R) (p0 : P) (o0 : Os) (w : nat) (thr : R).
  Let traj := trajectory (fun i => opt_step (sched i)) (p0, o0).
  Let energies (n : nat) : list R := map (fun m => total (fst (traj m))) (seq 0 n).

  Definition inv (i : nat) (s : loop_state (P:=P) (Os:=Os)) : Prop :=
    (ls_params s, ls_opt s) = traj i /\
    ls_etot s = (match i with 0%nat => None | S m => Some (total (fst (traj m))) end) /\
    ls_checker s = CalcSpec.run (new_checker w thr) (map Check (energies i)) /\
    ls_steps s = i.

  Lemma loop_spec n : forall i s, inv i s -> ls_converged s = false ->
    let s' := main_loop total entropy grad optimizer apply_updates sched (seq i n) s in
    exists m, (i <= m <= i + n)%nat /\ inv m s' /\
      (forall q, (i < q < m)%nat -> ~ settled w thr (energies q)) /\
      (ls_converged s' = true -> (i < m)%nat /\ settled w thr (energies m)) /\
      (ls_converged s' = false -> m = (i + n)%nat /\ ((i < m)%nat -> ~ settled w thr (energies m))).
  Proof.
    induction n as [|n IH]; intros i s Hinv Hc; cbn [seq main_loop].
    - exists i. split; [lia|]. split; [exact Hinv|]. split; [lia|]. split; [congruence|]. intros _. lia.
    - destruct Hinv as (Hpo & He & Hk & Hs). unfold update.
      destruct (optimizer (grad (sched i) (ls_params s)) (ls_opt s)) as [u o'] eqn:Eo.
      destruct (check (ls_checker s) (total (ls_params s))) as [ck conv] eqn:Ek.
      set (s' := LoopState (apply_updates (ls_params s) u) o' (Some (total (ls_params s))) ck conv (S (ls_steps s))).
      assert (Hp : ls_params s = fst (traj i)) by (rewrite <- Hpo; reflexivity).
      assert (Ho : ls_opt s = snd (traj i)) by (rewrite <- Hpo; reflexivity).
      assert (Een : energies (S i) = energies i ++ [total (ls_params s)]).
      { unfold energies. rewrite seq_S, map_app, Hp. reflexivity. }
      assert (Hinv' : inv (S i) s').
      { unfold inv, s'. cbn [ls_params ls_opt ls_etot ls_checker ls_steps]. split; [|split; [|split]].
        - change (traj (S i)) with (opt_step (sched i) (traj i)). unfold opt_step. rewrite <- Hp, <- Ho, Eo. reflexivity.
        - rewrite Hp. reflexivity.
        - rewrite Een, map_app. unfold CalcSpec.run. rewrite fold_left_app. cbn [map fold_left].
          fold (CalcSpec.run (new_checker w thr) (map Check (energies i))). rewrite <- Hk, Ek. reflexivity.
        - rewrite Hs. reflexivity. }
      assert (Hconv : conv = true <-> settled w thr (energies (S i))).
      { rewrite Een, <- (since_reset_checks (energies i)), <- check_true_iff, <- Hk, Ek. reflexivity. }
      destruct conv.
      + exists (S i). split; [lia|]. split; [exact Hinv'|]. split; [lia|]. split.
        * intros _. split; [lia|]. apply Hconv. reflexivity.
        * cbn. discriminate.
      + assert (Hns : ~ settled w thr (energies (S i))) by (intros Hx; apply Hconv in Hx; discriminate).
        destruct (IH (S i) s' Hinv' eq_refl) as (m & Hm & Hi & Hq & Ht & Hf).
        exists m. split; [lia|]. split; [exact Hi|]. split; [|split].
        * intros q Hq'. destruct (Nat.eq_dec q (S i)) as [->|]; [exact Hns|]. apply Hq. lia.
        * intros H. destruct (Ht H). split; [lia|assumption].
        * intros H. destruct (Hf H) as [Hm' Hx]. split; [lia|]. intros _.
          destruct (Nat.eq_dec m (S i)) as [->|]; [exact Hns|]. apply Hx. lia.
  Qed.
  End Run.

  Lemma ground_state_spec smearing epoch w thr ew p0 o0 : (1 <= epoch)%nat ->
    let traj := trajectory (fun i => opt_step (temperature smearing epoch i)) (p0, o0) in
    let energies n := map (fun m => total (fst (traj m))) (seq 0 n) in
    exists n conv, (1 <= n <= epoch)%nat /\
      ground_state total entropy grad optimizer apply_updates density smearing epoch w thr ew p0 o0 =
        Ok (RunOutput (density (fst (traj n))) (total (fst (traj (n - 1)%nat)) + ew) conv n) /\
      (forall m, (1 <= m < n)%nat -> ~ settled w thr (energies m)) /\
      (conv = true <-> settled w thr (energies n)) /\ (conv = false -> n = epoch).
  Proof.
    intros He traj energies.
    set (s0 := LoopState p0 o0 None (new_checker w thr) false 0).
    assert (H0 : inv (temperature smearing epoch) p0 o0 w thr 0 s0) by (repeat split).
    destruct (loop_spec (temperature smearing epoch) p0 o0 w thr epoch 0 s0 H0 eq_refl) as (m & Hm & Hi & Hq & Ht & Hf).
    unfold ground_state. fold s0. set (s' := main_loop _ _ _ _ _ _ _ _) in *. clearbody s'.
    destruct Hi as (Hpo & Het & Hck & Hst).
    assert (Hm1 : (1 <= m)%nat).
    { destruct (ls_converged s'); [destruct (Ht eq_refl); lia|destruct (Hf eq_refl); lia]. }
    exists m, (ls_converged s'). split; [lia|]. rewrite Het. destruct m as [|m']; [lia|].
    assert (Hp : ls_params s' = fst (traj (S m'))) by (unfold traj; rewrite <- Hpo; reflexivity).
    cbn [Nat.sub]. rewrite Nat.sub_0_r, Hp, Hst. split; [reflexivity|]. split; [|split].
    - intros q Hq'. apply Hq. lia.
    - split; [intros H; apply Ht, H|]. intros H. destruct (ls_converged s'); [reflexivity|].
      destruct (Hf eq_refl) as [_ Hx]. exfalso. apply Hx; [lia|exact H].
    - intros H. destruct (Hf H). lia.
  Qed.

  Lemma ground_state_no_epoch smearing w thr ew p0 o0 :
    ground_state total entropy grad optimizer apply_updates density smearing 0 w thr ew p0 o0 = Err UnboundLocalErr.
  Proof. reflexivity. Qed.
End Loop.

(** ** Reshapes *)
Lemma unravel_ravel sh : forall i, inb i sh -> unravelF sh (ravelF sh i) = i.
Proof.
  induction sh as [|n sh IH]; intros i Hi; inversion Hi as [|k m i' sh' Hk Hr]; subst; cbn [ravelF unravelF]; [reflexivity|].
  assert (n <> 0)%nat by lia.
  replace (k + n * ravelF sh i')%nat with (k + ravelF sh i' * n)%nat by lia.
  rewrite Nat.mod_add, Nat.div_add, Nat.mod_small, Nat.div_small by lia. cbn [Nat.add]. rewrite IH by exact Hr. reflexivity.
Qed.

Lemma blocks_length {A} D n (l : list A) : length (blocks D n l) = D.
Proof. revert l. induction D as [|D IH]; intros l; cbn [blocks length]; [reflexivity|]. rewrite IH. reflexivity. Qed.

Lemma skipn_skipn' {A} a b (l : list A) : skipn a (skipn b l) = skipn (b + a) l.
Proof.
  revert l. induction b as [|b IH]; intros l; [reflexivity|]. destruct l as [|x l]; [rewrite !skipn_nil; reflexivity|]. cbn. apply IH.
Qed.

Lemma blocks_nth {A} D n (l : list A) d : (d < D)%nat -> nth d (blocks D n l) [] = firstn n (skipn (d * n) l).
Proof.
  revert l d. induction D as [|D IH]; intros l d Hd; [lia|]. cbn [blocks]. destruct d as [|d]; [reflexivity|].
  cbn [nth]. rewrite IH by lia. rewrite skipn_skipn'. reflexivity.
Qed.

Lemma nth_block {A} D n (l : list A) d j x : (d < D)%nat -> (j < n)%nat ->
  nth j (nth d (blocks D n l) []) x = nth (d * n + j) l x.
Proof.
  intros Hd Hj. rewrite blocks_nth by exact Hd.
  rewrite <- (firstn_skipn (d * n) l) at 2.
  assert (Hf : forall m (l : list A) i, (i < m)%nat -> nth i (firstn m l) x = nth i l x).
  { induction m as [|m IH]; intros l0 i Hi; [lia|]. destruct l0; [reflexivity|]. destruct i; [reflexivity|]. cbn. apply IH. lia. }
  rewrite Hf by exact Hj.
  destruct (le_lt_dec (d * n) (length l)) as [Hl|Hl].
  - rewrite app_nth2; rewrite firstn_length, Nat.min_l by lia; [|lia]. f_equal. lia.
  - rewrite skipn_all2 by lia. rewrite app_nil_r, (nth_overflow (firstn _ _)); [destruct j; reflexivity|].
    rewrite firstn_length. lia.
Qed.

Lemma block_length {A} D n (l : list A) d : (d < D)%nat -> (length l = D * n)%nat -> length (nth d (blocks D n l) []) = n.
Proof.
  intros Hd Hl. rewrite blocks_nth by exact Hd. rewrite firstn_length, skipn_length, Hl.
  apply Nat.min_l. nia.
Qed.

Lemma mapM_all_ok {A B} (f : A -> res B) (g : A -> B) l : (forall a, In a l -> f a = Ok (g a)) -> mapM f l = Ok (map g l).
Proof.
  induction l as [|a l IH]; intros H; [reflexivity|]. cbn [mapM map]. rewrite (H a (or_introl eq_refl)). cbn [bind].
  rewrite IH by (intros; apply H; right; assumption). reflexivity.
Qed.

Lemma jstack_ok {A} (l : list (tensor A)) sh t0 : l <> [] -> (forall t, In t l -> tshape t = sh) ->
  exists t, jstack l = Ok t /\ tshape t = length l :: sh /\ forall j i, (j < length l)%nat -> tget t (j :: i) = tget (nth j l t0) i.
Proof.
  intros Hl Hs. destruct l as [|a l]; [congruence|]. unfold jstack.
  assert (Hf : forallb (fun t => shape_eqb (tshape t) (tshape a)) (a :: l) = true).
  { apply forallb_forall. intros t Ht. unfold shape_eqb. rewrite (Hs t Ht), (Hs a (or_introl eq_refl)).
    destruct (list_eq_dec _ _ _); congruence. }
  rewrite Hf. eexists. split; [reflexivity|]. split.
  - cbn [tshape]. rewrite (Hs a (or_introl eq_refl)). reflexivity.
  - intros j i Hj. cbn [tget hd tl]. f_equal. apply nth_indep. exact Hj.
Qed.

(** ** Bands *)
Lemma iter_swap {X} n (f : X -> X) x : Nat.iter (S n) f x = Nat.iter n f (f x).
Proof. induction n as [|n IH]; [reflexivity|]. change (f (Nat.iter (S n) f x) = f (Nat.iter n f (f x))). rewrite IH. reflexivity. Qed.
Section Band.
  Context {P Os : Type}.
  Variables (step : P -> Os -> v3 -> P * Os) (eig : P -> v3 -> tensor R) (first tune : nat).

  Lemma scan_repeat n : forall po k, scan_update step n po k = repeat_at step n k po.
  Proof.
    unfold repeat_at. induction n as [|n IH]; intros po k; [reflexivity|]. cbn [scan_update]. rewrite IH.
    exact (eq_sym (iter_swap n (fun q => step (fst q) (snd q) k) po)).
  Qed.

  Lemma warm_shift k0 ks po j : warm_start step tune tune ks (scan_update step first po k0) j =
                               warm_start step first tune (k0 :: ks) po (S j).
  Proof.
    induction j as [|j IH].
    - cbn [warm_start nth]. rewrite <- scan_repeat. rewrite <- !scan_repeat. reflexivity.
    - cbn [warm_start nth] in *. rewrite IH. reflexivity.
  Qed.

End Band.

Lemma eig_scan_length {P} (eig : P -> v3 -> tensor R) ks ps : length ks = length ps -> length (eig_scan eig ks ps) = length ks.
Proof. revert ps. induction ks as [|k ks IH]; intros [|p ps] H; cbn in *; try reflexivity; try discriminate. rewrite IH; lia. Qed.

Lemma finetune_length {P Os} (step : P -> Os -> v3 -> P * Os) tune po ks : length (finetune step tune po ks) = length ks.
Proof. revert po. induction ks as [|k ks IH]; intros po; cbn; [reflexivity|]. rewrite IH. reflexivity. Qed.

Section Band2.
  Context {P Os : Type}.
  Variables (step : P -> Os -> v3 -> P * Os) (eig : P -> v3 -> tensor R) (tune : nat).
  Lemma eig_scan_nth ks : forall po j d, (j < length ks)%nat ->
    nth j (eig_scan eig ks (finetune step tune po ks)) d = eig (fst (warm_start step tune tune ks po j)) (nth j ks vzero).
  Proof.
    induction ks as [|k ks IH]; intros po j d Hj; cbn in Hj; [lia|]. cbn [finetune eig_scan]. destruct j as [|j].
    - cbn [nth warm_start]. rewrite <- scan_repeat. reflexivity.
    - cbn [nth]. rewrite IH by lia. rewrite (warm_shift step tune tune k ks po j). reflexivity.
  Qed.
End Band2.

Section Band3.
  Context {P Os : Type}.
  Variables (step : P -> Os -> v3 -> P * Os) (eig : P -> v3 -> tensor R) (first tune : nat).

  Definition dT : tensor R := mkT [] (fun _ => 0).

  Lemma optimize_ok ks po : ks <> [] ->
    exists out, optimize_eigenvalues step eig first tune ks po = Ok out /\ length out = length ks /\
      forall j, (j < length ks)%nat -> nth j out dT = eig (fst (warm_start step first tune ks po j)) (nth j ks vzero).
  Proof.
    intros H. destruct ks as [|k0 rest]; [congruence|]. eexists. split; [reflexivity|]. split.
    - cbn [length]. rewrite eig_scan_length by (rewrite finetune_length; reflexivity). reflexivity.
    - intros j Hj. destruct j as [|j].
      + cbn [nth warm_start]. rewrite scan_repeat. reflexivity.
      + cbn [nth length] in *. rewrite eig_scan_nth by lia. rewrite warm_shift. reflexivity.
  Qed.

  (** the blocks, solved and stacked *)
  Lemma pmap_ok D n path po sh : (1 <= D)%nat -> (1 <= n)%nat -> (length path = D * n)%nat ->
    (forall p k, tshape (eig p k) = sh) ->
    exists outs, pmap_eigenvalues step eig first tune D (blocks D n path) po = Ok outs /\ length outs = n /\
      (forall t, In t outs -> tshape t = D :: sh) /\
      forall j d i, (j < n)%nat -> (d < D)%nat ->
        tget (nth j outs dT) (d :: i) =
        tget (eig (fst (warm_start step first tune (nth d (blocks D n path) []) po j)) (nth (d * n + j) path vzero)) i.
  Proof.
    intros HD Hn Hl Hsh. unfold pmap_eigenvalues. rewrite blocks_length, Nat.eqb_refl. cbn [negb].
    set (kss := blocks D n path).
    assert (Hlen : forall ks, In ks kss -> length ks = n).
    { intros ks Hk. apply (In_nth _ _ []) in Hk. destruct Hk as (d & Hd & <-). unfold kss in *. rewrite blocks_length in Hd.
      apply block_length; assumption. }
    set (solve := fun ks => match optimize_eigenvalues step eig first tune ks po with Ok o => o | Err _ => [] end).
    assert (Hs : forall ks, In ks kss -> optimize_eigenvalues step eig first tune ks po = Ok (solve ks)).
    { intros ks Hk. unfold solve. destruct (optimize_ok ks po) as (o & Ho & _); [intros ->; apply Hlen in Hk; cbn in Hk; lia|].
      rewrite Ho. reflexivity. }
    rewrite (mapM_all_ok _ solve) by exact Hs. cbn [bind].
    assert (Hsl : forall ks, In ks kss -> length (solve ks) = n /\
       forall j, (j < n)%nat -> nth j (solve ks) dT = eig (fst (warm_start step first tune ks po j)) (nth j ks vzero)).
    { intros ks Hk. destruct (optimize_ok ks po) as (o & Ho & Hlo & Hno); [intros ->; apply Hlen in Hk; cbn in Hk; lia|].
      pose proof (Hs ks Hk) as E. rewrite E in Ho. injection Ho as <-. rewrite (Hlen ks Hk) in *. split; assumption. }
    assert (Hkl : length kss = D) by apply blocks_length.
    assert (Hh : length (hd [] (map solve kss)) = n).
    { destruct kss as [|k0 kss'] eqn:Ek; [cbn in Hkl; lia|]. cbn. apply Hsl. left. reflexivity. }
    rewrite Hh. fold dT.
    set (col := fun j => map (fun o => nth j o dT) (map solve kss)).
    assert (Hcol : forall j, (j < n)%nat -> exists t, jstack (col j) = Ok t /\ tshape t = D :: sh /\
       forall d i, (d < D)%nat -> tget t (d :: i) = tget (nth j (nth d (map solve kss) []) dT) i).
    { intros j Hj. destruct (jstack_ok (col j) sh dT) as (t & Ht & Hts & Htg).
      - unfold col. destruct kss; [cbn in Hkl; lia|]. discriminate.
      - intros t Ht. unfold col in Ht. apply in_map_iff in Ht. destruct Ht as (o & <- & Ho).
        apply in_map_iff in Ho. destruct Ho as (ks & <- & Hk). rewrite (proj2 (Hsl ks Hk) j Hj). apply Hsh.
      - exists t. split; [exact Ht|]. unfold col in Hts, Htg. rewrite !map_length, Hkl in Hts. split; [exact Hts|].
        intros d i Hd. rewrite Htg by (rewrite !map_length, Hkl; exact Hd). f_equal.
        rewrite (nth_indep _ dT (nth j (@nil (tensor R)) dT)) by (rewrite !map_length, Hkl; exact Hd).
        rewrite map_nth with (f := fun o => nth j o dT). reflexivity. }
    set (st := fun j => match jstack (col j) with Ok t => t | Err _ => dT end).
    assert (Hst : forall j, (j < n)%nat -> jstack (col j) = Ok (st j)).
    { intros j Hj. unfold st. destruct (Hcol j Hj) as (t & Ht & _). rewrite Ht. reflexivity. }
    exists (map st (seq 0 n)). split; [|split; [|split]].
    - apply (mapM_all_ok (fun j => jstack (col j)) st). intros j Hj. apply Hst. apply in_seq in Hj. lia.
    - rewrite map_length, seq_length. reflexivity.
    - intros t Ht. apply in_map_iff in Ht. destruct Ht as (j & <- & Hj). apply in_seq in Hj.
      destruct (Hcol j ltac:(lia)) as (t & Ht & Hts & _). unfold st. rewrite Ht. exact Hts.
    - intros j d i Hj Hd. rewrite (nth_indep _ dT (st 0%nat)) by (rewrite map_length, seq_length; exact Hj).
      rewrite map_nth, seq_nth by exact Hj. cbn [Nat.add].
      destruct (Hcol j Hj) as (t & Ht & _ & Htg). unfold st. rewrite Ht, Htg by exact Hd.
      rewrite (nth_indep _ [] (solve [])) by (rewrite map_length, Hkl; exact Hd). rewrite map_nth.
      assert (Hin : In (nth d kss []) kss) by (apply nth_In; rewrite Hkl; exact Hd).
      rewrite (proj2 (Hsl _ Hin) j Hj). unfold kss. rewrite nth_block by assumption. reflexivity.
  Qed.
End Band3.

Lemma reshape_rows_ok {A} D n (l : list A) : (1 <= D)%nat -> (length l = D * n)%nat -> reshape_rows D l = Ok (blocks D n l).
Proof.
  intros HD Hl. unfold reshape_rows. destruct (Nat.eqb_spec D 0); [lia|]. rewrite Hl.
  rewrite (Nat.mul_comm D n), Nat.mod_mul, Nat.div_mul by lia. reflexivity.
Qed.
Lemma reshape_rows_inv {A} D (l : list A) kss : reshape_rows D l = Ok kss ->
  exists n, (1 <= D)%nat /\ (length l = D * n)%nat /\ kss = blocks D n l.
Proof.
  unfold reshape_rows. destruct (Nat.eqb_spec D 0); [discriminate|]. destruct (Nat.eqb_spec (length l mod D) 0) as [E|]; [|discriminate].
  intros H. injection H as <-. exists (length l / D)%nat. split; [lia|]. split; [|reflexivity].
  pose proof (Nat.div_mod (length l) D n). lia.
Qed.

Section Band4.
  Context {P Os : Type}.
  Variables (step : P -> Os -> v3 -> P * Os) (eig : P -> v3 -> tensor R) (first tune : nat).

  Lemma band_all_ok D n path po Sp B : (1 <= D)%nat -> (1 <= n)%nat -> (length path = D * n)%nat ->
    (forall p k, tshape (eig p k) = [Sp; 1; B]%nat) -> forall parallel : bool, (parallel = true \/ D = 1%nat) ->
    exists t, band_all_electrons step eig first tune D parallel (D * n) B path po = Ok t /\
      tshape t = [Sp; (D * n)%nat; B] /\
      forall s d j b, (s < Sp)%nat -> (d < D)%nat -> (j < n)%nat -> (b < B)%nat ->
        tget t [s; (d * n + j)%nat; b] =
        tget (eig (fst (warm_start step first tune (firstn n (skipn (d * n) path)) po j)) (nth (d * n + j) path vzero)) [s; 0%nat; b].
  Proof.
    intros HD Hn Hl Hsh parallel Hpar. unfold band_all_electrons. rewrite (reshape_rows_ok D n) by assumption. cbn [bind].
    assert (Hu : (if parallel then D else 1%nat) = D) by (destruct Hpar as [->| ->]; [reflexivity|destruct parallel; reflexivity]).
    rewrite Hu.
    destruct (pmap_ok step eig first tune D n path po _ HD Hn Hl Hsh) as (outs & Ho & Hlo & Hso & Hgo).
    rewrite Ho. cbn [bind].
    destruct (jstack_ok outs (D :: [Sp; 1; B]%nat) dT) as (e & He & Hes & Heg); [intros ->; cbn in Hlo; lia|exact Hso|].
    rewrite He. cbn [bind]. rewrite Hlo in *. rewrite Hes. cbn [nth]. unfold reshapeF. rewrite Hes.
    assert (Hpr : (nprod [n; D; Sp; 1; B] = nprod [D * n; Sp; B])%nat) by (cbn [nprod]; nia).
    rewrite Hpr, Nat.eqb_refl. cbn [bind]. unfold transpose102. cbn [tshape].
    eexists. split; [reflexivity|]. split; [reflexivity|].
    intros s d j b Hs Hd Hj Hb. cbn [tget].
    assert (Er : ravelF [(D * n)%nat; Sp; B] [(d * n + j)%nat; s; b] = ravelF [n; D; Sp; 1%nat; B] [j; d; s; 0%nat; b]) by (cbn [ravelF]; nia).
    rewrite Er, unravel_ravel by (repeat constructor; lia). rewrite Heg by exact Hj. rewrite Hgo by assumption.
    rewrite blocks_nth by exact Hd. reflexivity.
  Qed.

  Lemma band_all_one_device D path po K B : (1 < D)%nat ->
    raises (band_all_electrons step eig first tune D false K B path po).
  Proof.
    intros HD. unfold band_all_electrons. destruct (reshape_rows D path) as [kss|e] eqn:E; [|exists e; reflexivity].
    apply reshape_rows_inv in E. destruct E as (n & _ & _ & ->). cbn [bind]. unfold pmap_eigenvalues.
    rewrite blocks_length. destruct (Nat.eqb_spec D 1); [lia|]. cbn. eexists. reflexivity.
  Qed.

  Lemma band_all_iff D parallel K Sp B path po : (1 <= Sp)%nat -> (1 <= B)%nat ->
    (forall p k, tshape (eig p k) = [Sp; 1; B]%nat) ->
    (exists t, band_all_electrons step eig first tune D parallel K B path po = Ok t) <->
    (exists n, (1 <= D)%nat /\ (1 <= n)%nat /\ (length path = D * n)%nat) /\ (parallel = true \/ D = 1%nat) /\ K = length path.
  Proof.
    intros HS HB Hsh. split.
    - intros [t Ht]. unfold band_all_electrons in Ht. destruct (reshape_rows D path) as [kss|] eqn:E; [|discriminate].
      apply reshape_rows_inv in E. destruct E as (n & HD & Hl & ->). cbn [bind] in Ht.
      assert (Hpar : (if parallel then D else 1%nat) = D).
      { destruct (pmap_eigenvalues step eig first tune (if parallel then D else 1%nat) (blocks D n path) po) eqn:Ep; [|discriminate].
        unfold pmap_eigenvalues in Ep. rewrite blocks_length in Ep. destruct (Nat.eqb_spec D (if parallel then D else 1%nat)); [congruence|discriminate]. }
      rewrite Hpar in Ht.
      assert (Hn : (1 <= n)%nat).
      { destruct n; [|lia]. exfalso. unfold pmap_eigenvalues in Ht. rewrite blocks_length, Nat.eqb_refl in Ht. cbn [negb] in Ht.
        destruct D; [lia|]. cbn in Ht. discriminate. }
      destruct (pmap_ok step eig first tune D n path po _ HD Hn Hl Hsh) as (outs & Ho & Hlo & Hso & Hgo).
      rewrite Ho in Ht. cbn [bind] in Ht.
      destruct (jstack_ok outs (D :: [Sp; 1; B]%nat) dT) as (e & He & Hes & Heg); [intros ->; cbn in Hlo; lia|exact Hso|].
      rewrite He in Ht. cbn [bind] in Ht. unfold reshapeF in Ht. rewrite Hes, Hlo in Ht. cbn [nth] in Ht.
      destruct (Nat.eqb_spec (nprod [n; D; Sp; 1; B]%nat) (nprod [K; Sp; B])) as [En|]; [|discriminate].
      cbn [nprod] in En. split; [exists n; repeat split; assumption|]. split; [destruct parallel; [left; reflexivity|right; lia]|].
      rewrite Hl. assert (HSB : (Sp * B <> 0)%nat) by nia. apply (Nat.mul_cancel_r _ _ (Sp * B)); [exact HSB|]. nia.
    - intros ((n & HD & Hn & Hl) & Hpar & ->). rewrite Hl.
      destruct (band_all_ok D n path po Sp B HD Hn Hl Hsh parallel Hpar) as (t & Ht & _). exists t. exact Ht.
  Qed.

  (** norm-conserving driver *)
  Lemma band_nc_ok {GS} D n path po B : (1 <= D)%nat -> (1 <= n)%nat -> (length path = D * n)%nat -> (1 <= B)%nat ->
    (forall p k, tshape (eig p k) = [1; B]%nat) -> forall (parallel : bool) (devices : nat), D = (if parallel then devices else 1%nat) ->
    exists t, band_normcons step eig first tune (@None GS) devices parallel path po = Ok t /\ tshape t = [(D * n)%nat; B] /\
      forall d j b, (d < D)%nat -> (j < n)%nat -> (b < B)%nat ->
        tget t [(d * n + j)%nat; b] =
        tget (eig (fst (warm_start step first tune (firstn n (skipn (d * n) path)) po j)) (nth (d * n + j) path vzero)) [0%nat; b].
  Proof.
    intros HD Hn Hl HB Hsh parallel devices HDu. unfold band_normcons. rewrite <- HDu.
    rewrite (reshape_rows_ok D n) by assumption. cbn [bind].
    destruct (pmap_ok step eig first tune D n path po _ HD Hn Hl Hsh) as (outs & Ho & Hlo & Hso & Hgo).
    rewrite Ho. cbn [bind].
    destruct (jstack_ok outs (D :: [1; B]%nat) dT) as (e & He & Hes & Heg); [intros ->; cbn in Hlo; lia|exact Hso|].
    rewrite He. cbn [bind]. rewrite Hlo in *. rewrite Hes. cbn [last]. destruct (Nat.eqb_spec B 0); [lia|].
    assert (Ed : (nprod [n; D; 1; B] / B = D * n)%nat).
    { cbn [nprod]. replace (n * (D * (1 * (B * 1))))%nat with (D * n * B)%nat by lia. apply Nat.div_mul. lia. }
    rewrite Ed. unfold reshapeF. rewrite Hes.
    assert (Hpr : (nprod [n; D; 1; B] = nprod [D * n; B])%nat) by (cbn [nprod]; nia).
    rewrite Hpr, Nat.eqb_refl. eexists. split; [reflexivity|]. split; [reflexivity|].
    intros d j b Hd Hj Hb. cbn [tget].
    assert (Er : ravelF [(D * n)%nat; B] [(d * n + j)%nat; b] = ravelF [n; D; 1%nat; B] [j; d; 0%nat; b]) by (cbn [ravelF]; nia).
    rewrite Er, unravel_ravel by (repeat constructor; lia). rewrite Heg by exact Hj. rewrite Hgo by assumption.
    rewrite blocks_nth by exact Hd. reflexivity.
  Qed.

  Lemma band_nc_given {GS} (gs : GS) devices parallel path po :
    raises (band_normcons step eig first tune (Some gs) devices parallel path po).
  Proof. unfold band_normcons. destruct (reshape_rows _ _); eexists; reflexivity. Qed.
End Band4.

(** ** k-path *)
Lemma bohr_pos : 0 < bohr2angstrom.
Proof. unfold bohr2angstrom. lra. Qed.

Lemma get_k_path_fractional bandpath A path num : m3det A <> 0 ->
  get_k_path bandpath A path num true = bandpath (m3scale bohr2angstrom A) path num.
Proof.
  intros HA. unfold get_k_path. rewrite map_map. rewrite <- (map_id (bandpath _ _ _)) at 2. apply map_ext. intros f.
  pose proof bohr_pos as Hc. set (c := bohr2angstrom) in *. clearbody c.
  assert (Hi : m3inv (m3scale c A) = m3scale (/ c) (m3inv A)).
  { apply m3inv_unique. rewrite m3mul_scale_l, m3mul_scale_r, m3scale_scale, Rinv_r, m3scale_1, m3inv_r by (lra || exact HA). reflexivity. }
  rewrite Hi, m3t_scale, vmul_mscale.
  assert (Es : vscale c (vscale (/ c) (vmul f (m3t (m3inv A)))) = vmul f (m3t (m3inv A))).
  { destruct (vmul f (m3t (m3inv A))) as [x y z]. unfold vscale. cbn. f_equal; field; lra. }
  rewrite Es, vmul_assoc, <- m3t_mul, m3inv_r, m3t_id, vmul_id by exact HA. reflexivity.
Qed.

Lemma get_k_path_cartesian bandpath A path num : m3det A <> 0 ->
  get_k_path bandpath A path num false =
  map (fun f => vmul f (reciprocal_vectors A)) (bandpath (m3scale bohr2angstrom A) path num).
Proof.
  intros HA. rewrite <- (get_k_path_fractional bandpath A path num HA). unfold get_k_path.
  apply map_ext. intros f. unfold reciprocal_vectors. rewrite m3scale_scale, (Rmult_comm PI 2). reflexivity.
Qed.

(** ** Cache *)
Fixpoint read_decimal (s : string) (a : nat) : nat :=
  match s with EmptyString => a | String c s' => read_decimal s' (10 * a + (nat_of_ascii c - 48)) end.
Lemma digit_value n : (n < 10)%nat -> (nat_of_ascii (digit n) - 48 = n)%nat.
Proof. intros H. unfold digit. rewrite nat_ascii_embedding by lia. lia. Qed.
Lemma read_decimal_aux fuel : forall n acc, (n < fuel)%nat -> read_decimal (decimal_aux fuel n acc) 0 = read_decimal acc n.
Proof.
  induction fuel as [|f IH]; intros n acc H; [lia|]. cbn [decimal_aux].
  assert (Hm : (n mod 10 < 10)%nat) by (apply Nat.mod_upper_bound; lia).
  pose proof (Nat.div_mod n 10 ltac:(lia)) as Hd.
  destruct (Nat.eqb_spec (n / 10) 0) as [E|E].
  - cbn [read_decimal]. rewrite digit_value by exact Hm. f_equal. lia.
  - rewrite IH by (assert (n / 10 < n)%nat by (apply Nat.div_lt; lia); lia).
    cbn [read_decimal]. rewrite digit_value by exact Hm. f_equal. lia.
Qed.
Lemma decimal_inj m n : decimal m = decimal n -> m = n.
Proof.
  intros H. apply (f_equal (fun s => read_decimal s 0)) in H. unfold decimal in H.
  rewrite !read_decimal_aux in H by lia. exact H.
Qed.
Lemma append_inj p a b : append p a = append p b -> a = b.
Proof. induction p as [|c p IH]; cbn [append]; [auto|]. intros H. apply IH. injection H. auto. Qed.
Lemma arr_name_inj m n : arr_name m = arr_name n -> m = n.
Proof. unfold arr_name. intros H. apply append_inj in H. apply decimal_inj. exact H. Qed.

Lemma savez_lookup {A} (l : list A) s i : (i < length l)%nat ->
  assoc (arr_name (s + i)) (combine (map arr_name (seq s (length l))) l) = nth_error l i.
Proof.
  revert s i. induction l as [|a l IH]; intros s i Hi; cbn in Hi; [lia|]. cbn [length seq map combine assoc].
  destruct (String.eqb_spec (arr_name (s + i)) (arr_name s)) as [E|E].
  - apply arr_name_inj in E. assert (i = 0)%nat by lia. subst. reflexivity.
  - destruct i as [|i]; [rewrite Nat.add_0_r in E; congruence|]. cbn [nth_error].
    rewrite <- (IH (S s) i) by lia. f_equal. f_equal. lia.
Qed.

Lemma load_after_save {A} default (fs fs' : filesystem A) output :
  save_beta_sbt default fs output None = Ok fs' -> load_beta_sbt default fs' None = Ok output.
Proof.
  intros H. injection H as <-. unfold load_beta_sbt. cbn [assoc]. rewrite String.eqb_refl.
  unfold np_savez. rewrite combine_length, map_length, seq_length, Nat.min_id.
  apply mapM_ok.
  assert (G : forall s l', (forall i, (i < length l')%nat -> assoc (arr_name (s + i)) (combine (map arr_name (seq 0 (length output))) output) = nth_error l' i) ->
     Forall2 (fun i b => match assoc (arr_name i) (combine (map arr_name (seq 0 (length output))) output) with Some a => Ok a | None => Err KeyErr end = Ok b)
       (seq s (length l')) l').
  { intros s l'. revert s. induction l' as [|a l' IH]; intros s Hl; cbn [length seq]; constructor.
    - specialize (Hl 0%nat ltac:(cbn; lia)). rewrite Nat.add_0_r in Hl. rewrite Hl. reflexivity.
    - apply IH. intros i Hi. specialize (Hl (S i) ltac:(cbn; lia)). rewrite <- Nat.add_succ_comm in Hl. exact Hl. }
  apply (G 0%nat output). intros i Hi. apply (savez_lookup output 0 i Hi).
Qed.

(** ** Configuration *)
Lemma assoc_set {k} (c : cfg) v : assoc k (setattr c k v) = Some v.
Proof.
  induction c as [|[k' v'] c IH]; cbn; [rewrite String.eqb_refl; reflexivity|].
  destruct (String.eqb k k') eqn:E; cbn; rewrite E; [reflexivity|exact IH].
Qed.
Lemma assoc_set_other (c : cfg) k k0 v : k0 <> k -> assoc k0 (setattr c k v) = assoc k0 c.
Proof.
  intros Hn. induction c as [|[k' v'] c IH]; cbn.
  - destruct (String.eqb_spec k0 k); [congruence|reflexivity].
  - destruct (String.eqb_spec k k') as [->|]; cbn.
    + destruct (String.eqb_spec k0 k'); [congruence|reflexivity].
    + destruct (String.eqb k0 k'); [reflexivity|exact IH].
Qed.
Lemma set_keys (c : cfg) k v : has_key c k -> map fst (setattr c k v) = map fst c.
Proof.
  unfold has_key. induction c as [|[k' v'] c IH]; cbn; [tauto|]. intros [->|H].
  - rewrite String.eqb_refl. reflexivity.
  - destruct (String.eqb k k'); [reflexivity|]. cbn. rewrite IH by exact H. reflexivity.
Qed.
Lemma assoc_key {V} k (c : list (string * V)) v : assoc k c = Some v -> has_key c k.
Proof.
  unfold has_key. induction c as [|[k' v'] c IH]; cbn; [discriminate|]. destruct (String.eqb_spec k k') as [->|].
  - auto.
  - intros H. right. apply IH. exact H.
Qed.
Lemma assoc_none {V} k (c : list (string * V)) : assoc k c = None <-> ~ has_key c k.
Proof.
  unfold has_key. induction c as [|[k' v'] c IH]; cbn; [tauto|]. destruct (String.eqb_spec k k') as [->|].
  - split; [discriminate|]. intros H. exfalso. apply H. auto.
  - rewrite IH. intuition congruence.
Qed.

Lemma get_config_file m c : get_config (Some (YMap m)) = Ok c ->
  map fst c = map fst m /\
  (forall k, k <> "band_structure_empty_bands"%string -> assoc k c = assoc k m) /\
  (assoc "band_structure_empty_bands"%string m <> Some VNone -> c = m) /\
  (assoc "band_structure_empty_bands"%string m = Some VNone ->
     assoc "band_structure_empty_bands"%string c = assoc "empty_bands"%string m).
Proof.
  unfold get_config. cbn [bind]. unfold getattr. destruct (assoc "band_structure_empty_bands" m) as [b|] eqn:Eb; [|discriminate].
  cbn [bind]. intros H.
  assert (Hk : has_key m "band_structure_empty_bands") by (eapply assoc_key; exact Eb).
  destruct b; try (injection H as <-; split; [reflexivity|]; split; [reflexivity|]; split; [reflexivity|congruence]).
  destruct (assoc "empty_bands" m) as [e|] eqn:Ee; [|discriminate]. cbn [bind] in H. injection H as <-.
  split; [apply set_keys; exact Hk|]. split; [intros k Hn; apply assoc_set_other; exact Hn|]. split; [congruence|].
  intros _. apply assoc_set.
Qed.

Lemma get_config_raises m : raises (get_config (Some (YMap m))) <->
  ~ has_key m "band_structure_empty_bands" \/
  (assoc "band_structure_empty_bands"%string m = Some VNone /\ ~ has_key m "empty_bands").
Proof.
  unfold get_config. cbn [bind]. unfold getattr, raises. rewrite <- !assoc_none.
  destruct (assoc "band_structure_empty_bands" m) as [b|] eqn:Eb.
  - cbn [bind]. destruct b; try (split; [intros [e H]; discriminate|intros [H|[H _]]; discriminate]).
    destruct (assoc "empty_bands" m) as [e|] eqn:Ee; cbn [bind].
    + split; [intros [e0 H]; discriminate|intros [H|[_ H]]; discriminate].
    + split; [right; split; reflexivity|]. intros _. eexists. reflexivity.
  - cbn [bind]. split; [auto|]. intros _. eexists. reflexivity.
Qed.

Lemma get_config_default : get_config None = Ok default_config.
Proof. reflexivity. Qed.

(** ** Command line *)
Section Args.
  Variables (pi : string -> option Z) (pf : string -> option R).
  Lemma apply_args_untouched c0 args : forall c c', apply_args pi pf c0 c args = Ok c' ->
    forall k, ~ In k (map fst args) -> assoc k c' = assoc k c.
  Proof.
    induction args as [|[k0 t] args IH]; intros c c' H k Hk; cbn in H, Hk.
    - injection H as <-. reflexivity.
    - destruct (assoc k0 c0) as [v|]; [|discriminate]. destruct (convert pi pf v t) as [v'|]; [|discriminate]. cbn [bind] in H.
      rewrite (IH _ _ H k) by tauto. apply assoc_set_other. intros ->. tauto.
  Qed.
  Lemma apply_args_last c0 args : forall c c' k t, apply_args pi pf c0 c (args ++ [(k, t)]) = Ok c' ->
    exists v v', assoc k c0 = Some v /\ convert pi pf v t = Ok v' /\ assoc k c' = Some v'.
  Proof.
    induction args as [|[k0 t0] args IH]; intros c c' k t H; cbn in H.
    - destruct (assoc k c0) as [v|]; [|discriminate]. destruct (convert pi pf v t) as [v'|] eqn:Ev; [|discriminate]. cbn in H.
      injection H as <-. exists v, v'. rewrite assoc_set. auto.
    - destruct (assoc k0 c0) as [v|]; [|discriminate]. destruct (convert pi pf v t0) as [v'|]; [|discriminate]. cbn [bind] in H.
      apply (IH _ _ _ _ H).
  Qed.
  Lemma parse_args_bool c args c' k t b : parse_args pi pf c args = Ok c' -> assoc k c = Some (VBool b) ->
    forall pre post, args = pre ++ (k, t) :: post -> ~ In k (map fst post) -> t <> ""%string -> assoc k c' = Some (VBool true).
  Proof.
    intros H Hb pre post -> Hp Ht. unfold parse_args in H.
    assert (G : forall cc, apply_args pi pf c cc (pre ++ (k, t) :: post) = Ok c' ->
              exists cm, apply_args pi pf c cc (pre ++ [(k, t)]) = Ok cm /\ apply_args pi pf c cm post = Ok c').
    { clear H. induction pre as [|[k0 t0] pre IH]; intros cc H; cbn in *.
      - destruct (assoc k c) as [v|]; [|discriminate]. destruct (convert pi pf v t) as [v'|]; [|discriminate]. cbn in *.
        eexists. split; [reflexivity|exact H].
      - destruct (assoc k0 c) as [v|]; [|discriminate]. destruct (convert pi pf v t0) as [v'|]; [|discriminate]. cbn in *.
        apply IH. exact H. }
    destruct (G _ H) as (cm & H1 & H2).
    destruct (apply_args_last _ _ _ _ _ _ H1) as (v & v' & Hv & Hc & Hk).
    rewrite (apply_args_untouched _ _ _ _ H2 k Hp), Hk. rewrite Hv in Hb. injection Hb as ->. cbn in Hc.
    destruct (String.eqb_spec t ""); [congruence|]. injection Hc as <-. reflexivity.
  Qed.
  Lemma parse_args_none c args k t : In (k, t) args -> assoc k c = Some VNone -> raises (parse_args pi pf c args).
  Proof.
    intros Hin Hn. unfold parse_args. generalize c at 2. induction args as [|[k0 t0] args IH]; intros cc; [destruct Hin|].
    cbn. destruct Hin as [E|Hin].
    - injection E as -> ->. rewrite Hn. cbn. eexists. reflexivity.
    - destruct (assoc k0 c) as [v|]; [|eexists; reflexivity]. destruct (convert pi pf v t0) as [v'|]; [|eexists; reflexivity].
      cbn [bind]. apply IH. exact Hin.
  Qed.
End Args.

(** ** vmapstack *)

Section Vmap.
  Context {A B : Type}.
  Lemma vmap_determined (f : tensor A -> tensor B) : shape_determined f -> shape_determined (vmap f).
  Proof. intros H a b E. unfold vmap. cbn [tshape]. rewrite E. f_equal. apply H. unfold slice0. cbn. rewrite E. reflexivity. Qed.

  Lemma sub_sub (t : tensor A) i k : slice0 (sub t i) k = sub t (i ++ [k]).
  Proof.
    unfold slice0, sub. cbn [tshape tget]. f_equal.
    - rewrite app_length. cbn [length]. rewrite Nat.add_1_r. revert i. induction (tshape t) as [|n sh IH]; intros i.
      + rewrite !skipn_nil. reflexivity.
      + destruct i as [|x i]; [reflexivity|]. cbn [length skipn]. apply IH.
    - extensionality j. rewrite <- app_assoc. reflexivity.
  Qed.

  Lemma iterate_vmap times : forall f : tensor A -> tensor B, shape_determined f -> forall t i j, (times <= length (tshape t))%nat -> length i = times ->
    tget (iterate times (fun _ => vmap) 0 f t) (i ++ j) = tget (f (sub t i)) j.
  Proof.
    assert (Gi : forall n s f, @iterate (tensor A -> tensor B) n (fun _ => vmap) s f = iterate n (fun _ => vmap) 0 f).
    { induction n as [|n IHn]; intros s f0; [reflexivity|]. cbn [iterate]. rewrite IHn, (IHn 1%nat). reflexivity. }
    induction times as [|m IH]; intros f Hf t i j Ht Hi.
    - destruct i; [|discriminate]. cbn. destruct t; reflexivity.
    - cbn [iterate]. rewrite Gi. destruct (exists_last (l := i)) as (i' & k & ->); [intros ->; discriminate|].
      rewrite app_length in Hi. cbn in Hi. rewrite <- app_assoc.
      rewrite (IH (vmap f) (vmap_determined f Hf) t i' ([k] ++ j)) by lia.
      unfold vmap. cbn [app tget hd tl]. rewrite sub_sub. reflexivity.
  Qed.

  Lemma iterate_vmap_shape times : forall f : tensor A -> tensor B, shape_determined f -> forall t, (times <= length (tshape t))%nat ->
    forall i, length i = times ->
    tshape (iterate times (fun _ => vmap) 0 f t) = firstn times (tshape t) ++ tshape (f (sub t i)).
  Proof.
    assert (Gi : forall n s f, @iterate (tensor A -> tensor B) n (fun _ => vmap) s f = iterate n (fun _ => vmap) 0 f).
    { induction n as [|n IHn]; intros s f0; [reflexivity|]. cbn [iterate]. rewrite IHn, (IHn 1%nat). reflexivity. }
    induction times as [|m IH]; intros f Hf t Ht i Hi.
    - destruct i; [|discriminate]. cbn. destruct t; reflexivity.
    - cbn [iterate]. rewrite Gi. destruct (exists_last (l := i)) as (i' & k & ->); [intros ->; discriminate|].
      rewrite app_length in Hi. cbn in Hi.
      rewrite (IH (vmap f) (vmap_determined f Hf) t ltac:(lia) i' ltac:(lia)).
      unfold vmap at 1. cbn [tshape]. unfold sub at 1. cbn [tshape].
      assert (E : tshape (f (slice0 (sub t i') 0)) = tshape (f (sub t (i' ++ [k])))).
      { apply Hf. rewrite sub_sub. unfold sub. cbn [tshape]. rewrite !app_length. reflexivity. }
      rewrite E. replace (length i') with m by lia.
      clear - Ht. revert Ht. generalize (tshape t). clear. induction m as [|m IH]; intros sh Ht; destruct sh as [|n sh]; cbn in *; try lia.
      + reflexivity.
      + f_equal. apply IH. lia.
  Qed.
End Vmap.
