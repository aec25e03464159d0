(** Drivers, configuration, caching: properties C57-C62, C76, C77, C89, C91-C95. *)
From Coq Require Import Reals Lra Lia Ascii String List Arith ZArith Bool.
From Coquelicot Require Import Complex.
From Verif Require Import Base Sums Tensor Lin3 VecModel VecProofs OccModel OccSpec EwaldModel EwaldProofs GridModel GridSpec CalcModel CalcSpec CalcProofs CalcProofs2 CalcProofs3 CfgProofs.
Import ListNotations.
Local Open Scope R_scope.

(** C57 *)
Theorem C57_converged_iff_settled : forall w t evs v,
  snd (check (run (new_checker w t) evs) v) = true <-> settled w t (since_reset evs ++ [v]).
Proof. exact check_true_iff. Qed.
Print Assumptions C57_converged_iff_settled.
Theorem C57_memory_bound : forall w t evs, (length (history (run (new_checker w t) evs)) <= w)%nat.
Proof. exact history_bound. Qed.
Print Assumptions C57_memory_bound.
Example C57_example : settled 2 1 (since_reset [Check 7; Reset; Check 3] ++ [3]) /\ ~ settled 2 1 (since_reset [Check 7; Reset] ++ [3]).
Proof.
  cbn. split.
  - unfold settled, std, mean, last_n. cbn. split; [lia|]. split; [lia|].
    replace _ with (sqrt 0); [rewrite sqrt_0; lra|]. f_equal. field.
  - intros (_ & H & _). cbn in H. lia.
Qed.

(** C58 *)
Theorem C58_stops_as_specified : forall (P Os D G : Type) (total entropy : P -> R) (grad : R -> P -> G) (optimizer : G -> Os -> G * Os)
    (apply_updates : P -> G -> P) (density : P -> D) smearing epoch w thr ew p0 o0, (1 <= epoch)%nat ->
  let traj := trajectory (fun i => opt_step grad optimizer apply_updates (temperature smearing epoch i)) (p0, o0) in
  let energies n := map (fun m => total (fst (traj m))) (seq 0 n) in
  exists n conv, (1 <= n <= epoch)%nat /\
    ground_state total entropy grad optimizer apply_updates density smearing epoch w thr ew p0 o0
    = Ok (RunOutput (density (fst (traj n))) (total (fst (traj (n - 1)%nat)) + ew) conv n) /\
    (forall m, (1 <= m < n)%nat -> ~ settled w thr (energies m)) /\
    (conv = true <-> settled w thr (energies n)) /\ (conv = false -> n = epoch).
Proof. exact @ground_state_spec. Qed.
Print Assumptions C58_stops_as_specified.
Theorem C58_no_epoch : forall (P Os D G : Type) (total entropy : P -> R) (grad : R -> P -> G) (optimizer : G -> Os -> G * Os)
    (apply_updates : P -> G -> P) (density : P -> D) smearing w thr ew p0 o0,
  ground_state total entropy grad optimizer apply_updates density smearing 0 w thr ew p0 o0 = Err UnboundLocalErr.
Proof. exact @ground_state_no_epoch. Qed.
Print Assumptions C58_no_epoch.
(** The reported energy is not the energy of the returned state. *)
Theorem C58_energy_of_returned_state_refuted : ~ (forall (total entropy : R -> R) (grad : R -> R -> R) (optimizer : R -> unit -> R * unit)
    (apply_updates : R -> R -> R) smearing epoch w thr ew p0 out,
  ground_state total entropy grad optimizer apply_updates (fun p => p) smearing epoch w thr ew p0 tt = Ok out ->
  logged_total out = total (returned out) + ew).
Proof. exact stale_energy. Qed.
Print Assumptions C58_energy_of_returned_state_refuted.
Example C58_example : (1 <= 3)%nat /\ settled 2 1 [5; 5].
Proof.
  split; [lia|]. unfold settled, std, mean, last_n. cbn. split; [lia|]. split; [lia|].
  replace _ with (sqrt 0); [rewrite sqrt_0; lra|]. f_equal. field.
Qed.

(** C59 *)
Theorem C59_starts_at_100 : forall s epoch, 0 < s -> temperature s epoch 0 = 100.
Proof. exact temperature_start. Qed.
Print Assumptions C59_starts_at_100.
Theorem C59_never_increases : forall s epoch i j, 0 <= s <= 100 -> (i <= j)%nat -> temperature s epoch j <= temperature s epoch i.
Proof. exact temperature_decreasing. Qed.
Print Assumptions C59_never_increases.
Theorem C59_bounds : forall s epoch i, 0 < s <= 100 -> s <= temperature s epoch i <= 100.
Proof. exact temperature_bounds. Qed.
Print Assumptions C59_bounds.
Theorem C59_strictly_falls : forall s epoch i j, 0 < s < 100 -> (i < j <= epoch / 2)%nat -> temperature s epoch j < temperature s epoch i.
Proof. exact temperature_strict. Qed.
Print Assumptions C59_strictly_falls.
Theorem C59_reaches_smearing : forall s epoch i, 0 < s -> (2 <= epoch)%nat -> (epoch / 2 <= i)%nat -> temperature s epoch i = s.
Proof. exact temperature_end. Qed.
Print Assumptions C59_reaches_smearing.
Theorem C59_off : forall s epoch i, s <= 0 -> temperature s epoch i = 0.
Proof. exact temperature_off. Qed.
Print Assumptions C59_off.
Theorem C59_single_epoch : forall s epoch i, 0 < s -> (epoch < 2)%nat -> temperature s epoch i = 100.
Proof. exact temperature_short. Qed.
Print Assumptions C59_single_epoch.
Theorem C59_above_100_rises : forall s epoch i j, 100 < s -> (i <= j)%nat ->
  100 <= temperature s epoch i <= temperature s epoch j /\ temperature s epoch j <= s.
Proof. exact temperature_above. Qed.
Print Assumptions C59_above_100_rises.
Example C59_example : temperature (1 / 1000) 5000 2500 = 1 / 1000 /\ temperature (1 / 1000) 5000 1 < 100.
Proof.
  split; [apply temperature_end; [lra|lia|apply Nat.div_le_upper_bound; lia]|].
  rewrite <- (temperature_start (1 / 1000) 5000) by lra. apply temperature_strict; [lra|].
  split; [lia|]. apply Nat.div_le_lower_bound; lia.
Qed.

(** C60 *)
Theorem C60_all_electrons : forall (P Os : Type) (step : P -> Os -> v3 -> P * Os) (eig : P -> v3 -> tensor R) first tune D n path po Sp B,
  (1 <= D)%nat -> (1 <= n)%nat -> length path = (D * n)%nat ->
  (forall p k, tshape (eig p k) = [Sp; 1; B]%nat) -> forall parallel : bool, parallel = true \/ D = 1%nat ->
  exists t, band_all_electrons step eig first tune D parallel (D * n) B path po = Ok t /\ tshape t = [Sp; D * n; B]%nat /\
    forall s d j b, (s < Sp)%nat -> (d < D)%nat -> (j < n)%nat -> (b < B)%nat ->
      tget t [s; d * n + j; b]%nat =
      tget (eig (fst (warm_start step first tune (firstn n (skipn (d * n) path)) po j)) (nth (d * n + j) path vzero)) [s; 0; b]%nat.
Proof. exact @band_all_ok. Qed.
Print Assumptions C60_all_electrons.
Theorem C60_normcons : forall (P Os : Type) (step : P -> Os -> v3 -> P * Os) (eig : P -> v3 -> tensor R) first tune (GS : Type) D n path po B,
  (1 <= D)%nat -> (1 <= n)%nat -> length path = (D * n)%nat -> (1 <= B)%nat ->
  (forall p k, tshape (eig p k) = [1; B]%nat) -> forall (parallel : bool) devices, D = (if parallel then devices else 1%nat) ->
  exists t, band_normcons (GS := GS) step eig first tune None devices parallel path po = Ok t /\ tshape t = [D * n; B]%nat /\
    forall d j b, (d < D)%nat -> (j < n)%nat -> (b < B)%nat ->
      tget t [d * n + j; b]%nat =
      tget (eig (fst (warm_start step first tune (firstn n (skipn (d * n) path)) po j)) (nth (d * n + j) path vzero)) [0; b]%nat.
Proof. exact @band_nc_ok. Qed.
Print Assumptions C60_normcons.
Example C60_example : length [vzero; vzero; vzero; vzero; vzero; vzero] = (2 * 3)%nat /\
  forall (p : unit) (k : v3), tshape (mkT [2; 1; 4]%nat (fun _ => 0)) = [2; 1; 4]%nat.
Proof. split; [reflexivity|]. intros. reflexivity. Qed.

(** C61 *)
Theorem C61_needs_parallel : forall (P Os : Type) (step : P -> Os -> v3 -> P * Os) (eig : P -> v3 -> tensor R) first tune D path po K B,
  (1 < D)%nat -> raises (band_all_electrons step eig first tune D false K B path po).
Proof. exact @band_all_one_device. Qed.
Print Assumptions C61_needs_parallel.
Theorem C61_runs_iff : forall (P Os : Type) (step : P -> Os -> v3 -> P * Os) (eig : P -> v3 -> tensor R) first tune D (parallel : bool) K Sp B path po,
  (1 <= Sp)%nat -> (1 <= B)%nat -> (forall p k, tshape (eig p k) = [Sp; 1; B]%nat) ->
  (exists t, band_all_electrons step eig first tune D parallel K B path po = Ok t) <->
  (exists n, (1 <= D)%nat /\ (1 <= n)%nat /\ length path = (D * n)%nat) /\ (parallel = true \/ D = 1%nat) /\ K = length path.
Proof. exact @band_all_iff. Qed.
Print Assumptions C61_runs_iff.
Example C61_example : (1 < 2)%nat /\ ~ (exists n, (1 <= 4)%nat /\ (1 <= n)%nat /\ length (repeat vzero 62) = (4 * n)%nat).
Proof. split; [lia|]. intros (n & _ & _ & H). rewrite repeat_length in H. lia. Qed.

(** C62: one Bohr is 0.529177249 Angstrom. *)
Theorem C62_fractional : forall bandpath A path num, m3det A <> 0 ->
  get_k_path bandpath A path num true = bandpath (m3scale (529177249 / 1000000000) A) path num.
Proof. exact get_k_path_fractional. Qed.
Print Assumptions C62_fractional.
Theorem C62_cartesian : forall bandpath A path num, m3det A <> 0 ->
  get_k_path bandpath A path num false = map (fun f => vmul f (reciprocal_vectors A)) (bandpath (m3scale (529177249 / 1000000000) A) path num).
Proof. exact get_k_path_cartesian. Qed.
Print Assumptions C62_cartesian.
Example C62_example : m3det (m3scale 4 m3id) <> 0.
Proof. lin3_unf. cbn. lra. Qed.

(** C76 *)
Theorem C76_round_trip : forall (A : Type) default (fs fs' : filesystem A) output,
  save_beta_sbt default fs output None = Ok fs' -> load_beta_sbt default fs' None = Ok output.
Proof. exact @load_after_save. Qed.
Print Assumptions C76_round_trip.
Theorem C76_save_succeeds : forall (A : Type) default (fs : filesystem A) output, exists fs', save_beta_sbt default fs output None = Ok fs'.
Proof. exact @save_succeeds. Qed.
Print Assumptions C76_save_succeeds.
Theorem C76_filename_raises : forall (A : Type) default (fs : filesystem A) output name,
  save_beta_sbt default fs output (Some name) = Err UnboundLocalErr /\ load_beta_sbt default fs (Some name) = Err UnboundLocalErr.
Proof. exact @filename_raises. Qed.
Print Assumptions C76_filename_raises.
Theorem C76_precomputed : forall (A Rg Bg L : Type) (sbt : Rg -> Bg -> L -> A) default fs r_grid beta l out fs',
  pre_calc_beta_sbt sbt default fs r_grid beta l true = Ok (out, fs') -> length r_grid = length beta -> length beta = length l ->
  load_beta_sbt default fs' None = Ok out /\ length out = length r_grid /\
  forall i r b m, nth_error r_grid i = Some r -> nth_error beta i = Some b -> nth_error l i = Some m -> nth_error out i = Some (sbt r b m).
Proof. exact @precalc_spec. Qed.
Print Assumptions C76_precomputed.
(** The result does not depend on saving; without it no file changes, and with it only the cache file. *)
Theorem C76_writes : forall (A Rg Bg L : Type) (sbt : Rg -> Bg -> L -> A) default fs r_grid beta l save, exists out fs',
  pre_calc_beta_sbt sbt default fs r_grid beta l save = Ok (out, fs') /\ (forall save', exists fs2, pre_calc_beta_sbt sbt default fs r_grid beta l save' = Ok (out, fs2)) /\
  (save = false -> fs' = fs) /\ forall name, name <> default -> assoc name fs' = assoc name fs.
Proof. exact @precalc_writes. Qed.
Print Assumptions C76_writes.
Example C76_example : exists fs', save_beta_sbt "c" [] (seq 0 12) None = Ok fs' /\ load_beta_sbt "c" fs' None = Ok (seq 0 12).
Proof. eexists. split; [reflexivity|]. apply (load_after_save "c" []). reflexivity. Qed.

(** C77 *)
Theorem C77_file_replaces_defaults : forall m c, get_config (Some (YMap m)) = Ok c ->
  map fst c = map fst m /\
  (forall k, k <> "band_structure_empty_bands"%string -> assoc k c = assoc k m) /\
  (assoc "band_structure_empty_bands"%string m <> Some VNone -> c = m) /\
  (assoc "band_structure_empty_bands"%string m = Some VNone ->
     assoc "band_structure_empty_bands"%string c = assoc "empty_bands"%string m).
Proof. exact get_config_file. Qed.
Print Assumptions C77_file_replaces_defaults.
Theorem C77_raises_iff : forall m, raises (get_config (Some (YMap m))) <->
  ~ has_key m "band_structure_empty_bands" \/
  (assoc "band_structure_empty_bands"%string m = Some VNone /\ ~ has_key m "empty_bands").
Proof. exact get_config_raises. Qed.
Print Assumptions C77_raises_iff.
Theorem C77_no_file : get_config None = Ok default_config.
Proof. exact get_config_default. Qed.
Print Assumptions C77_no_file.
(** So a file that only sets the crystal is rejected instead of overriding one default. *)
Theorem C77_overrides_defaults_refuted : ~ (forall m, unique_keys m -> (forall k, has_key m k -> has_key default_config k) ->
  exists c, get_config (Some (YMap m)) = Ok c /\ forall k, has_key default_config k -> has_key c k).
Proof. exact config_not_merged. Qed.
Print Assumptions C77_overrides_defaults_refuted.
Example C77_example : exists c, get_config (Some (YMap [("empty_bands", VInt 3); ("band_structure_empty_bands", VNone)]%string)) = Ok c
  /\ assoc "band_structure_empty_bands"%string c = Some (VInt 3).
Proof. eexists. split; reflexivity. Qed.

(** C89 *)
Theorem C89_batched_value : forall (A B : Type) times (f : tensor A -> tensor B), shape_determined f ->
  exists g, vmapstack times [] f = Ok g /\ forall t, (times <= length (tshape t))%nat ->
    (forall i j, length i = times -> tget (g t) (i ++ j) = tget (f (sub t i)) j) /\
    (forall i, length i = times -> tshape (g t) = firstn times (tshape t) ++ tshape (f (sub t i))).
Proof. exact @vmapstack_spec. Qed.
Print Assumptions C89_batched_value.
Theorem C89_wrong_number_of_options : forall (A B : Type) times args (f : tensor A -> tensor B),
  raises (vmapstack times args f) <-> args <> [] /\ length args <> times.
Proof. exact @vmapstack_raises. Qed.
Print Assumptions C89_wrong_number_of_options.
Example C89_example : shape_determined (tmap (fun x : nat => (2 * x)%nat)).
Proof. intros a b E. exact E. Qed.

(** C91 *)
Theorem C91_untouched : forall parse_int parse_float c args c', parse_args parse_int parse_float c args = Ok c' ->
  forall k, ~ In k (map fst args) -> assoc k c' = assoc k c.
Proof. exact parse_args_untouched. Qed.
Print Assumptions C91_untouched.
(** Otherwise the last occurrence of an option decides, read as the kind of value it had before. *)
Theorem C91_last_wins : forall pi pf c pre k text post c', parse_args pi pf c (pre ++ (k, text) :: post) = Ok c' -> ~ In k (map fst post) ->
  exists v v', assoc k c = Some v /\ option_value pi pf v text v' /\ assoc k c' = Some v'.
Proof. exact parse_args_last. Qed.
Print Assumptions C91_last_wins.
(** The arguments are accepted exactly if each names a setting and reads as its kind of value. *)
Theorem C91_returns : forall pi pf c args, (exists c', parse_args pi pf c args = Ok c') <->
  Forall (fun kt => exists v v', assoc (fst kt) c = Some v /\ option_value pi pf v (snd kt) v') args.
Proof. exact parse_args_returns. Qed.
Print Assumptions C91_returns.
(** The cutoff energy is declared a float, but its default is an integer: a fractional cutoff is refused. *)
Theorem C91_fractional_cutoff_refuted : ~ (forall pi pf text x, pf text = Some x -> exists c', parse_args pi pf default_config [("cutoff_energy"%string, text)] = Ok c').
Proof. exact fraction_refuted. Qed.
Print Assumptions C91_fractional_cutoff_refuted.
(** Any non-empty text, also "False", switches a boolean option on. *)
Theorem C91_booleans_only_true : forall parse_int parse_float c args c' k text b, parse_args parse_int parse_float c args = Ok c' ->
  assoc k c = Some (VBool b) -> forall pre post, args = pre ++ (k, text) :: post -> ~ In k (map fst post) -> text <> ""%string ->
  assoc k c' = Some (VBool true).
Proof. exact parse_args_bool. Qed.
Print Assumptions C91_booleans_only_true.
Theorem C91_none_not_settable : forall parse_int parse_float c args k text, In (k, text) args -> assoc k c = Some VNone ->
  raises (parse_args parse_int parse_float c args).
Proof. exact parse_args_none. Qed.
Print Assumptions C91_none_not_settable.
Example C91_example : exists c', parse_args (fun _ => Some 7%Z) (fun _ => None) default_config [("epoch", "7"); ("verbose", "False")]%string = Ok c'
  /\ assoc "epoch"%string c' = Some (VInt 7) /\ assoc "verbose"%string c' = Some (VBool true).
Proof. eexists. split; [reflexivity|]. split; reflexivity. Qed.

(** C92 *)
(** The mesh a configuration entry asks for: a list of integers as given, a number once per
    axis, where a fractional number is cut off towards zero. *)
Theorem C92_grid_numbers : forall v l, requested (cfg_grid v) = Some l <->
  v = VList (map VInt l) \/ exists n, l = [n; n; n] /\
    (v = VInt n \/ (exists b : bool, v = VBool b /\ n = (if b then 1 else 0)%Z) \/ exists r, v = VReal r /\ (0 <= r -> IZR n <= r < IZR n + 1) /\ (r < 0 -> IZR n - 1 < r <= IZR n)).
Proof. exact grid_requested. Qed.
Print Assumptions C92_grid_numbers.
Example C92_grid_example : requested (cfg_grid (VInt 5)) = Some [5; 5; 5]%Z /\ requested (cfg_grid (VList [VInt 4; VInt 6; VInt 8])) = Some [4; 6; 8]%Z /\ requested (cfg_grid (VStr "5")) = None.
Proof. repeat split; reflexivity. Qed.
Theorem C92_shapes_agree : forall pkg read c g r k mask, create_grids pkg read c = Ok (g, r, k) -> create_freq_mask pkg read c = Ok mask ->
  tshape g = tshape mask /\ tshape r = tshape mask.
Proof. exact grids_and_mask_agree. Qed.
Print Assumptions C92_shapes_agree.
Theorem C92_k_mesh_rounded : forall pkg read c g r k l, create_grids pkg read c = Ok (g, r, k) ->
  (exists ks, assoc "k_grid_sizes"%string c = Some ks /\ requested (cfg_grid ks) = Some l) ->
  exists nk, Forall2 (least_at_least smooth7) l nk /\ length k = nprod (map Z.to_nat nk).
Proof. exact grids_k_count. Qed.
Print Assumptions C92_k_mesh_rounded.
Theorem C92_grids : forall pkg read c g r k, create_grids pkg read c = Ok (g, r, k) ->
  exists cr gs ks n nk, create_crystal pkg read c = Ok cr /\ getattr c "grid_sizes" = Ok gs /\ proper_grid_size (cfg_grid gs) = Ok n /\
    getattr c "k_grid_sizes" = Ok ks /\ proper_grid_size (cfg_grid ks) = Ok nk /\
    g_vectors (cr_cell cr) (map Z.to_nat n) = Ok g /\ r_vectors (cr_cell cr) (map Z.to_nat n) = Ok r /\ k_vectors (cr_cell cr) (map Z.to_nat nk) = Ok k.
Proof. exact grids_values. Qed.
Print Assumptions C92_grids.
(** The mask: the product rule of cubic_mask, or all vectors with kinetic energy up to the
    configured cutoff. *)
Theorem C92_mask : forall pkg read c g r k mask, create_grids pkg read c = Ok (g, r, k) -> create_freq_mask pkg read c = Ok mask ->
  (getattr c "freq_mask_method" = Ok (VStr "cubic") /\
   exists n f, tshape g = map Z.to_nat n /\ cubic_mask n = Ok f /\ forall i, tget mask i = f (map Z.of_nat i)) \/
  (getattr c "freq_mask_method" = Ok (VStr "spherical") /\
   exists v E, getattr c "cutoff_energy" = Ok v /\ cfg_real v = Ok E /\ forall i, tget mask i = true <-> (norm2 (tget g i) / 2 <= E)%R).
Proof. exact mask_values. Qed.
Print Assumptions C92_mask.
Theorem C92_parity_checked : forall pkg read c cr, create_crystal pkg read c = Ok cr -> (num_electron cr mod 2 = cr_spin cr mod 2)%Z.
Proof. exact create_crystal_parity. Qed.
Print Assumptions C92_parity_checked.
Example C92_example : forall pkg, let read := fun _ => Ok (Ase [6; 6]%Z [vzero; V3 1 1 1] (m3scale 4 m3id)) in
  (exists g r k mask, create_grids pkg read default_config = Ok (g, r, k) /\ create_freq_mask pkg read default_config = Ok mask) /\
  exists ks, assoc "k_grid_sizes"%string default_config = Some ks /\ requested (cfg_grid ks) = Some [3; 3; 3]%Z.
Proof.
  intros pkg read. split; [|eexists; split; reflexivity].
  assert (Hc : exists cr, create_crystal pkg read default_config = Ok cr) by (eexists; reflexivity). destruct Hc as [cr Hc].
  assert (H64 : proper_grid_size (cfg_grid (VInt 64)) = Ok [64; 64; 64]%Z) by reflexivity.
  assert (H3 : proper_grid_size (cfg_grid (VInt 3)) = Ok [3; 3; 3]%Z) by reflexivity.
  destruct (vector_grid_ok (reciprocal_vectors (cr_cell cr)) 64 64 64 false) as [g Hg]; [lia..|].
  destruct (vector_grid_ok (cr_cell cr) 64 64 64 true) as [r Hr]; [lia..|].
  unfold create_grids, create_freq_mask. rewrite Hc. cbn [bind].
  change (getattr default_config "grid_sizes") with (Ok (VInt 64)). change (getattr default_config "k_grid_sizes") with (Ok (VInt 3)).
  change (getattr default_config "freq_mask_method") with (Ok (VStr "spherical")). change (getattr default_config "cutoff_energy") with (Ok (VInt 100)).
  cbn [bind]. rewrite H64, H3. cbn [bind]. unfold g_vectors, r_vectors, k_vectors, spherical_mask, g_vectors.
  change (nats [64; 64; 64]%Z) with [64; 64; 64]%nat. rewrite Hg, Hr. cbn [bind].
  do 4 eexists. split; reflexivity.
Qed.

(** C93 *)
Theorem C93_bands_hold_electrons_iff : forall K N s e r occ, (0 <= num_bands N e)%Z ->
  uniform K N s (Some (Z.to_nat (num_bands N e))) r = Ok occ -> (N mod 2 = s mod 2)%Z -> (Z.abs s <= N)%Z ->
  OccSpec.total occ <= IZR N /\ (OccSpec.total occ = IZR N <-> (Z.abs s <= 2 * e + N mod 2)%Z).
Proof. exact driver_electrons. Qed.
Print Assumptions C93_bands_hold_electrons_iff.
Example C93_example : (0 <= num_bands 6 0)%Z /\ (6 mod 2 = 4 mod 2)%Z /\ ~ (Z.abs 4 <= 2 * 0 + 6 mod 2)%Z /\ exists occ, uniform 1 6 4 (Some (Z.to_nat (num_bands 6 0))) false = Ok occ.
Proof. split; [cbn; lia|]. split; [reflexivity|]. split; [cbn; lia|]. eexists. reflexivity. Qed.

(** C94 *)
Theorem C94_repulsion_ignores_pseudopotential : forall erfc pkg read c k v, ~ In k geometry_keys ->
  get_ewald_coulomb_repulsion erfc pkg read (setattr c k v) = get_ewald_coulomb_repulsion erfc pkg read c.
Proof. exact ewald_frame. Qed.
Print Assumptions C94_repulsion_ignores_pseudopotential.
(** With ion charges a fraction [a] of the nuclear ones the repulsion of the ions would be
    [a^2] times the value used. *)
Theorem C94_ionic_repulsion : forall erfc pos q G vol eta T a e, ewald_coulomb_repulsion erfc pos q G vol eta T = Ok e ->
  ewald_coulomb_repulsion erfc pos (map (Rmult a) q) G vol eta T = Ok (a ^ 2 * e).
Proof. exact ewald_charge_scaling. Qed.
Print Assumptions C94_ionic_repulsion.
Example C94_example : ~ In "use_pseudopotential"%string geometry_keys /\ ~ In "pseudopotential_file_dir"%string geometry_keys.
Proof. split; cbn; intuition discriminate. Qed.

(** C95 *)
Theorem C95_given_ground_state_raises : forall (P Os : Type) (step : P -> Os -> v3 -> P * Os) (eig : P -> v3 -> tensor R) first tune (GS : Type) (gs : GS) devices (parallel : bool) path po,
  raises (band_normcons step eig first tune (Some gs) devices parallel path po).
Proof. exact @band_nc_given. Qed.
Print Assumptions C95_given_ground_state_raises.
Theorem C95_pseudopotential_needs_type : forall (PP : Type) pkg read (nc us : crystal -> string -> res PP) c,
  ~ has_key c "pseudopotential_type" -> raises (create_pseudopotential pkg read nc us c).
Proof. exact @pseudo_needs_type. Qed.
Print Assumptions C95_pseudopotential_needs_type.
Theorem C95_default_has_no_type : forall (PP : Type) pkg read (nc us : crystal -> string -> res PP),
  raises (create_pseudopotential pkg read nc us (setattr default_config "use_pseudopotential" (VBool true))).
Proof. exact @pseudo_default. Qed.
Print Assumptions C95_default_has_no_type.
(** The loader and the directory: the norm-conserving names and the ultrasoft names each go to
    their own loader and, without a configured directory, to their own directory. *)
Theorem C95_loader : forall (PP : Type) pkg read (nc us : crystal -> string -> res PP) c pp,
  create_pseudopotential pkg read nc us c = Ok pp <->
  exists u cr s d path, getattr c "use_pseudopotential" = Ok u /\ truthy u = true /\ create_crystal pkg read c = Ok cr /\
    getattr c "pseudopotential_type" = Ok (VStr s) /\ getattr c "pseudopotential_file_dir" = Ok d /\
    ((In s ["normcons"; "normconserving"; "nc"]%string /\ (d = VNone /\ path = append pkg "/pseudopotential/normconserving/" \/ d = VStr path) /\ nc cr path = Ok pp) \/
     (In s ["ultrasoft"; "us"]%string /\ (d = VNone /\ path = append pkg "/pseudopotential/ultrasoft/" \/ d = VStr path) /\ us cr path = Ok pp)).
Proof. exact @pseudo_loader. Qed.
Print Assumptions C95_loader.
Theorem C95_unknown_type_raises : forall (PP : Type) pkg read (nc us : crystal -> string -> res PP) c s,
  getattr c "pseudopotential_type" = Ok (VStr s) -> ~ In s ["normcons"; "normconserving"; "nc"; "ultrasoft"; "us"]%string ->
  raises (create_pseudopotential pkg read nc us c).
Proof. exact @pseudo_unknown. Qed.
Print Assumptions C95_unknown_type_raises.
Example C95_example : ~ has_key default_config "pseudopotential_type".
Proof. exact default_keys. Qed.
