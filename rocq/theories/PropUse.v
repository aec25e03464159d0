(** The settings a calculation needs and uses: property C139. *)
From Coq Require Import Reals Ascii String List Arith ZArith Bool Lia.
From Coquelicot Require Import Complex.
From Verif Require Import Base Sums Tensor Lin3 VecModel PwModel EnergyModel CalcModel DrvModel BndModel UseSpec UseProofs.
Import ListNotations.
Local Open Scope R_scope.

(** C139.  Without any one of these settings the calculation raises. *)
Theorem C139_ground_all_electron : forall Os erfc pkg read devices qr cqr xcd grad (alias : string -> option (cval -> list (string * cval) -> optax Os)) ro rp c key,
  In key ground_required -> absent key c -> raises (ae_calc erfc pkg read devices qr cqr xcd grad alias ro rp c).
Proof. exact @ae_absent. Qed.
Print Assumptions C139_ground_all_electron.
Theorem C139_ground_norm_conserving : forall Os PP erfc pkg read (nc us : crystal -> string -> res PP) valence pl pn devices qr cqr xcd grad (alias : string -> option (cval -> list (string * cval) -> optax Os)) ro rp c key,
  In key (ground_required ++ pseudo_required) -> absent key c -> raises (nc_calc erfc pkg read nc us valence pl pn devices qr cqr xcd grad alias ro rp c).
Proof. exact @nc_absent. Qed.
Print Assumptions C139_ground_norm_conserving.
Theorem C139_bands_all_electron : forall Os Os' erfc pkg read devices bandpath qr cqr xcd grad (alias' : string -> option (cval -> list (string * cval) -> optax Os')) ro rp ev bgrad
  (alias : string -> option (cval -> list (string * cval) -> boptax Os)) rnd c key, In key (ground_required ++ band_required) -> absent key c ->
  raises (ae_band pkg read devices bandpath (ae_calc erfc pkg read devices qr cqr xcd grad alias' ro rp) cqr xcd ev bgrad alias rnd c).
Proof. exact @ae_band_absent. Qed.
Print Assumptions C139_bands_all_electron.
Theorem C139_bands_norm_conserving : forall Os Os' PP GS erfc pkg read (nc us : crystal -> string -> res PP) valence pl pn pp_path devices bandpath qr cqr xcd grad (alias' : string -> option (cval -> list (string * cval) -> optax Os')) ro rp ev bgrad
  (alias : string -> option (cval -> list (string * cval) -> boptax Os)) rnd c key, In key (ground_required ++ pseudo_required ++ band_required) -> absent key c ->
  raises (nc_band pkg read nc us valence pl pp_path devices bandpath (@None GS) (nc_calc erfc pkg read nc us valence pl pn devices qr cqr xcd grad alias' ro rp) cqr xcd ev bgrad alias rnd c).
Proof. exact @nc_band_absent. Qed.
Print Assumptions C139_bands_norm_conserving.

(** Nothing else in the configuration matters. *)
Theorem C139_nothing_else : forall Os Os' PP GS erfc pkg read (nc us : crystal -> string -> res PP) valence pl pn pp_path devices bandpath qr cqr xcd grad
  (alias' : string -> option (cval -> list (string * cval) -> optax Os')) ro rp ev bgrad (alias : string -> option (cval -> list (string * cval) -> boptax Os)) rnd c c',
  let ae := ae_calc erfc pkg read devices qr cqr xcd grad alias' ro rp in
  let nco := nc_calc erfc pkg read nc us valence pl pn devices qr cqr xcd grad alias' ro rp in
  let aeb := ae_band pkg read devices bandpath ae cqr xcd ev bgrad alias rnd in
  let ncb := nc_band pkg read nc us valence pl pp_path devices bandpath (@None GS) nco cqr xcd ev bgrad alias rnd in
  (agree (ground_required ++ conditional) c c' -> ae c' = ae c) /\
  (agree (ground_required ++ conditional ++ pseudo_required) c c' -> nco c' = nco c) /\
  (agree (ground_required ++ conditional ++ band_required) c c' -> aeb c' = aeb c) /\
  (agree (ground_required ++ conditional ++ pseudo_required ++ band_required) c c' -> ncb c' = ncb c).
Proof.
  exact (fun Os Os' PP GS erfc pkg read nc us valence pl pn pp_path devices bandpath qr cqr xcd grad alias' ro rp ev bgrad alias rnd c c' =>
    conj (ae_agree erfc pkg read devices qr cqr xcd grad alias' ro rp c c') (conj (nc_agree erfc pkg read nc us valence pl pn devices qr cqr xcd grad alias' ro rp c c')
      (conj (ae_band_agree erfc pkg read devices bandpath qr cqr xcd grad alias' ro rp ev bgrad alias rnd c c')
        (nc_band_agree erfc pkg read nc us valence pl pn pp_path devices bandpath qr cqr xcd grad alias' ro rp ev bgrad alias rnd c c')))).
Qed.
Print Assumptions C139_nothing_else.
(** In particular these documented settings have no effect. *)
Theorem C139_unused : forall c key v, In key unused -> agree (ground_required ++ conditional ++ pseudo_required ++ band_required) c (setattr c key v).
Proof. exact unused_agree. Qed.
Print Assumptions C139_unused.

(** The default configuration has every setting but the type of the pseudopotentials, so it cannot
    be used with pseudopotentials: setting use_pseudopotential raises. *)
Theorem C139_defaults : (forall key, In key (ground_required ++ conditional ++ band_required ++ unused) -> ~ absent key default_config) /\ absent "pseudopotential_type" default_config.
Proof. exact default_settings. Qed.
Print Assumptions C139_defaults.
Theorem C139_default_pseudopotentials_refuted : forall Os PP erfc pkg read (nc us : crystal -> string -> res PP) valence pl pn devices qr cqr xcd grad
  (alias : string -> option (cval -> list (string * cval) -> optax Os)) ro rp, let c := setattr default_config "use_pseudopotential" (VBool true) in
  getattr c "use_pseudopotential" = Ok (VBool true) /\ raises (nc_calc erfc pkg read nc us valence pl pn devices qr cqr xcd grad alias ro rp c).
Proof. exact @default_pseudo. Qed.
Print Assumptions C139_default_pseudopotentials_refuted.

Example C139_example : In "eps"%string ground_required /\ absent "eps" [("crystal"%string, VStr "diamond")] /\
  agree (ground_required ++ conditional) default_config (setattr default_config "save_dir" (VStr "results")) /\ setattr default_config "save_dir" (VStr "results") <> default_config.
Proof.
  split; [cbn; tauto|]. split; [reflexivity|]. split; [|intros H; cbn in H; discriminate].
  apply (agree_incl _ (ground_required ++ conditional ++ pseudo_required ++ band_required)); [intros k; rewrite !in_app_iff; tauto|]. apply unused_agree. cbn. tauto.
Qed.

(** Which driver runs, whether the spins are restricted and whether k-points are spread over devices
    depends on the truth of a setting: everything counts as true except these values. *)
Theorem C139_truth : forall v, truthy v = false <-> off v.
Proof. exact truth. Qed.
Print Assumptions C139_truth.
Example C139_truth_example : truthy (VInt (-1)) = true /\ truthy (VStr "False") = true /\ off (VList nil).
Proof. split; [reflexivity|]. split; [reflexivity|]. unfold off. tauto. Qed.
