(** The settings of a configuration that the four calculations use (C139). *)
From Coq Require Import Reals Ascii String List.
From Verif Require Import Base CalcModel.
Import ListNotations.
Local Open Scope string_scope.

(** Settings without which no ground-state calculation works. *)
Definition ground_required : list string :=
  [ "jax_debug_nans"; "verbose"; "jax_enable_x64"; "seed"; "smearing"; "crystal"; "spin"; "eps"; "parallel_over_k_mesh"; "grid_sizes"; "k_grid_sizes";
    "empty_bands"; "xc"; "occupation"; "freq_mask_method"; "ewald_args"; "convergence_window_size"; "convergence_condition"; "spin_restricted"; "epoch";
    "optimizer"; "optimizer_args"; "scheduler" ].
(** Settings a band structure needs beyond these. *)
Definition band_required : list string :=
  [ "k_path_special_points"; "num_kpoints"; "parallel_over_k_path"; "band_structure_empty_bands"; "band_structure_epoch"; "k_path_fine_tuning_epoch" ].
(** Settings that matter for some values of the others: the geometry file if no crystal is named, the
    cutoff of the spherical mask. *)
Definition conditional : list string := [ "crystal_file_path_path"; "cutoff_energy" ].
(** What pseudopotentials need in addition. *)
Definition pseudo_required : list string := [ "use_pseudopotential"; "pseudopotential_type"; "pseudopotential_file_dir" ].

(** The documented settings that no calculation looks at. *)
Definition unused : list string := [ "save_dir"; "k_path_file"; "k_path_fine_tuning"; "xla_preallocate" ].

(** [key] is not set in [c]; two configurations have the same values of [keys]. *)
Definition absent (key : string) (c : cfg) : Prop := assoc key c = None.
Definition agree (keys : list string) (c c' : cfg) : Prop := forall k, In k keys -> assoc k c' = assoc k c.
(** A value that switches a setting off: None, False, zero, and empty text, lists and tables. *)
Definition off (v : cval) : Prop := v = VNone \/ v = VBool false \/ v = VInt 0 \/ v = VReal 0 \/ v = VStr "" \/ v = VList nil \/ v = VDict nil.
