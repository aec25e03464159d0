(** What it means to raise the cutoff energy of a calculation (C160). *)
From Coq Require Import Reals.
From Coquelicot Require Import Coquelicot.
From Coq Require Import Ascii String List.
From Verif Require Import Base Tensor CalcModel DrvModel.
Import ListNotations.
Local Open Scope R_scope.

(** Two configurations with spherical masks that differ in nothing but the cutoff energy, which the
    second one does not lower. *)
Definition raised_cutoff (c c' : cfg) : Prop :=
  getattr c "freq_mask_method" = Ok (VStr "spherical") /\
  (forall k, k <> "cutoff_energy"%string -> getattr c' k = getattr c k) /\
  exists v v' E E', getattr c "cutoff_energy" = Ok v /\ getattr c' "cutoff_energy" = Ok v' /\ cfg_real v = Ok E /\ cfg_real v' = Ok E' /\ E <= E'.

(** The same problem with the plane waves of another mask. *)
Definition with_mask (pb : problem) (m : tensor bool) : problem :=
  Problem (pb_crystal pb) (pb_G pb) (pb_k pb) m (pb_electrons pb) (pb_bands pb) (pb_method pb) (pb_restricted pb) (pb_init_restricted pb)
    (pb_xc pb) (pb_eps pb) (pb_ewald pb) (pb_smearing pb) (pb_epoch pb) (pb_checker pb) (pb_ions pb) (pb_devices pb).

(** Every plane wave of the first mask is one of the second. *)
Definition mask_within (m m' : tensor bool) : Prop :=
  tshape m' = tshape m /\ forall i, inb i (tshape m) -> tget m i = true -> tget m' i = true.
