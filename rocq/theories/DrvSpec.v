(** Vocabulary for the ground-state driver properties. *)
From Coq Require Import Reals Ascii String List Arith ZArith.
From Coquelicot Require Import Complex.
From Verif Require Import Base Sums Tensor Lin3 VecModel OccModel OccSpec PadModel PwModel CalcSpec CalcModel DrvModel.
From Verif Require EnergyModel.
Import ListNotations.
Local Open Scope R_scope.

(** The integral of a density of shape [spin, grid] over the cell, as a Riemann sum, of all
    channels and of one. *)
Definition cell_integral (vol : R) (d : tensor R) : R :=
  vol / INR (nprod (tl (tshape d))) * sumR (indices (tshape d)) (tget d).
Definition channel_integral (vol : R) (d : tensor R) (s : nat) : R :=
  vol / INR (nprod (tl (tshape d))) * sumR (indices (tl (tshape d))) (fun x => tget d (s :: x)).

(** A gradient or an update whose occupation part is zero. *)
Definition no_occ (u : params) : Prop :=
  match p_occ u with
  | PArr o => forall i, tget o i = 0
  | PDict a b => (forall i, tget a i = 0) /\ forall i, tget b i = 0
  end.
(** The state of an optimiser that has seen the gradients [gs]. *)
Definition opt_after {Os} (optimizer : params -> Os -> params * Os) (o : Os) (gs : list params) : Os :=
  fold_left (fun o g => snd (optimizer g o)) gs o.
(** An optimiser that does not move parameters whose gradient has always been zero (gradient
    descent, momentum, adam; not weight decay). *)
Definition leaves_constants {Os} (opt : optax Os) : Prop :=
  forall p0 gs g, Forall no_occ gs -> no_occ g -> no_occ (fst (snd opt g (opt_after (snd opt) (fst opt p0) gs))).

(** The parameters and the optimiser state after [n] steps of the schedule. *)
Definition run_traj {Os} (pb : problem) (grad : R -> params -> params) (opt : optax Os) (p0 : params) : nat -> params * Os :=
  trajectory (fun i => opt_step (fun T p => stop_gradient (pb_method pb) (grad T p)) (snd opt) apply_updates
                          (temperature (pb_smearing pb) (pb_epoch pb) i)) (p0, fst opt p0).

(** Whether [B] bands can hold the two spin populations of [N] electrons with spin [s]; the
    simplex projector needs a positive number of each and a band to spare. *)
Definition bands_hold (m : occ_method) (N s : Z) (B : nat) : Prop :=
  match m with
  | MSimplex => (0 < (N - Z.abs s) / 2 /\ (N + Z.abs s) / 2 < Z.of_nat B)%Z
  | MOther => False
  | _ => (Z.abs s <= N /\ (N + Z.abs s) / 2 <= Z.of_nat B)%Z
  end.
(** The occupation is one of the two that are not optimised. *)
Definition fixed_occ (m : occ_method) : Prop := m = MUniform \/ m = MGamma.
(** The number of electrons a method keeps: idempotent initialises both channels alike. *)
Definition kept_electrons (m : occ_method) (N s : Z) : Z := match m with MIdempotent => N + s | _ => N end.
Definition kept_spin (m : occ_method) (s : Z) : Z := match m with MIdempotent => 0 | _ => s end.

(** The random generators return arrays of the requested shape. *)
Definition pair_shape_ok (rnd : list nat -> tensor R * tensor R) : Prop :=
  forall sh, tshape (fst (rnd sh)) = sh /\ tshape (snd (rnd sh)) = sh.
(** As many orthonormal bands as asked for exist in the plane-wave basis. *)
Definition bands_fit_basis (pb : problem) : Prop := (pb_bands pb <= length (mask_positions (pb_mask pb)))%nat.

(** Parameters with the structure and shapes of others. *)
Definition same_shapes (p q : params) : Prop :=
  tshape (p_re p) = tshape (p_re q) /\ tshape (p_im p) = tshape (p_im q) /\
  match p_occ p, p_occ q with
  | PArr a, PArr b => tshape a = tshape b
  | PDict a a', PDict b b' => tshape a = tshape b /\ tshape a' = tshape b'
  | _, _ => False
  end.

(** What the setup guarantees: a grid of plane waves of the crystal's cell, the mask on the same
    grid, and at least one k-point. *)
Definition has_grids (pb : problem) : Prop :=
  exists n1 n2 n3, g_vectors (cr_cell (pb_crystal pb)) [n1; n2; n3] = Ok (pb_G pb) /\ tshape (pb_mask pb) = [n1; n2; n3] /\ (1 <= length (pb_k pb))%nat.
(** [p] can be the parameters of a run started from [p0]: same shapes, and the same occupations
    if these are not optimised. *)
Definition reachable (pb : problem) (p0 p : params) : Prop :=
  same_shapes p p0 /\
  (fixed_occ (pb_method pb) -> exists o o', p_occ p0 = PArr o /\ p_occ p = PArr o' /\ tshape o' = tshape o /\ forall i, tget o' i = tget o i).

(** The potentials the pseudopotential code returns live on the grid. *)
Definition on_grid {PP} (pp_local : PP -> crystal -> tensor v3 -> R -> res (tensor C)) (pp_nonlocal : PP -> crystal -> tensor v3 -> list v3 -> res (tensor C)) : Prop :=
  (forall pp cr G vol V, pp_local pp cr G vol = Ok V -> tshape V = tshape G) /\
  (forall pp cr G k psi, pp_nonlocal pp cr G k = Ok psi -> exists nb nm, tshape psi = [length k; nb; nm] ++ tshape G).
(** The exchange-correlation density is real, one value per grid point or per spin and point. *)
Definition xc_returns (xcd : EnergyModel.xcdens) (pb : problem) : Prop :=
  forall d, tshape d = num_spin (pb_restricted pb) :: tshape (pb_G pb) ->
    exists e, xcd d (pb_G pb) false (pb_xc pb) = Ok (tmap RtoC e) /\ (tshape e = tshape (pb_G pb) \/ tshape e = num_spin (pb_restricted pb) :: tshape (pb_G pb)).

(** The entry [key] of the configuration, converted by [conv], is [x]. *)
Definition reads {A} (c : cfg) (key : string) (conv : cval -> res A) (x : A) : Prop := exists v, getattr c key = Ok v /\ conv v = Ok x.
(** The convergence window and tolerance, the smearing, the entropy offset, the number of epochs,
    the functional and the number of devices are those of the configuration. *)
Definition reads_settings (devices : nat) (c : cfg) (pb : problem) : Prop :=
  (exists w t, reads c "convergence_window_size" cfg_int w /\ reads c "convergence_condition" cfg_real t /\ pb_checker pb = new_checker (Z.to_nat w) t) /\
  reads c "smearing" cfg_real (pb_smearing pb) /\ reads c "eps" cfg_real (pb_eps pb) /\
  (exists n, reads c "epoch" cfg_int n /\ pb_epoch pb = Z.to_nat n) /\ getattr c "xc" = Ok (VStr (pb_xc pb)) /\
  exists v, getattr c "parallel_over_k_mesh" = Ok v /\ pb_devices pb = if truthy v then devices else 1%nat.

(** [t'] is [t] plus [u], entry by entry; the same for occupation parameters and all parameters. *)
Definition added (t u t' : tensor R) : Prop := tshape t' = tshape t /\ forall i, tget t' i = tget t i + tget u i.
Definition occ_added (o u o' : occ_params) : Prop :=
  match o, u, o' with
  | PArr a, PArr b, PArr c => added a b c
  | PDict a1 a2, PDict b1 b2, PDict c1 c2 => added a1 b1 c1 /\ added a2 b2 c2
  | _, _, _ => False
  end.
Definition same_kind (o u : occ_params) : Prop := match o, u with PArr _, PArr _ | PDict _ _, PDict _ _ => True | _, _ => False end.
(** Every occupation entry is zero. *)
Definition occ_zero (o : occ_params) : Prop := match o with PArr a => forall i, tget a i = 0 | PDict a b => (forall i, tget a i = 0) /\ forall i, tget b i = 0 end.
