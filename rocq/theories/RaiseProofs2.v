(** Raising the cutoff energy: the example calculations (C160). *)
From Coq Require Import Reals Lra Lia.
From Coquelicot Require Import Coquelicot.
From Coq Require Import Ascii String List Arith ZArith Bool.
From Verif Require Import Base Sums Tensor PadModel Lin3 VecModel VecProofs OccModel OccSpec PwSpec XcModel EnergyModel EnergySpec CalcModel CalcSpec CalcProofs2 CalcProofs3 DrvModel DrvSpec DrvProofs2 DrvProofs5 DrvProofs6 NcAttProofs2 AttProofs5 ReachSpec RaiseSpec RaiseProofs.
Import ListNotations.
Local Open Scope R_scope.

(** C90's calculations with a spherical mask. *)
Definition ex_ball (occ : string) (r ps : bool) (E : R) : cfg :=
  setattr (setattr (ex_drv occ r ps 8) "freq_mask_method" (VStr "spherical")) "cutoff_energy" (VReal E).

Lemma ball_same occ r ps E : same_but_mask (ex_drv occ r ps 8) (ex_ball occ r ps E).
Proof. intros k H1 H2. unfold ex_ball. exact (eq_trans (getattr_other _ _ k _ H1) (getattr_other _ _ k _ H2)). Qed.

Lemma ball_raised occ r ps E E' : E <= E' -> raised_cutoff (ex_ball occ r ps E) (ex_ball occ r ps E').
Proof.
  intros H. split; [reflexivity|]. split.
  - intros k Hk. unfold ex_ball. exact (eq_trans (getattr_other _ _ k _ Hk) (eq_sym (getattr_other _ _ k _ Hk))).
  - exists (VReal E), (VReal E'), E, E'. repeat (split; [reflexivity|]). exact H.
Qed.

Lemma list_bound {A} (f : A -> R) l : exists E, forall a, In a l -> f a <= E.
Proof.
  induction l as [|a l [E IH]]; [exists 0; intros a []|]. exists (Rmax (f a) E). intros b [<-|Hb]; [apply Rmax_l|]. apply Rle_trans with E; [apply IH, Hb|apply Rmax_r].
Qed.

(** A sphere around the example's cube. *)
Lemma ball_mask pkg occ r ps G rv k : create_grids pkg ex_ase (ex_drv occ r ps 8) = Ok (G, rv, k) -> forall m, tshape m = tshape G ->
  exists E m', create_freq_mask pkg ex_ase (ex_ball occ r ps E) = Ok m' /\ mask_within m m'.
Proof.
  intros Hg m Sm. destruct (create_grids_inv _ _ _ _ _ _ Hg) as (cr & gs & n & ks & nk & Ecr & Egs & En & _ & _ & HG & _).
  destruct (list_bound (fun i => norm (tget G i) ^ 2) (indices (tshape G))) as [E HE]. exists (E / 2). eexists. split.
  - unfold create_freq_mask. rewrite (same_crystal pkg ex_ase _ _ (ball_same occ r ps (E / 2))), Ecr. cbn [bind]. rewrite (ball_same occ r ps (E / 2) "grid_sizes"%string) by discriminate. rewrite Egs. cbn [bind]. rewrite En. cbn [bind].
    change (getattr (ex_ball occ r ps (E / 2)) "freq_mask_method") with (Ok (VStr "spherical")). change (getattr (ex_ball occ r ps (E / 2)) "cutoff_energy") with (Ok (VReal (E / 2))). cbn [bind].
    change (String.eqb "spherical"%string "cubic"%string) with false. change (String.eqb "spherical"%string "spherical"%string) with true. cbv iota. change (cfg_real (VReal (E / 2))) with (Ok (E / 2)). cbn [bind]. unfold spherical_mask. rewrite HG. cbn [bind]. reflexivity.
  - split; [cbn [tmap tshape]; congruence|]. intros i Hi _. cbn [tmap tget]. unfold Rleb. destruct (Rle_dec _ _) as [|N]; [reflexivity|]. exfalso. apply N.
    pose proof (HE i) as X. rewrite Sm in Hi. specialize (X (proj2 (in_indices _ _) Hi)). cbv beta in X. lra.
Qed.

Lemma ex_raise_ae erfc pkg occ r : In occ ex_methods -> exists E pb p0, (forall E', E <= E' -> raised_cutoff (ex_ball occ r false E) (ex_ball occ r false E')) /\
  ae_problem erfc pkg ex_ase 2 (ex_ball occ r false E) = Ok pb /\ ae_init ex_rnd ex_rpw pb = Ok p0 /\ reachable pb p0 p0 /\
  bands_hold (pb_method pb) (pb_electrons pb) (pb_spin pb) (pb_bands pb) /\ bands_fit_basis pb /\ xc_local ex_xcd false "lda_x".
Proof.
  intros Ho. destruct (ex_ae_init erfc pkg occ r Ho) as (pb & p0 & Hpb & Hi & _ & Hb & Hfit & Hx).
  destruct (setup_inv _ _ _ _ _ _ _ _ _ Hpb) as (_ & _ & (rv & Hg) & _). destruct (setup_grids _ _ _ _ _ _ _ _ _ Hpb) as (n1 & n2 & n3 & HG & Sm & _).
  assert (SG : tshape (pb_mask pb) = tshape (pb_G pb)) by (rewrite Sm; symmetry; apply (vector_grid_shape _ _ _ _ HG)).
  destruct (ball_mask pkg occ r false _ _ _ Hg (pb_mask pb) SG) as (E & m & Hm & Hw). destruct (init_with ex_rnd ex_rpw pb p0 m Hi) as (p0' & Hi' & _).
  exists E, (with_mask pb m), p0'. split; [intros E' HE; apply ball_raised, HE|].
  split; [apply (same_setup pkg ex_ase _ _ (ball_same occ r false E)); assumption|]. split; [exact Hi'|].
  split; [apply (traj_reachable (with_mask pb m) (fun _ p => p) ex_opt ex_rnd ex_rpw p0' 0 Hi' (fun _ => ex_opt_constants))|]. split; [exact Hb|]. split; [|exact Hx].
  unfold bands_fit_basis in *. cbn [with_mask pb_bands pb_mask]. pose proof (mask_within_length _ _ Hw). lia.
Qed.

Lemma ex_raise_nc erfc pkg occ r : In occ ["uniform"; "gamma"; "simplex-projector"]%string -> (occ = "simplex-projector"%string \/ r = true) ->
  exists E pb p0, (forall E', E <= E' -> raised_cutoff (ex_ball occ r true E) (ex_ball occ r true E')) /\
  nc_problem erfc pkg ex_ase ex_loader ex_loader (fun l => l) ex_loc ex_nl 2 (ex_ball occ r true E) = Ok pb /\ m3det (cr_cell (pb_crystal pb)) <> 0 /\ nc_init ex_rnd ex_rpw pb = Ok p0 /\
  (pb_electrons pb mod 2 = pb_spin pb mod 2)%Z /\ bands_hold (pb_method pb) (pb_electrons pb) (pb_spin pb) (pb_bands pb) /\ bands_fit_basis pb /\ (fixed_occ (pb_method pb) -> pb_restricted pb = true) /\ on_grid ex_loc ex_nl.
Proof.
  intros Ho Hor. destruct (ex_nc_attained erfc pkg occ r Ho Hor) as (pb & p0 & _ & _ & _ & _ & Hpb & HA & Hi & _ & Hpar & Hb & Hfit & Hfx & Hon & _).
  destruct (setup_inv _ _ _ _ _ _ _ _ _ Hpb) as (_ & _ & (rv & Hg) & _). destruct (setup_grids _ _ _ _ _ _ _ _ _ Hpb) as (n1 & n2 & n3 & HG & Sm & _).
  assert (SG : tshape (pb_mask pb) = tshape (pb_G pb)) by (rewrite Sm; symmetry; apply (vector_grid_shape _ _ _ _ HG)).
  destruct (ball_mask pkg occ r true _ _ _ Hg (pb_mask pb) SG) as (E & m & Hm & Hw).
  destruct (nc_init_with ex_rnd ex_rpw pb p0 m Hi) as (p0' & Hi' & _).
  exists E, (with_mask pb m), p0'. split; [intros E' HE; apply ball_raised, HE|].
  split; [apply (nc_same erfc pkg ex_ase ex_loader ex_loader (fun l => l) ex_loc ex_nl 2 _ _ pb m (ball_same occ r true E) Hm Hpb)|].
  split; [exact HA|]. split; [exact Hi'|]. split; [exact Hpar|]. split; [exact Hb|]. split; [|split; [exact Hfx|exact Hon]].
  unfold bands_fit_basis in *. cbn [with_mask pb_bands pb_mask]. pose proof (mask_within_length _ _ Hw). lia.
Qed.
