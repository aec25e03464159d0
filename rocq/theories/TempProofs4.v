(** The example calculations at a temperature (C155). *)
From Coq Require Import Reals Lra Lia.
From Coquelicot Require Import Coquelicot.
From Coq Require Import Ascii String List Arith ZArith Bool.
From Verif Require Import Base Sums Tensor Lin3 VecModel PwSpec EnergyModel CalcModel OccModel OccSpec XcModel DrvModel DrvSpec DrvProofs5 DrvProofs6 DrvProofs7 CalcProofs3 BoundProofs2 ReachSpec ReachProofs2 IdemSpec AttSpec AttProofs5 NcAttSpec NcAttProofs2 TempSpec.
Import ListNotations.
Local Open Scope R_scope.

Lemma ex_temp erfc pkg occ r : In occ ["uniform"; "idempotent"; "simplex-projector"]%string -> exists pb p0, ae_problem erfc pkg ex_ase 2 (ex_drv occ r false 8) = Ok pb /\ m3det (cr_cell (pb_crystal pb)) <> 0 /\
  length (cr_charges (pb_crystal pb)) = length (cr_positions (pb_crystal pb)) /\ ae_init ex_rnd ex_rpw pb = Ok p0 /\ bands_hold (pb_method pb) (pb_electrons pb) (pb_spin pb) (pb_bands pb) /\ bands_fit_basis pb /\
  entropy_defined pb /\ 0 < pb_eps pb.
Proof.
  intros Ho. assert (Ho' : In occ ex_methods) by (cbn in Ho |- *; tauto). destruct (ex_attained erfc pkg occ r Ho') as (pb & p0 & H1 & H2 & H3 & H4 & H5 & H6). exists pb, p0. repeat (split; [assumption|]). split.
  - left. destruct (ex_ae erfc pkg occ r Ho') as (pb' & H1' & _ & _ & _ & _ & _ & _ & Hm & _). rewrite H1 in H1'. injection H1' as <-. rewrite Hm. cbn in Ho. destruct Ho as [<-|[<-|[<-|[]]]]; discriminate.
  - destruct (ae_settings _ _ _ _ _ _ H1) as ((_ & _ & (v & Ev & Er) & _) & _). change (getattr (ex_drv occ r false 8) "eps") with (Ok (VReal (1 / 100000000))) in Ev. injection Ev as <-. cbn [cfg_real] in Er. injection Er as <-. lra.
Qed.
Lemma ex_nc_temp erfc pkg occ r : In occ ["uniform"; "simplex-projector"]%string -> (occ = "simplex-projector"%string \/ r = true) ->
  exists pb p0, nc_problem erfc pkg ex_ase ex_loader ex_loader (fun l => l) ex_loc ex_nl 2 (ex_drv occ r true 8) = Ok pb /\ m3det (cr_cell (pb_crystal pb)) <> 0 /\ nc_init ex_rnd ex_rpw pb = Ok p0 /\
    (pb_electrons pb mod 2 = pb_spin pb mod 2)%Z /\ bands_hold (pb_method pb) (pb_electrons pb) (pb_spin pb) (pb_bands pb) /\ bands_fit_basis pb /\ (fixed_occ (pb_method pb) -> pb_restricted pb = true) /\ on_grid ex_loc ex_nl /\
    entropy_defined pb /\ 0 < pb_eps pb.
Proof.
  intros Ho Hor. assert (Ho' : In occ ["uniform"; "gamma"; "simplex-projector"]%string) by (cbn in Ho |- *; tauto). destruct (ex_nc_attained erfc pkg occ r Ho' Hor) as (pb & p0 & pp & V & nl & co & H1 & H2 & H3 & _ & H4 & H5 & H6 & H7 & H8 & _).
  exists pb, p0. repeat (split; [assumption|]). split.
  - left. assert (Ho2 : In occ ex_methods) by (cbn in Ho |- *; tauto). destruct (ex_nc erfc pkg occ r Ho2) as (pb' & H1' & _ & _ & _ & _ & _ & _ & _ & Hm & _). rewrite H1 in H1'. injection H1' as <-. rewrite Hm. cbn in Ho. destruct Ho as [<-|[<-|[]]]; discriminate.
  - destruct (nc_settings _ _ _ _ _ _ _ _ _ _ _ H1) as ((_ & _ & (v & Ev & Er) & _) & _). change (getattr (ex_drv occ r true 8) "eps") with (Ok (VReal (1 / 100000000))) in Ev. injection Ev as <-. cbn [cfg_real] in Er. injection Er as <-. lra.
Qed.
(** Full and half filling: the largest difference of entropies is nearly reached. *)
Lemma ex_fillings : within 0 ((3 - INR 1) / INR 1) (mkT [1; 1; 2]%nat (fun i => if (nth 2 i 0 =? 0)%nat then 2 else 0)) /\ within 0 ((3 - INR 1) / INR 1) (mkT [1; 1; 2]%nat (fun _ => 1)) /\
  exists occ, gamma 4 6 2 (Some 5%nat) true = Ok occ.
Proof.
  split; [|split].
  - intros i _. cbn [tget]. destruct (nth 2 i 0 =? 0)%nat; cbn [INR]; lra.
  - intros i _. cbn [tget INR]. lra.
  - eexists. reflexivity.
Qed.
