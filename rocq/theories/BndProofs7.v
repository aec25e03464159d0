(** Every setting a band-structure driver takes from the configuration. *)
From Coq Require Import Reals Lra Lia.
From Coquelicot Require Import Complex.
From Coq Require Import Ascii String List Arith ZArith Bool.
From Verif Require Import Base Sums Tensor Lin3 VecModel GridModel CalcSpec CalcModel DrvModel DrvSpec DrvProofs2 BndModel BndSpec BndProofs2.
Import ListNotations.
Local Open Scope R_scope.

Lemma band_settings pkg read bandpath c electrons density restricted bp : band_setup pkg read bandpath c electrons density restricted = Ok bp -> reads_band_settings c bp.
Proof.
  unfold band_setup. intros H. step H u0 E0. step H u1 E1. step H cr E2. step H N E3. step H grids E4. destruct grids as [[g r] k]. step H mask E5. step H xc E6. step H xcs E7.
  step H special E8. step H num E9. step H numz E10. cbv zeta in H. step H par E11. step H d E12. step H eb E13. step H ebz E14. step H rr E15. step H e1 E16. step H e1z E17. step H e2 E18. step H e2z E19.
  destruct (num_bands N ebz <? 0)%Z eqn:EB; [discriminate|]. injection H as <-. unfold reads_band_settings, reads. cbn [bp_first bp_tune bp_kpts bp_parallel].
  split; [|split; [|split]]; eauto 8.
Qed.
Lemma ae_band_settings pkg read bandpath gs c bp : ae_band_problem pkg read bandpath gs c = Ok bp -> reads_band_settings c bp.
Proof. apply band_settings. Qed.
Lemma nc_band_settings {PP} pkg read (nc us : crystal -> string -> res PP) valence bandpath gs c bp : nc_band_problem pkg read nc us valence bandpath gs c = Ok bp -> reads_band_settings c bp.
Proof. apply band_settings. Qed.
Lemma nc_band_setup {PP} pkg read (nc us : crystal -> string -> res PP) valence bandpath gs c bp : nc_band_problem pkg read nc us valence bandpath gs c = Ok bp ->
  create_crystal pkg read c = Ok (bp_crystal bp) /\ (exists r k, create_grids pkg read c = Ok (bp_G bp, r, k)) /\ create_freq_mask pkg read c = Ok (bp_mask bp) /\ getattr c "xc" = Ok (VStr (bp_xc bp)) /\
  (exists out, gs c = Ok out /\ bp_dens bp = returned out) /\ bp_restricted bp = true /\
  (exists pp e v, create_pseudopotential pkg read nc us c = Ok pp /\ getattr c "band_structure_empty_bands" = Ok v /\ cfg_int v = Ok e /\ Z.of_nat (bp_bands bp) = num_bands (fold_right Z.add 0%Z (valence pp)) e) /\
  (exists special, getattr c "k_path_special_points" = Ok special /\ bp_path bp = get_k_path (fun cell _ n => bandpath cell special n) (cr_cell (bp_crystal bp)) EmptyString (bp_kpts bp) false).
Proof.
  intros H. destruct (setup_inv' _ _ _ _ _ _ _ _ H) as (H1 & (N & e & v & HN & Hv & He & HB) & H3 & H4 & H5 & Hd & (w & _ & H7) & H8). cbv beta in HN. step Hd out Ho. injection Hd as Hd. step HN pp Hpp. injection HN as HN.
  split; [exact H1|]. split; [exact H3|]. split; [exact H4|]. split; [exact H5|]. split; [exists out; split; [exact Ho|congruence]|]. split; [exact H7|].
  split; [exists pp, e, v; rewrite HN; auto|exact H8].
Qed.

(** *** One step *)
Lemma band_adds {Os} grad (optimizer : bparams -> Os -> bparams * Os) p o k p' o' : band_step grad optimizer p o k = (p', o') ->
  exists u, optimizer (grad p k) o = (u, o') /\ added (fst p) (fst u) (fst p') /\ added (snd p) (snd u) (snd p').
Proof. unfold band_step. destruct (optimizer (grad p k) o) as [u o2]. intros H. injection H as <- <-. exists u. repeat split. Qed.
