(** How configuration entries become grid sizes and occupation methods; the number of atoms. *)
From Coq Require Import Reals Lra Lia.
From Coq Require Import Ascii String List Arith ZArith Bool.
From Verif Require Import Base Tensor GridModel GridSpec Lin3 OccModel CalcModel CalcSpec DrvModel.
Import ListNotations.
Local Open Scope R_scope.

Lemma Int_part_bounds r : IZR (Int_part r) <= r < IZR (Int_part r) + 1.
Proof. destruct (base_Int_part r). lra. Qed.
Lemma floor_unique r n : IZR n <= r < IZR n + 1 -> Int_part r = n.
Proof.
  intros H. pose proof (Int_part_bounds r) as H'. assert (IZR (Int_part r) < IZR (n + 1)) by (rewrite plus_IZR; lra). assert (IZR n < IZR (Int_part r + 1)) by (rewrite plus_IZR; lra).
  apply lt_IZR in H0, H1. lia.
Qed.

Lemma list_requested l zs : mapM (fun v => match v with VInt z => Ok z | _ => Err TypeErr end) l = Ok zs <-> l = map VInt zs.
Proof.
  revert zs. induction l as [|a l IH]; intros zs; cbn [mapM].
  - split; [intros H; injection H as <-; reflexivity|destruct zs; [reflexivity|discriminate]].
  - split.
    + intros H. destruct a; cbn [bind] in H; try discriminate. destruct (mapM _ l) as [l'|] eqn:E; [|discriminate]. cbn [bind] in H. injection H as <-. cbn [map]. f_equal. apply IH. reflexivity.
    + destruct zs as [|z zs]; [discriminate|]. cbn [map]. intros H. injection H as -> H. cbn [bind]. rewrite (proj2 (IH zs) H). reflexivity.
Qed.

Lemma grid_requested v l : requested (cfg_grid v) = Some l <->
  v = VList (map VInt l) \/ exists n, l = [n; n; n] /\
    (v = VInt n \/ (exists b : bool, v = VBool b /\ n = (if b then 1 else 0)%Z) \/ exists r, v = VReal r /\ (0 <= r -> IZR n <= r < IZR n + 1) /\ (r < 0 -> IZR n - 1 < r <= IZR n)).
Proof.
  split.
  - destruct v; cbn [cfg_grid requested]; intros H; try discriminate.
    + injection H as <-. right. eexists. split; [reflexivity|]. right; left. eexists. split; reflexivity.
    + injection H as <-. right. eexists. split; [reflexivity|]. left. reflexivity.
    + injection H as <-. right. eexists. split; [reflexivity|]. right; right. exists r. split; [reflexivity|]. destruct (Rle_dec 0 r) as [Hr|Hr].
      * pose proof (Int_part_bounds r). split; intros; lra.
      * pose proof (Int_part_bounds (- r)). rewrite opp_IZR. split; intros; lra.
    + destruct (mapM _ l0) as [zs|] eqn:E; [|discriminate]. cbn in H. injection H as <-. left. f_equal. apply list_requested, E.
  - intros [->|(n & -> & [->|[(b & -> & ->)|(r & -> & H1 & H2)]])]; try reflexivity.
    + cbn [cfg_grid]. rewrite (proj2 (list_requested _ l) eq_refl). reflexivity.
    + cbn [cfg_grid requested]. destruct (Rle_dec 0 r) as [Hr|Hr].
      * rewrite (floor_unique r n); [reflexivity|auto].
      * rewrite (floor_unique (- r) (- n)); [rewrite Z.opp_involutive; reflexivity|]. rewrite opp_IZR. specialize (H2 ltac:(lra)). lra.
Qed.

Lemma occupation_selected c m : (create_occupation c = Ok m <-> exists s, getattr c "occupation" = Ok (VStr s) /\ method_of_name s = m /\ m <> MOther) /\
  (forall v, getattr c "occupation" = Ok v -> (forall s, v = VStr s -> method_of_name s = MOther) -> create_occupation c = Err NotImplementedErr).
Proof.
  unfold create_occupation. split.
  - split.
    + intros H. destruct (getattr c "occupation") as [v|]; [|discriminate]. cbn [bind] in H. destruct v as [| | | |t| |]; try discriminate. exists t. split; [reflexivity|]. unfold method_of_name.
      destruct (String.eqb t "idempotent") eqn:E1; [injection H as <-; split; [reflexivity|discriminate]|].
      destruct (String.eqb t "simplex-projector") eqn:E2; [|destruct (String.eqb t "uniform") eqn:E3; [injection H as <-; split; [reflexivity|discriminate]|destruct (String.eqb t "gamma") eqn:E4; [injection H as <-; split; [reflexivity|discriminate]|discriminate]]].
      apply String.eqb_eq in E2. subst t. injection H as <-. split; [reflexivity|discriminate].
    + intros (t & -> & <- & H). cbn [bind]. unfold method_of_name in *.
      destruct (String.eqb t "simplex-projector") eqn:E2; [apply String.eqb_eq in E2; subst t; reflexivity|].
      destruct (String.eqb t "idempotent"); [reflexivity|]. destruct (String.eqb t "uniform"); [reflexivity|]. destruct (String.eqb t "gamma"); [reflexivity|]. congruence.
  - intros v -> H. cbn [bind]. destruct v as [| | | |s| |]; try reflexivity. specialize (H s eq_refl). unfold method_of_name in H.
    destruct (String.eqb s "idempotent"); [discriminate|]. destruct (String.eqb s "uniform"); [discriminate|]. destruct (String.eqb s "gamma"); [discriminate|]. destruct (String.eqb s "simplex-projector"); [discriminate|reflexivity].
Qed.

Lemma atom_count : (forall read path spin cr, create_from_file read path spin = Ok cr -> exists a, read path = Ok a /\ num_atom cr = length (a_positions a)) /\
  (forall numbers symbols positions cell spin cr, create_from_symbols numbers symbols positions cell spin = Ok cr -> num_atom cr = length positions /\ num_atom cr = length (cr_charges cr)).
Proof.
  split.
  - intros read path spin cr H. unfold create_from_file in H. destruct (read path) as [a|]; [|discriminate]. cbn [bind] in H. injection H as <-. exists a. split; [reflexivity|]. unfold num_atom, crystal_of_ase. cbn. apply map_length.
  - intros numbers symbols positions cell spin cr H. unfold create_from_symbols in H. destruct (numbers symbols) as [zs|]; [|discriminate]. cbn [bind] in H. destruct (Nat.eqb_spec (length positions) (length zs)) as [E|]; [|discriminate]. cbn [negb] in H. injection H as <-.
    unfold num_atom, crystal_of_ase. cbn. rewrite map_length. split; [reflexivity|exact E].
Qed.
