(** The all-electron band driver. *)
From Coq Require Import Reals Lra Lia.
From Coquelicot Require Import Coquelicot.
From Coq Require Import Ascii String List Arith ZArith Bool.
From Verif Require Import Base Sums Tensor DFT GridModel PadModel PadProofs Lin3 VecModel VecProofs PwModel PwSpec PwProofs BraketModel XcModel EnergyModel HamModel HamSpec HamProofs HamProofs2 HamProofs3.
From Verif Require Import OccModel OccSpec EwaldModel LocModel NlocModel CalcModel CalcSpec CalcProofs2 CalcProofs3 DrvModel DrvSpec DrvProofs2 DrvProofs3 DrvProofs4 TotalProofs.
From Verif Require Import EigSpec EigProofs BndModel BndSpec BndProofs.
Import ListNotations.
Local Open Scope R_scope.

Lemma setup_inv' pkg read bandpath c electrons density restricted bp : band_setup pkg read bandpath c electrons density restricted = Ok bp ->
  create_crystal pkg read c = Ok (bp_crystal bp) /\ (exists N e v, electrons (bp_crystal bp) = Ok N /\ getattr c "band_structure_empty_bands" = Ok v /\ cfg_int v = Ok e /\ Z.of_nat (bp_bands bp) = num_bands N e) /\
  (exists r k, create_grids pkg read c = Ok (bp_G bp, r, k)) /\ create_freq_mask pkg read c = Ok (bp_mask bp) /\ getattr c "xc" = Ok (VStr (bp_xc bp)) /\ density = Ok (bp_dens bp) /\
  (exists v, getattr c "spin_restricted" = Ok v /\ bp_restricted bp = restricted v) /\
  (exists special, getattr c "k_path_special_points" = Ok special /\ bp_path bp = get_k_path (fun cell _ n => bandpath cell special n) (cr_cell (bp_crystal bp)) EmptyString (bp_kpts bp) false).
Proof.
  unfold band_setup. intros H. step H u0 E0. step H u1 E1. step H cr E2. step H N E3. step H grids E4. destruct grids as [[g r] k]. step H mask E5. step H xc E6. step H xcs E7.
  step H special E8. step H num E9. step H numz E10. cbv zeta in H. step H par E11. step H d E12. step H eb E13. step H ebz E14. step H rr E15. step H e1 E16. step H e1z E17. step H e2 E18. step H e2z E19.
  destruct (num_bands N ebz <? 0)%Z eqn:EB; [discriminate|]. injection H as <-. apply Z.ltb_ge in EB. cbn [bp_crystal bp_bands bp_G bp_mask bp_xc bp_dens bp_restricted bp_path bp_kpts].
  split; [exact E2|]. split; [exists N, ebz, eb; rewrite Z2Nat.id by exact EB; auto|]. split; [eauto|]. split; [exact E5|].
  split; [destruct xc; try discriminate; cbn in E7; injection E7 as <-; exact E6|]. split; [exact E12|]. split; [eauto|]. exists special. split; [exact E8|reflexivity].
Qed.
Lemma setup_grids' pkg read bandpath c electrons density restricted bp : band_setup pkg read bandpath c electrons density restricted = Ok bp -> band_grids bp.
Proof.
  intros H. destruct (setup_inv' _ _ _ _ _ _ _ _ H) as (Hcr & _ & (r & k & Hg) & Hm & _).
  destruct (create_grids_inv _ _ _ _ _ _ Hg) as (cr & gs & n & ks & nk & Ecr & _ & _ & _ & _ & HG & _ & _). rewrite Hcr in Ecr. injection Ecr as <-.
  destruct (vector_grid_inv _ _ _ _ HG) as (n1 & n2 & n3 & En & _). exists n1, n2, n3. rewrite <- En. split; [exact HG|].
  destruct (grids_and_mask_agree _ _ _ _ _ _ _ Hg Hm) as (<- & _). rewrite (vector_grid_shape _ _ _ _ HG). reflexivity.
Qed.
Lemma grid_facts' bp : band_grids bp -> m3det (cr_cell (bp_crystal bp)) <> 0 ->
  exists n1 n2 n3, tshape (bp_mask bp) = [n1; n2; n3] /\ tshape (bp_G bp) = [n1; n2; n3] /\ gridpos [n1; n2; n3] /\ 0 < bp_vol bp.
Proof.
  intros (n1 & n2 & n3 & HG & Hm) HA. exists n1, n2, n3. split; [exact Hm|]. split; [rewrite (vector_grid_shape _ _ _ _ HG); reflexivity|].
  split; [destruct (proj1 (g_vectors_ok _ n1 n2 n3) (ex_intro _ _ HG)) as (? & ? & ?); repeat constructor; lia|]. unfold bp_vol, volume. apply Rabs_pos_lt, HA.
Qed.

(** Shapes along the run. *)
Lemma warm_invariant {P Os} (I : P -> Prop) (step : P -> Os -> v3 -> P * Os) first tune ks po j : (forall p o k, I p -> I (fst (step p o k))) -> I (fst po) -> I (fst (warm_start step first tune ks po j)).
Proof.
  intros Hs H0. assert (R : forall n k q, I (fst q) -> I (fst (repeat_at step n k q))).
  { intros n k q Hq. unfold repeat_at. induction n as [|n IH]; [exact Hq|]. cbn. apply Hs, IH. }
  induction j as [|j IH]; cbn [warm_start]; apply R; assumption.
Qed.
Lemma step_shape {Os} bp sp grad (optimizer : bparams -> Os -> bparams * Os) p o k : band_shape bp sp p -> band_shape bp sp (fst (band_step grad optimizer p o k)).
Proof. unfold band_step. destruct (optimizer (grad p k) o) as [u o']. intros [H1 H2]. split; assumption. Qed.
Lemma init_shape rnd bp r : pair_shape_ok rnd -> band_shape bp (num_spin r) (pw_param_init rnd (bp_bands bp) 1 (bp_mask bp) r).
Proof. intros Hr. unfold pw_param_init. destruct (Hr (pw_param_shape (bp_bands bp) 1 (bp_mask bp) r)) as [H1 H2]. split; [exact H1|exact H2]. Qed.

(** Bounds from a separated list of energies. *)
Lemma separated_excess n B A lam sp (e : nat -> nat -> R) : (forall s, (s < sp)%nat -> separated n B A (e s)) -> spectrum n A lam ->
  let t := sumR (seq 0 sp) (fun s => sumR (seq 0 B) (e s)) in
  INR sp * sumR (seq 0 B) lam <= t /\ forall s b, (s < sp)%nat -> (b < B)%nat -> 0 <= e s b - lam b <= t - INR sp * sumR (seq 0 B) lam.
Proof.
  intros He HA t.
  assert (Et : t - INR sp * sumR (seq 0 B) lam = sumR (seq 0 sp) (fun s => sumR (seq 0 B) (fun b => e s b - lam b))).
  { rewrite (sumR_ext (seq 0 sp) (fun s => sumR (seq 0 B) (fun b => e s b - lam b)) (fun s => sumR (seq 0 B) (e s) - sumR (seq 0 B) lam)) by (intros s _; apply sumR_minus).
    rewrite sumR_minus, sumR_const, seq_length. unfold t. ring. }
  assert (P : forall s b, (s < sp)%nat -> (b < B)%nat -> 0 <= e s b - lam b) by (intros s b Hs Hb; pose proof (proj1 (He s Hs lam HA b Hb)); lra).
  assert (P' : forall s, (s < sp)%nat -> 0 <= sumR (seq 0 B) (fun b => e s b - lam b)) by (intros s Hs; apply sumR_nonneg; intros b Hb; apply seq_in in Hb; apply P; assumption).
  split.
  - enough (0 <= t - INR sp * sumR (seq 0 B) lam) by lra. rewrite Et. apply sumR_nonneg. intros s Hs. apply seq_in in Hs. apply P', Hs.
  - intros s b Hs Hb. split; [apply P; assumption|]. rewrite Et.
    apply Rle_trans with (sumR (seq 0 B) (fun b => e s b - lam b)).
    + apply (sumR_ge_term (seq 0 B) (fun b => e s b - lam b) b); [intros x Hx; apply seq_in in Hx; apply P; assumption|apply seq_in; exact Hb].
    + apply (sumR_ge_term (seq 0 sp) (fun s => sumR (seq 0 B) (fun b => e s b - lam b)) s); [intros x Hx; apply seq_in in Hx; apply P', Hx|apply seq_in; exact Hs].
Qed.
Lemma separated_full n A e lam b : separated n n A e -> spectrum n A lam -> (b < n)%nat -> e b = lam b.
Proof. intros H HA Hb. pose proof (H lam HA b Hb) as [H1 H2]. replace (n - n + b)%nat with b in H2 by lia. lra. Qed.

Section AE.
  Context {Os : Type} (pkg : string) (read : string -> res ase_atoms) (devices : nat) (bandpath : m3 -> cval -> nat -> list v3)
    (gs : cfg -> res (run_output (D := tensor R))) (cqr : tensor C -> tensor C) (xcd : xcdens) (ev : nat -> (nat -> nat -> C) -> nat -> R)
    (bgrad : band_problem -> bparams -> v3 -> bparams) (alias : string -> option (cval -> list (string * cval) -> boptax Os)) (rnd : list nat -> tensor R * tensor R) (c : cfg).
  Notation calc := (ae_band pkg read devices bandpath gs cqr xcd ev bgrad alias rnd c).
  Context (Hq : complex_qr cqr) (Hev : eigvalsh_ok ev) (Hrnd : pair_shape_ok rnd) (bp : band_problem) (opt : boptax Os) (hk : nat)
    (Hbp : ae_band_problem pkg read bandpath gs c = Ok bp) (Hopt : create_optimizer alias c = Ok opt) (Hdet : m3det (cr_cell (bp_crystal bp)) <> 0)
    (Hk : potential_channels xcd bp hk) (HB1 : (1 <= bp_bands bp)%nat) (HBn : (bp_bands bp <= waves bp)%nat).
  Let p0 := ae_band_init rnd bp.
  Let stp := band_step (bgrad bp) (snd opt).
  Let sp := num_spin (bp_restricted bp).

  Lemma ae_point' p k : band_shape bp sp p ->
    exists e t A, ae_eig cqr xcd ev bp p k = Ok e /\ ae_trace cqr xcd bp p k = Ok t /\ basis_hamiltonian xcd bp k = Ok A /\ tshape e = [sp; 1; bp_bands bp]%nat /\
    (forall s, (s < sp)%nat -> ascending (bp_bands bp) (fun b => tget e [s; 0%nat; b]) /\ separated (waves bp) (bp_bands bp) (matrix_at A [0%nat]) (fun b => tget e [s; 0%nat; b])) /\
    t = sumR (seq 0 sp) (fun s => sumR (seq 0 (bp_bands bp)) (fun b => tget e [s; 0%nat; b])).
  Proof.
    intros Hp. destruct (grid_facts' bp (setup_grids' _ _ _ _ _ _ _ _ Hbp) Hdet) as (n1 & n2 & n3 & Sm & SG & _ & Hvol).
    apply (ae_point cqr xcd ev bp sp hk n1 n2 n3 p k); assumption.
  Qed.
  Lemma ae_unfold : calc = band_all_electrons stp (static [sp; 1; bp_bands bp]%nat (ae_eig cqr xcd ev bp)) (bp_first bp) (bp_tune bp) devices (bp_parallel bp) (bp_kpts bp) (bp_bands bp) (bp_path bp) (p0, fst opt p0).
  Proof.
    unfold ae_band. rewrite Hbp. cbn [bind]. rewrite Hopt. cbn [bind]. cbv zeta.
    destruct (ae_point' (ae_band_init rnd bp) (nth 0 (bp_path bp) vzero) (init_shape rnd bp _ Hrnd)) as (e & t & A & -> & -> & _ & Se & _). cbn [bind]. rewrite Se. reflexivity.
  Qed.
  Lemma ae_shape_at ks j : band_shape bp sp (fst (warm_start stp (bp_first bp) (bp_tune bp) ks (p0, fst opt p0) j)).
  Proof. apply (warm_invariant (band_shape bp sp)); [intros; apply step_shape; assumption|]. apply init_shape, Hrnd. Qed.

  Lemma ae_band_energies out : calc = Ok out -> tshape out = [sp; length (bp_path bp); bp_bands bp] /\
    forall i, (i < length (bp_path bp))%nat -> exists p t A, solved_with stp bp devices (p0, fst opt p0) i p /\
      ae_trace cqr xcd bp p (nth i (bp_path bp) vzero) = Ok t /\ basis_hamiltonian xcd bp (nth i (bp_path bp) vzero) = Ok A /\
      (forall s, (s < sp)%nat -> ascending (bp_bands bp) (fun b => tget out [s; i; b]) /\ separated (waves bp) (bp_bands bp) (matrix_at A [0%nat]) (fun b => tget out [s; i; b])) /\
      t = sumR (seq 0 sp) (fun s => sumR (seq 0 (bp_bands bp)) (fun b => tget out [s; i; b])).
  Proof.
    rewrite ae_unfold. intros H. set (eig := static _ _) in H.
    assert (Hsh : forall p k, tshape (eig p k) = [sp; 1; bp_bands bp]%nat) by reflexivity.
    assert (Hsp : (1 <= sp)%nat) by (unfold sp, num_spin; destruct (bp_restricted bp); lia).
    destruct (proj1 (band_all_iff stp eig (bp_first bp) (bp_tune bp) devices (bp_parallel bp) (bp_kpts bp) sp (bp_bands bp) (bp_path bp) (p0, fst opt p0) Hsp HB1 Hsh) (ex_intro _ out H)) as ((n & HD & Hn & Hl) & Hpar & HK).
    destruct (band_all_ok stp eig (bp_first bp) (bp_tune bp) devices n (bp_path bp) (p0, fst opt p0) sp (bp_bands bp) HD Hn Hl Hsh (bp_parallel bp) Hpar) as (out' & H' & So & Go).
    rewrite HK, Hl, H' in H. injection H as ->. split; [rewrite Hl; exact So|].
    intros i Hi. rewrite Hl in Hi. 
    assert (Ei : i = (i / n * n + i mod n)%nat) by (rewrite Nat.mul_comm; apply Nat.div_mod; lia).
    assert (Hd : (i / n < devices)%nat) by (apply Nat.div_lt_upper_bound; lia).
    assert (Hj : (i mod n < n)%nat) by (apply Nat.mod_upper_bound; lia).
    set (d := (i / n)%nat) in *. set (j := (i mod n)%nat) in *.
    set (p := fst (warm_start stp (bp_first bp) (bp_tune bp) (firstn n (skipn (d * n) (bp_path bp))) (p0, fst opt p0) j)).
    destruct (ae_point' p (nth i (bp_path bp) vzero) (ae_shape_at _ _)) as (e & t & A & He & Ht & HA & Se & Hs & Et).
    assert (G : forall s b, (s < sp)%nat -> (b < bp_bands bp)%nat -> tget out [s; i; b] = tget e [s; 0%nat; b]).
    { intros s b Hs' Hb. rewrite Ei at 1. rewrite Go by assumption. fold p. rewrite <- Ei. unfold eig, static. cbn [tget]. rewrite He. reflexivity. }
    exists p, t, A. split; [exists n, d, j; repeat split; assumption|]. split; [exact Ht|]. split; [exact HA|]. split.
    - intros s Hs'. destruct (Hs s Hs') as [Ha Hsep]. split.
      + intros a b Hab Hb. rewrite !G by lia. apply Ha; assumption.
      + intros lam Hlam b Hb. rewrite G by assumption. apply Hsep; assumption.
    - rewrite Et. apply sumR_ext. intros s Hs'. apply seq_in in Hs'. apply sumR_ext. intros b Hb. apply seq_in in Hb. symmetry. apply G; assumption.
  Qed.

  Lemma ae_band_returns : (exists out, calc = Ok out) <->
    (exists n, (1 <= devices)%nat /\ (1 <= n)%nat /\ (length (bp_path bp) = devices * n)%nat) /\ (bp_parallel bp = true \/ devices = 1%nat) /\ bp_kpts bp = length (bp_path bp).
  Proof.
    rewrite ae_unfold. apply (band_all_iff stp _ (bp_first bp) (bp_tune bp) devices (bp_parallel bp) (bp_kpts bp) sp (bp_bands bp)); [|exact HB1|reflexivity].
    unfold sp, num_spin. destruct (bp_restricted bp); lia.
  Qed.
End AE.
