(** Proofs about the nonlocal energy, the norm-conserving Hamiltonian matrix and its trace. *)
From Coq Require Import List Arith ZArith Reals Bool Lra Lia.
From Coquelicot Require Import Complex.
From Verif Require Import Base Sums Tensor DFT GridModel GridProofs Lin3 VecModel VecProofs PwModel PwSpec PwProofs BraketModel BraketSpec BraketProofs EnergyModel EnergySpec EnergyProofs ShiftProofs RespProofs SbtModel LocModel LocProofs LocProofs2 HamSpec HamProofs HamProofs2 NlocModel NlocSpec NlocProofs NlocProofs2.
From Verif Require Import TotalProofs LocSpec SymProofs.
From Coq Require Import List.
Import ListNotations.
Local Open Scope C_scope.

Lemma tsum_all_3 (p : tensor C) a b c : tshape p = [a; b; c] -> tsum_all p = sumC (seq 0 a) (fun i => sumC (seq 0 b) (fun j => sumC (seq 0 c) (fun k => tget p [i; j; k]))).
Proof.
  intros S. unfold tsum_all. rewrite S, sumC_indices_cons. apply sumC_ext. intros i _. rewrite sumC_indices_cons. apply sumC_ext. intros j _. rewrite sumC_indices_cons. apply sumC_ext. intros k _. unfold sumC. cbn [indices map fold_right]. ring.
Qed.
Lemma inb3' i j k a b c : (i < a)%nat -> (j < b)%nat -> (k < c)%nat -> inb [i; j; k] [a; b; c].
Proof. intros. repeat constructor; assumption. Qed.
Definition band_sum sp K B (f : nat -> nat -> nat -> R) : R := sumR (seq 0 sp) (fun s => sumR (seq 0 K) (fun k => sumR (seq 0 B) (fun b => f s k b))).
Lemma energy_eq c psi vol occ sp K B nb nm n1 n2 n3 : let ns := [n1; n2; n3] in tshape c = [sp; K; B] ++ ns -> tshape psi = [K; nb; nm] ++ ns -> tshape occ = [sp; K; B] ->
  exists H, hamiltonian_nonlocal c psi vol = Ok H /\ tshape H = [sp; K; B; B] /\
    energy_nonlocal c psi vol (Some occ) = Ok (sumR (seq 0 sp) (fun s => sumR (seq 0 K) (fun k => sumR (seq 0 B) (fun b => tget occ [s; k; b] * Re (tget H [s; k; b; b])))))%R.
Proof.
  intros ns Sc Sp So. destruct (nonlocal_eq c psi vol sp K B nb nm n1 n2 n3 Sc Sp) as (H & EH & SH & GH). exists H. split; [exact EH|]. split; [exact SH|].
  unfold energy_nonlocal. rewrite EH. cbn [bind]. rewrite SH. cbn [firstn].
  match goal with |- context [tzip ?f ?a ?b] => destruct (tzip_same f a b) as (t & -> & St & Gt); [cbn [tshape]; symmetry; exact So|] end. cbn [bind tshape] in *.
  f_equal. rewrite (tsum_all_3 t sp K B St), Re_sumC. apply sumR_ext. intros s Hs. rewrite Re_sumC. apply sumR_ext. intros k Hk. rewrite Re_sumC. apply sumR_ext. intros b Hb. apply in_seq in Hs, Hk, Hb.
  rewrite Gt by (apply inb3'; lia). cbn [tget nth app]. rewrite Cmult_comm, Re_mult_R. reflexivity.
Qed.
Lemma diag_nonneg c psi vol H : (0 < vol)%R -> hamiltonian_nonlocal c psi vol = Ok H -> forall s k b, (0 <= Re (tget H [s; k; b; b]))%R /\ Im (tget H [s; k; b; b]) = 0%R.
Proof.
  intros Hv E s k b. destruct (ham_entries _ _ _ _ E) as (sp & K & B & F & nb & nm & _ & _ & GH). rewrite GH.
  rewrite (sumC_ext _ _ (fun be => RtoC (sumR (seq 0 nm) (fun m => Cnorm2 (F s k b be m))))) by (intros be _; rewrite <- sumC_RtoC; apply sumC_ext; intros m _; apply Cconj_mult_self).
  rewrite sumC_RtoC, <- RtoC_mult. split; [|reflexivity]. cbn [Re RtoC fst]. apply Rmult_le_pos; [left; apply Rinv_0_lt_compat, Hv|]. apply sumR_nonneg. intros be _. apply sumR_nonneg. intros m _. apply Cnorm2_nonneg.
Qed.
Lemma energy_nonneg c psi vol occ sp K B e : (0 < vol)%R -> tshape occ = [sp; K; B] -> (exists rest, tshape c = [sp; K; B] ++ rest) -> (forall i, inb i (tshape occ) -> (0 <= tget occ i)%R) ->
  energy_nonlocal c psi vol (Some occ) = Ok e -> (0 <= e)%R.
Proof.
  intros Hv So (rest & Sc) Ho E. destruct (hamiltonian_nonlocal c psi vol) as [H|] eqn:EH; [|unfold energy_nonlocal in E; rewrite EH in E; discriminate].
  destruct (ham_inv _ _ _ _ EH) as (sp' & K' & B' & nb & nm & n1 & n2 & n3 & Sc' & Sp). rewrite Sc in Sc'. injection Sc' as <- <- <- Er. subst rest.
  destruct (energy_eq c psi vol occ sp K B nb nm n1 n2 n3 Sc Sp So) as (H' & EH' & _ & E'). rewrite EH in EH'. assert (H = H') as <- by congruence. rewrite E in E'. assert (Q : forall a b : R, Ok a = Ok b -> a = b) by (intros; congruence). apply Q in E'. rewrite E'.
  apply sumR_nonneg. intros s Hs. apply sumR_nonneg. intros k Hk. apply sumR_nonneg. intros b Hb. apply in_seq in Hs, Hk, Hb. apply Rmult_le_pos; [apply Ho; rewrite So; apply inb3'; lia|apply (diag_nonneg c psi vol H Hv EH)].
Qed.
Lemma energy_none c psi vol H : hamiltonian_nonlocal c psi vol = Ok H -> energy_nonlocal c psi vol None = Err TypeErr.
Proof. intros E. unfold energy_nonlocal. rewrite E. reflexivity. Qed.
Lemma energy_linear c psi vol o1 o2 a b sp K B e1 e2 : tshape o1 = [sp; K; B] -> tshape o2 = [sp; K; B] -> (exists rest, tshape c = [sp; K; B] ++ rest) ->
  energy_nonlocal c psi vol (Some o1) = Ok e1 -> energy_nonlocal c psi vol (Some o2) = Ok e2 ->
  energy_nonlocal c psi vol (Some (mkT [sp; K; B] (fun i => a * tget o1 i + b * tget o2 i)%R)) = Ok (a * e1 + b * e2)%R.
Proof.
  intros S1 S2 (rest & Sc) E1 E2. destruct (hamiltonian_nonlocal c psi vol) as [H|] eqn:EH; [|unfold energy_nonlocal in E1; rewrite EH in E1; discriminate].
  destruct (ham_inv _ _ _ _ EH) as (sp' & K' & B' & nb & nm & n1 & n2 & n3 & Sc' & Sp). rewrite Sc in Sc'. injection Sc' as <- <- <- Er. subst rest.
  assert (Q : forall occ e, tshape occ = [sp; K; B] -> energy_nonlocal c psi vol (Some occ) = Ok e -> e = sumR (seq 0 sp) (fun s => sumR (seq 0 K) (fun k => sumR (seq 0 B) (fun b => tget occ [s; k; b] * Re (tget H [s; k; b; b]))))%R).
  { intros occ e So E. destruct (energy_eq c psi vol occ sp K B nb nm n1 n2 n3 Sc Sp So) as (H' & EH' & _ & E'). assert (H = H') as <- by congruence. congruence. }
  set (o := mkT [sp; K; B] _). destruct (energy_eq c psi vol o sp K B nb nm n1 n2 n3 Sc Sp eq_refl) as (H' & EH' & _ & E'). assert (H = H') as <- by congruence. rewrite E'. f_equal.
  rewrite (Q o1 e1 S1 E1), (Q o2 e2 S2 E2). rewrite <- !sumR_scal, <- sumR_plus. apply sumR_ext. intros s _. rewrite <- !sumR_scal, <- sumR_plus. apply sumR_ext. intros k _. rewrite <- !sumR_scal, <- sumR_plus. apply sumR_ext. intros b' _. cbn [o tget]. ring.
Qed.

(** *** The full matrix *)
Lemma hartree_parts (dens : tensor R) G ks sp' n1 n2 n3 : let ns := [n1; n2; n3] in tshape dens = sp' :: ns -> tshape G = ns -> (forall x, inb x ns -> is_origin x = false -> norm2 (tget G x) <> 0%R) ->
  exists D hr vh, fftn3 (tmap RtoC dens) = Ok D /\ hartree_reciprocal D G ks = Ok hr /\ ifftn3 hr = Ok vh /\ tshape vh = ns.
Proof.
  intros ns Sd SG Hz. destruct (fftn3_eq (tmap RtoC dens) [sp'] ns eq_refl Sd) as (D & ED & SD & _). destruct (hartree_eq D G ks sp' n1 n2 n3 SD SG Hz) as (hr & Eh & Sh & _).
  destruct (ifftn3_eq hr [] ns eq_refl Sh) as (vh & Ev & Sv & _). exists D, hr, vh. repeat split; assumption.
Qed.
Lemma kin_part c G kpts vol sp B n1 n2 n3 : let ns := [n1; n2; n3] in let K := length kpts in tshape c = [sp; K; B] ++ ns -> tshape G = ns ->
  exists T, expectation c (tmap RtoC (kinetic_operator G (Some kpts))) vol None false KineticMode = Ok T /\ tshape T = [sp; K; B; B] /\
   forall s k i j, (s < sp)%nat -> (k < K)%nat -> (i < B)%nat -> (j < B)%nat -> tget T [s; k; i; j] = kinetic_element ns c G (nth k kpts vzero) [s; k; i] [s; k; j].
Proof.
  intros ns K Sc SG. destruct (expectation_full c c (tmap RtoC (kinetic_operator G (Some kpts))) vol KineticMode sp K B B n1 n2 n3) as (T & ET & ST & GT); [discriminate|exact Sc|exact Sc|right; left; cbn [tmap kinetic_operator tshape]; rewrite SG; reflexivity|].
  exists T. split; [exact ET|]. split; [exact ST|]. intros s k i j Hs Hk Hi Hj. rewrite GT by assumption. cbn [efactor]. fold ns. rewrite Cmult_1_l. unfold kinetic_element. apply sumC_ext. intros g _.
  f_equal. f_equal. unfold ham_at, ndim. cbn [tmap kinetic_operator tshape hd]. rewrite SG. cbn [ns length Nat.eqb]. fold K. destruct (Nat.eqb_spec K 1) as [E1|]; cbn [tget tl hd]; [|reflexivity]. replace k with 0%nat by lia. reflexivity.
Qed.
Lemma inb4 i j k l a b c d : (i < a)%nat -> (j < b)%nat -> (k < c)%nat -> (l < d)%nat -> inb [i; j; k; l] [a; b; c; d].
Proof. intros. repeat constructor; assumption. Qed.
Lemma local_part w V vol sp K B n1 n2 n3 : let ns := [n1; n2; n3] in tshape w = [sp; K; B] ++ ns -> tshape V = ns -> exists L, hamiltonian_local w V vol = Ok L /\ tshape L = [sp; K; B; B].
Proof.
  intros ns Sw SV. unfold hamiltonian_local. destruct (ifftn3_eq V [] ns eq_refl SV) as (v & -> & Sv & _). cbn [bind].
  destruct (expectation_full w w v vol RealMode sp K B B n1 n2 n3) as (L & EL & SL & _); [discriminate|exact Sw|exact Sw|left; exact Sv|]. exists L. split; assumption.
Qed.
Lemma matrix_eq xcd c dens V psi G kpts vol xc ks sp sp' B nb nm n1 n2 n3 hk vxc : let ns := [n1; n2; n3] in let K := length kpts in
  nl_inputs c dens V psi G kpts sp sp' B nb nm n1 n2 n3 -> xcd dens G ks xc = Ok vxc -> tshape vxc = hk :: ns -> (hk = 1 \/ hk = K)%nat ->
  exists w D hr vh N L M, wave_grid c vol = Ok w /\ fftn3 (tmap RtoC dens) = Ok D /\ hartree_reciprocal D G ks = Ok hr /\ ifftn3 hr = Ok vh /\ hamiltonian_nonlocal c psi vol = Ok N /\ hamiltonian_local w V vol = Ok L /\
    nl_hamiltonian_matrix xcd c dens V psi G kpts vol xc ks = Ok M /\ tshape M = [sp; K; B; B] /\
    forall s k i j, (s < sp)%nat -> (k < K)%nat -> (i < B)%nat -> (j < B)%nat ->
      tget M [s; k; i; j] = tget N [s; k; i; j] + tget L [s; k; i; j] + scf_element ns vol w vh vxc (if (hk =? 1)%nat then 0%nat else k) [s; k; i] [s; k; j] + kinetic_element ns c G (nth k kpts vzero) [s; k; i] [s; k; j].
Proof.
  intros ns K (Sc & Sd & SV & Sp & SG & Hz) Ex Sx Hk. destruct (wave_grid_eq c vol [sp; K; B] ns eq_refl Sc) as (w & Ew & Sw & Gw).
  destruct (hartree_parts dens G ks sp' n1 n2 n3 Sd SG Hz) as (D & hr & vh & ED & Eh & Ev & Sv). destruct (nonlocal_eq c psi vol sp K B nb nm n1 n2 n3 Sc Sp) as (N & EN & SN & _).
  destruct (local_part w V vol sp K B n1 n2 n3 Sw SV) as (L & EL & SL). destruct (kin_part c G kpts vol sp B n1 n2 n3 Sc SG) as (T & ET & ST & GT).
  destruct (tzip_trail Cplus vh vxc hk n1 n2 n3 Sv Sx) as (vs & Es & Ss & Gs).
  destruct (expectation_full w w vs vol RealMode sp K B B n1 n2 n3) as (P & EP & SP & GP); [discriminate|exact Sw|exact Sw|destruct Hk as [-> | ->]; [right; right|right; left]; exact Ss|].
  destruct (tzip_same Cplus N L) as (a1 & E1 & S1 & G1); [rewrite SN, SL; reflexivity|]. destruct (tzip_same Cplus a1 P) as (a2 & E2 & S2 & G2); [rewrite S1, SN, SP; reflexivity|]. destruct (tzip_same Cplus a2 T) as (M & E3 & S3 & G3); [rewrite S2, S1, SN, ST; reflexivity|].
  exists w, D, hr, vh, N, L, M. repeat (split; [assumption|]). split.
  { unfold nl_hamiltonian_matrix. rewrite Ew. cbn [bind]. rewrite EN. cbn [bind]. rewrite EL. cbn [bind]. rewrite ED. cbn [bind]. rewrite ET. cbn [bind]. rewrite Eh. cbn [bind]. rewrite Ev. cbn [bind]. rewrite Ex. cbn [bind]. rewrite Es. cbn [bind].
    change (expectation w vs vol None false RealMode) with (expectation w vs vol (Some w) false RealMode). rewrite EP. cbn [bind]. rewrite E1. cbn [bind]. rewrite E2. cbn [bind]. exact E3. }
  split; [rewrite S3, S2, S1, SN; reflexivity|]. intros s k i j Hs Hkk Hi Hj. assert (I : inb [s; k; i; j] [sp; K; B; B]) by (apply inb4; assumption).
  rewrite G3 by (rewrite S2, S1, SN; exact I). rewrite G2 by (rewrite S1, SN; exact I). rewrite G1 by (rewrite SN; exact I). rewrite GT by assumption. f_equal. f_equal. rewrite GP by assumption. cbn [efactor]. unfold scf_element. fold ns. f_equal.
  apply sumC_ext. intros x Hx. apply in_indices in Hx. f_equal. f_equal. unfold ham_at, ndim. rewrite Ss. cbn [ns length Nat.eqb hd]. destruct (Nat.eqb_spec hk 1) as [->|]; apply Gs; try exact Hx; destruct Hk; lia.
Qed.
Lemma scf_real ns vol w vh vxc ch b b' : (forall x, inb x ns -> Im (tget vh x + tget vxc (ch :: x)) = 0%R) -> scf_element ns vol w vh vxc ch b b' = Cconj (scf_element ns vol w vh vxc ch b' b).
Proof.
  intros H. unfold scf_element. rewrite Cconj_mult, Cconj_R, Cconj_sum. f_equal. apply sumC_ext. intros x Hx. apply in_indices in Hx. specialize (H x Hx). rewrite !Cconj_mult, Cconj_conj.
  assert (E : Cconj (tget vh x + tget vxc (ch :: x)) = tget vh x + tget vxc (ch :: x)) by (destruct (tget vh x + tget vxc (ch :: x)) as [p q]; cbn [Im snd] in H; subst q; unfold Cconj; cbn [fst snd]; f_equal; ring).
  rewrite E. ring.
Qed.
Lemma trace_eq xcd c dens V psi G kpts vol xc ks sp sp' B nb nm n1 n2 n3 vxc : let ns := [n1; n2; n3] in let K := length kpts in
  nl_inputs c dens V psi G kpts sp sp' B nb nm n1 n2 n3 -> Forall (fun n => (0 < n)%nat) ns -> xcd dens G ks xc = Ok vxc -> tshape vxc = 1%nat :: ns ->
  exists M, nl_hamiltonian_matrix xcd c dens V psi G kpts vol xc ks = Ok M /\
    nl_hamiltonian_trace xcd c dens V psi G kpts vol xc ks = Ok (sumR (seq 0 sp) (fun s => sumR (seq 0 K) (fun k => sumR (seq 0 B) (fun b => Re (tget M [s; k; b; b]))))).
Proof.
  intros ns K HI Hp Ex Sx. destruct (matrix_eq xcd c dens V psi G kpts vol xc ks sp sp' B nb nm n1 n2 n3 1 vxc HI Ex Sx (or_introl eq_refl)) as (w & D & hr & vh & N & L & M & Ew & ED & Eh & Ev & EN & EL & EM & SM & GM). fold ns K in GM.
  exists M. split; [exact EM|]. destruct HI as (Sc & Sd & SV & Sp & SG & Hz). change [sp; length kpts; B; n1; n2; n3] with ([sp; K; B] ++ ns) in Sc.
  destruct (wave_grid_eq c vol [sp; K; B] ns eq_refl Sc) as (w' & Ew' & Sw & Gw). assert (w' = w) as -> by congruence.
  set (occ := mkT [sp; K; B] (fun _ : list nat => 1%R)).
  destruct (density_eq c vol occ sp K B n1 n2 n3 Sc eq_refl) as (d & Ed & Sdd & Gd). destruct (wave_to_density_eq c vol occ sp K B n1 n2 n3 w d Sc eq_refl Ew Ed) as (d' & Ed' & (Sd' & Gd')).
  destruct (fftn3_eq (tmap RtoC d') [sp] ns eq_refl ltac:(cbn [tmap tshape]; rewrite Sd'; exact Sdd)) as (D1 & ED1 & SD1 & GD1).
  destruct (fftn3_eq (tmap RtoC d) [sp] ns eq_refl Sdd) as (D2 & ED2 & SD2 & GD2).
  destruct (energy_bands c occ V vol sp K B n1 n2 n3 Hp Sc eq_refl SV) as (w2 & D3 & L2 & Ew2 & ED3 & EL2 & SL2 & Een). assert (w2 = w) as -> by congruence. assert (L2 = L) as -> by congruence. clear EL2 Ew2.
  assert (D3 = D2) as -> by (unfold density_grid_reciprocal in ED3; rewrite Ed in ED3; cbn [bind] in ED3; congruence).
  assert (Een1 : energy_local D1 V vol = energy_local D2 V vol).
  { unfold energy_local. rewrite (braket_trail V D1 vol sp n1 n2 n3 SV SD1), (braket_trail V D2 vol sp n1 n2 n3 SV SD2). f_equal. f_equal. f_equal. apply sumC_ext. intros s Hs. apply in_seq in Hs. apply sumC_ext. intros x Hx. f_equal.
    change (s :: x) with ([s] ++ x). rewrite GD1, GD2 by reflexivity. apply dft_ext. intros y Hy. cbn [tmap tget app]. f_equal. apply Gd'. rewrite Sd', Sdd. constructor; [lia|exact Hy]. }
  destruct (energy_eq c psi vol occ sp K B nb nm n1 n2 n3 Sc Sp eq_refl) as (N' & EN' & SN' & Enl). assert (N' = N) as -> by congruence.
  destruct (hartree_parts dens G ks sp' n1 n2 n3 Sd SG Hz) as (D' & hr' & vh' & ED' & Eh' & Ev' & Sv). assert (D' = D) as -> by congruence. assert (hr' = hr) as -> by congruence. assert (vh' = vh) as -> by congruence.
  destruct (expectation_full w w vh vol RealMode sp K B B n1 n2 n3) as (P1 & EP1 & SP1 & GP1); [discriminate|exact Sw|exact Sw|left; exact Sv|].
  destruct (expectation_diag w w vh vol RealMode sp K B n1 n2 n3 P1) as (Q1 & EQ1 & SQ1 & GQ1); [discriminate|exact Sw|exact Sw|left; exact Sv|exact EP1|].
  destruct (expectation_full w w vxc vol RealMode sp K B B n1 n2 n3) as (P2 & EP2 & SP2 & GP2); [discriminate|exact Sw|exact Sw|right; right; exact Sx|].
  destruct (expectation_diag w w vxc vol RealMode sp K B n1 n2 n3 P2) as (Q2 & EQ2 & SQ2 & GQ2); [discriminate|exact Sw|exact Sw|right; right; exact Sx|exact EP2|].
  assert (Hko : ham_ok (tmap RtoC (kinetic_operator G (Some kpts))) K ns) by (right; left; cbn [tmap kinetic_operator tshape]; rewrite SG; reflexivity).
  destruct (kin_part c G kpts vol sp B n1 n2 n3 Sc SG) as (T & ET & ST & GT).
  destruct (expectation_diag c c _ vol KineticMode sp K B n1 n2 n3 T ltac:(discriminate) Sc Sc Hko ET) as (Q3 & EQ3 & SQ3 & GQ3).
  destruct (tzip_same Cplus Q1 Q2) as (hs & Ehs & Shs & Ghs); [congruence|].
  unfold nl_hamiltonian_trace. rewrite Ew. cbn [bind]. rewrite Sw. change (firstn 3 ([sp; K; B] ++ ns)) with [sp; K; B]. fold occ. rewrite Ed'. cbn [bind]. rewrite ED1. cbn [bind]. rewrite Enl. cbn [bind]. rewrite Een1, Een. cbn [bind]. rewrite ED. cbn [bind]. rewrite Eh. cbn [bind]. rewrite Ev. cbn [bind].
  change (expectation w vh vol None true RealMode) with (expectation w vh vol (Some w) true RealMode). rewrite EQ1. cbn [bind]. rewrite Ex. cbn [bind].
  change (expectation w vxc vol None true RealMode) with (expectation w vxc vol (Some w) true RealMode). rewrite EQ2. cbn [bind]. rewrite Ehs. cbn [bind].
  change (expectation c (tmap RtoC (kinetic_operator G (Some kpts))) vol None true KineticMode) with (expectation c (tmap RtoC (kinetic_operator G (Some kpts))) vol (Some c) true KineticMode). rewrite EQ3. cbn [bind]. f_equal.
  rewrite (tsum_all_3 hs sp K B) by congruence. rewrite (tsum_all_3 Q3 sp K B) by congruence. rewrite !Re_plus. unfold RtoC at 1. cbn [Re fst]. rewrite !Re_sumC, <- !sumR_plus. apply sumR_ext. intros s Hs. rewrite !Re_sumC, <- !sumR_plus. apply sumR_ext. intros k Hk. rewrite !Re_sumC, <- !sumR_plus. apply sumR_ext. intros b Hb.
  apply in_seq in Hs, Hk, Hb. rewrite GM by lia. cbn [occ tget]. rewrite GQ3, GT by lia. rewrite Ghs by (rewrite SQ1; apply inb3'; lia). rewrite GQ1, GQ2, GP1, GP2 by lia.
  assert (X : scf_element ns vol w vh vxc 0 [s; k; b] [s; k; b] = RtoC (efactor RealMode vol (INR (nprod ns))) * sumC (indices ns) (fun g => Cconj (tget w ([s; k; b] ++ g)) * ham_at vh k g * tget w ([s; k; b] ++ g)) + RtoC (efactor RealMode vol (INR (nprod ns))) * sumC (indices ns) (fun g => Cconj (tget w ([s; k; b] ++ g)) * ham_at vxc k g * tget w ([s; k; b] ++ g))).
  { unfold scf_element. cbn [efactor]. rewrite <- Cmult_plus_distr_l, <- sumC_plus. f_equal. apply sumC_ext. intros x _. unfold ham_at, ndim. rewrite Sv, Sx. cbn [ns length Nat.eqb hd]. ring. }
  cbn [Nat.eqb]. rewrite X. fold ns. rewrite !Re_plus. ring.
Qed.
Lemma matrix_raises xcd c dens V psi G kpts vol xc ks sp sp' B nb nm n1 n2 n3 hk vxc : let ns := [n1; n2; n3] in let K := length kpts in
  nl_inputs c dens V psi G kpts sp sp' B nb nm n1 n2 n3 -> xcd dens G ks xc = Ok vxc -> tshape vxc = hk :: ns -> (K <> 1 /\ hk <> 1 /\ hk <> K)%nat ->
  nl_hamiltonian_matrix xcd c dens V psi G kpts vol xc ks = Err ValueErr.
Proof.
  intros ns K (Sc & Sd & SV & Sp & SG & Hz) Ex Sx (K1 & K2 & K3). destruct (wave_grid_eq c vol [sp; K; B] ns eq_refl Sc) as (w & Ew & Sw & Gw).
  destruct (hartree_parts dens G ks sp' n1 n2 n3 Sd SG Hz) as (D & hr & vh & ED & Eh & Ev & Sv). destruct (nonlocal_eq c psi vol sp K B nb nm n1 n2 n3 Sc Sp) as (N & EN & SN & _).
  destruct (local_part w V vol sp K B n1 n2 n3 Sw SV) as (L & EL & SL). destruct (kin_part c G kpts vol sp B n1 n2 n3 Sc SG) as (T & ET & ST & GT).
  destruct (tzip_trail Cplus vh vxc hk n1 n2 n3 Sv Sx) as (vs & Es & Ss & Gs).
  unfold nl_hamiltonian_matrix. rewrite Ew. cbn [bind]. rewrite EN. cbn [bind]. rewrite EL. cbn [bind]. rewrite ED. cbn [bind]. rewrite ET. cbn [bind]. rewrite Eh. cbn [bind]. rewrite Ev. cbn [bind]. rewrite Ex. cbn [bind]. rewrite Es. cbn [bind].
  assert (X : expectation w vs vol None false RealMode = Err ValueErr); [|rewrite X; reflexivity].
  unfold expectation, ndim. rewrite Sw, Ss. cbn [app ns length Nat.eqb negb orb bind]. rewrite Ss. unfold ns. rewrite bshape5_refl.
  replace (bshape [sp; K; n1; n2; n3] [1%nat; hk; n1; n2; n3]) with (@None (list nat)); [reflexivity|]. symmetry.
  change (option_map (@rev nat) (bshape_rev [n3; n2; n1; K; sp] [n3; n2; n1; hk; 1%nat]) = None).
  cbn [bshape_rev]. rewrite !Nat.eqb_refl.
  rewrite (proj2 (Nat.eqb_neq K hk)) by congruence. rewrite (proj2 (Nat.eqb_neq K 1)), (proj2 (Nat.eqb_neq hk 1)) by assumption. repeat (destruct (_ =? _)%nat; try reflexivity).
Qed.
Lemma kinetic_conj ns c G q b b' : kinetic_element ns c G q b b' = Cconj (kinetic_element ns c G q b' b).
Proof. unfold kinetic_element. rewrite Cconj_sum. apply sumC_ext. intros g _. rewrite !Cconj_mult, Cconj_conj, Cconj_R. ring. Qed.
Lemma normcons_hermitian jn spline xcd A atoms ml c dens V psi G kpts vol xc ks sp sp' B nb nm n1 n2 n3 vxc : let ns := [n1; n2; n3] in let K := length kpts in
  m3det A <> 0%R -> g_vectors A ns = Ok G -> Nat.odd n1 = true -> Nat.odd n2 = true -> Nat.odd n3 = true -> local_of jn spline atoms G vol ml = Ok V ->
  nl_inputs c dens V psi G kpts sp sp' B nb nm n1 n2 n3 -> xcd dens G ks xc = Ok vxc -> tshape vxc = 1%nat :: ns -> real_valued vxc ->
  exists M, nl_hamiltonian_matrix xcd c dens V psi G kpts vol xc ks = Ok M /\ tshape M = [sp; K; B; B] /\
    forall s k i j, (s < sp)%nat -> (k < K)%nat -> (i < B)%nat -> (j < B)%nat -> tget M [s; k; i; j] = Cconj (tget M [s; k; j; i]).
Proof.
  intros ns K HA HG H1 H2 H3 HV HI Ex Sx Rx. pose proof HI as (Sc & Sd & SV & Sp & SG & Hz).
  destruct (matrix_eq xcd c dens V psi G kpts vol xc ks sp sp' B nb nm n1 n2 n3 1 vxc HI Ex Sx (or_introl eq_refl)) as (w & D & hr & vh & N & L & M & Ew & ED & Eh & Ev & EN & EL & EM & SM & GM).
  exists M. split; [exact EM|]. split; [exact SM|]. intros s k i j Hs Hk Hi Hj. rewrite !GM by assumption. cbn [Nat.eqb]. rewrite !Cconj_plus.
  rewrite <- (ham_hermitian c psi vol N EN s k i j), <- kinetic_conj. f_equal. f_equal.
  - f_equal. destruct (wave_grid_eq c vol [sp; K; B] ns eq_refl Sc) as (w' & Ew' & Sw & _). rewrite Ew in Ew'. injection Ew' as <-.
    destruct (local_hermitian jn spline ml A n1 n2 n3 G vol atoms V w sp K B HG H1 H2 H3 HV Sw) as (L' & EL' & _ & HL). rewrite EL in EL'. injection EL' as <-. apply HL; assumption.
  - apply scf_real. intros x Hx. destruct (effective_real_odd xcd dens A [] [] G vol xc ks sp' n1 n2 n3 vxc HA HG H1 H2 H3 Sd eq_refl Ex) as (vh1 & ve1 & E1 & R1 & _).
    destruct (effective_parts xcd dens [] [] G vol xc ks sp' n1 n2 n3 vxc Sd SG eq_refl Ex) as (D' & vhr & ver & vh' & ve & ED' & Eh' & Eih & _ & _ & Svh & _ & _ & _ & _ & _ & E).
    rewrite ED in ED'. injection ED' as <-. rewrite Eh in Eh'. injection Eh' as <-. rewrite Ev in Eih. injection Eih as <-. rewrite E in E1. injection E1 as <- <-.
    assert (I1 : Im (tget vh x) = 0%R) by (apply R1; rewrite Svh; exact Hx). assert (I2 : Im (tget vxc (0%nat :: x)) = 0%R) by (apply Rx; rewrite Sx; constructor; [lia|exact Hx]).
    unfold Im, Cplus in *. cbn [fst snd]. rewrite I1, I2. ring.
Qed.
