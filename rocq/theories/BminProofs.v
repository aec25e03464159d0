(** The minimum of the band objective (C146). *)
From Coq Require Import Reals Lra Lia.
From Coquelicot Require Import Coquelicot.
From Coq Require Import Ascii String List Arith ZArith Bool.
From Verif Require Import Base Sums Tensor DFT GridModel GridProofs PadModel PadProofs Lin3 VecModel VecProofs OccModel OccSpec PwModel PwSpec PwProofs BraketModel EnergyModel HamModel LocModel NlocModel
  CalcModel CalcSpec DrvModel DrvSpec EigSpec EigProofs EigProofs2 BndModel BndSpec BndProofs BndProofs2 BndProofs4 BndProofs5 BndProofs6 BndProofs7 BndProofs3 ReachSpec ReachProofs ReachProofs2 DrvProofs6 PropOcc.
Import ListNotations.
Local Open Scope R_scope.

(** Orbitals whose coefficients are the columns of V. *)
Definition column_orbitals (mask : tensor bool) (sp B : nat) (V : nat -> nat -> C) : tensor C :=
  mkT ([sp; 1; B]%nat ++ tshape mask) (fun i => match find_index (skipn 3 i) (mask_positions mask) with Some j => V j (nth 2 i 0%nat) | None => RtoC 0 end).
Lemma positions_nodup mask : NoDup (mask_positions mask).
Proof. unfold mask_positions. apply NoDup_filter, NoDup_indices. Qed.
Lemma column_get mask sp B V s k b j : (j < length (mask_positions mask))%nat -> tget (column_orbitals mask sp B V) ([s; k; b] ++ nth j (mask_positions mask) []) = V j b.
Proof. intros Hj. unfold column_orbitals. cbn [tget app skipn nth]. rewrite find_index_nth by (try exact Hj; apply positions_nodup). reflexivity. Qed.
Lemma column_off mask sp B V s k b g : tget mask g = false -> tget (column_orbitals mask sp B V) ([s; k; b] ++ g) = RtoC 0.
Proof.
  intros Hf. unfold column_orbitals. cbn [tget app skipn nth]. destruct (find_index g (mask_positions mask)) as [j|] eqn:E; [|reflexivity]. apply find_index_some in E. destruct E as (Hj & E).
  assert (I : In g (mask_positions mask)) by (rewrite <- E; apply nth_In, Hj). apply mask_positions_in in I. destruct I as (_ & I). congruence.
Qed.
Lemma column_basis mask sp B V : orthonormal_columns (length (mask_positions mask)) B V -> basis_orbitals sp 1 B mask (column_orbitals mask sp B V).
Proof.
  intros HV. split; [reflexivity|]. split.
  - intros l j j' Hl Hj Hj'. inversion Hl as [|s ? ? ? Hs Hl']; subst. inversion Hl' as [|k ? ? ? Hk Hn]; subst. inversion Hn; subst.
    change ([s; k] ++ [j]) with [s; k; j]. change ([s; k] ++ [j']) with [s; k; j']. unfold inner.
    rewrite (sum_support mask) by (intros i Hi Hf; rewrite (column_off mask sp B V s k j' i Hf); ring).
    rewrite (sumC_ext _ _ (fun g => Cconj (V g j) * V g j')%C); [rewrite HV by assumption; unfold kron; destruct (j =? j')%nat; reflexivity|].
    intros g Hg. apply seq_in in Hg. rewrite !column_get by exact Hg. reflexivity.
  - intros l i Hl Hi Hf. inversion Hl as [|s ? ? ? Hs Hl']; subst. inversion Hl' as [|k ? ? ? Hk Hl'']; subst. inversion Hl'' as [|b ? ? ? Hb Hn]; subst. inversion Hn; subst. apply column_off, Hf.
Qed.
(** Compressed to eigenvectors, each times a phase, a matrix is diagonal. *)
Lemma compress_eigen n B A lam V Q (u : nat -> C) : (B <= n)%nat -> ascending n lam -> orthonormal_columns n n V ->
  (forall i j, (i < n)%nat -> (j < n)%nat -> A i j = sumC (seq 0 n) (fun m => V i m * RtoC (lam m) * Cconj (V j m))%C) ->
  (forall b, (b < B)%nat -> Cmod (u b) = 1 /\ forall g, (g < n)%nat -> Q g b = (u b * V g b)%C) -> spectrum B (compress n A Q) lam.
Proof.
  intros HB Ha HV HA HQ. apply (spectrum_ext B (fun i j => if (i =? j)%nat then RtoC (lam i) else RtoC 0)); [|apply spectrum_diagonal; intros i j Hij Hj; apply Ha; lia].
  intros i j Hi Hj. symmetry. unfold compress. destruct (HQ i Hi) as (Ui & Qi). destruct (HQ j Hj) as (Uj & Qj).
  transitivity (sumC (seq 0 n) (fun m => (Cconj (u i) * u j * RtoC (lam m)) * ((sumC (seq 0 n) (fun g => Cconj (V g i) * V g m)) * (sumC (seq 0 n) (fun g => Cconj (V g m) * V g j))))%C).
  - transitivity (sumC (seq 0 n) (fun g => sumC (seq 0 n) (fun g' => sumC (seq 0 n) (fun m => (Cconj (u i) * u j * RtoC (lam m)) * ((Cconj (V g i) * V g m) * (Cconj (V g' m) * V g' j))))))%C.
    + apply sumC_ext. intros g Hg. apply seq_in in Hg. apply sumC_ext. intros g' Hg'. apply seq_in in Hg'. rewrite HA by assumption. rewrite Qi, Qj by assumption. rewrite Cconj_mult.
      rewrite <- (sumC_scal _ (Cconj (u i) * Cconj (V g i))%C), <- sumC_scal_r. apply sumC_ext. intros m _. ring.
    + rewrite (sumC_ext _ _ (fun g => sumC (seq 0 n) (fun m => sumC (seq 0 n) (fun g' => (Cconj (u i) * u j * RtoC (lam m)) * ((Cconj (V g i) * V g m) * (Cconj (V g' m) * V g' j)))))%C) by (intros g _; apply sumC_swap).
      rewrite sumC_swap. apply sumC_ext. intros m _. rewrite sumC_mult, <- sumC_scal. apply sumC_ext. intros g _. rewrite <- sumC_scal. reflexivity.
  - rewrite (sumC_ext _ _ (fun m => kron i m * ((Cconj (u i) * u j * RtoC (lam m)) * kron m j))%C).
    + rewrite sum_kron by lia. unfold kron. destruct (Nat.eqb_spec i j) as [->|]; [|ring].
      replace (Cconj (u j) * u j)%C with (RtoC 1); [ring|]. rewrite Cmult_comm, Cconj_norm. f_equal. rewrite Cnorm2_Cmod, Ui. ring.
    + intros m Hm. apply seq_in in Hm. rewrite (HV i m) by lia. rewrite (HV m j) by lia. ring.
Qed.
(** Parameters whose orbitals are the lowest eigenvectors, up to phases. *)
Lemma eigen_params cqr bp sp A lam : complex_qr cqr -> qr_factors cqr -> (bp_bands bp <= waves bp)%nat -> spectrum (waves bp) A lam ->
  exists p c, band_shape bp sp p /\ band_coeff cqr bp p = Ok c /\
    forall s, (s < sp)%nat -> spectrum (bp_bands bp) (compress (waves bp) A (fun g b => tget c ([s; 0%nat; b] ++ nth g (mask_positions (bp_mask bp)) []))) lam.
Proof.
  intros Hq Hf HB (Ha & V & H1 & _ & H3). assert (HV : orthonormal_columns (waves bp) (bp_bands bp) V) by (intros i j Hi Hj; apply H1; lia).
  pose proof (column_basis (bp_mask bp) sp (bp_bands bp) V HV) as HO. destruct (reach_orbitals cqr (bp_mask bp) sp 1 (bp_bands bp) _ Hq Hf HO HB) as (re & im & c & Sr & Si & Hc & Ph).
  exists (re, im), c. split; [split; assumption|]. split; [exact Hc|]. destruct (phase_function _ _ _ _ _ _ (proj1 (proj2 HO)) Ph) as (U & HU). intros s Hs.
  apply (compress_eigen _ _ A lam V _ (fun b => U s 0%nat b) HB Ha H1 H3). intros b Hb. destruct (HU s 0%nat b Hs ltac:(lia) Hb) as (U1 & U2). split; [exact U1|]. intros g Hg.
  rewrite U2 by (apply (proj1 (mask_positions_in (bp_mask bp) _)), nth_In, Hg). rewrite column_get by exact Hg. reflexivity.
Qed.

(** ** all-electron *)
Lemma ae_minimum pkg read bandpath gs c bp cqr xcd ev v hk k lam : complex_qr cqr -> qr_factors cqr -> eigvalsh_ok ev -> ae_band_problem pkg read bandpath gs c = Ok bp ->
  m3det (cr_cell (bp_crystal bp)) <> 0 -> (1 <= bp_bands bp)%nat -> (bp_bands bp <= waves bp)%nat -> effective_potential xcd bp = Ok v -> tshape v = hk :: tshape (bp_G bp) ->
  spectrum (waves bp) (fun a b => sumC (seq 0 hk) (fun h => spin_hamiltonian bp v h k a b)) lam ->
  let sp := num_spin (bp_restricted bp) in let low := INR sp * sumR (seq 0 (bp_bands bp)) lam in
  (forall p, band_shape bp sp p -> exists e t, ae_eig cqr xcd ev bp p k = Ok e /\ ae_trace cqr xcd bp p k = Ok t /\ low <= t /\
     (t = low <-> forall s b, (s < sp)%nat -> (b < bp_bands bp)%nat -> tget e [s; 0%nat; b] = lam b)) /\
  (exists p, band_shape bp sp p /\ ae_trace cqr xcd bp p k = Ok low).
Proof.
  intros Hq Hf Hev Hbp Hdet HB1 HB Hv Sv Hl sp low. pose proof (setup_grids' _ _ _ _ _ _ _ _ Hbp) as Hg. destruct (grid_facts' bp Hg Hdet) as (n1 & n2 & n3 & Sm & SG & _ & Hvol).
  assert (Hpc : potential_channels xcd bp hk) by (exists v; split; assumption).
  assert (SA : forall A, basis_hamiltonian xcd bp k = Ok A -> spectrum (waves bp) (matrix_at A [0%nat]) lam).
  { intros A HA. apply (spectrum_ext _ _ _ _ (fun i j Hi Hj => eq_sym (basis_channels xcd bp v hk k A Hg Hdet Hv Sv HA i j Hi Hj)) Hl). }
  split.
  - intros p Hp. destruct (ae_point cqr xcd ev bp sp hk n1 n2 n3 p k Hq Hev SG Sm Hvol Hpc HB1 HB Hp) as (e & t & A & He & Ht & HA & _ & Hs & Et).
    exists e, t. split; [exact He|]. split; [exact Ht|]. pose proof (separated_excess (waves bp) (bp_bands bp) _ lam sp (fun s b => tget e [s; 0%nat; b]) (fun s Hs' => proj2 (Hs s Hs')) (SA A HA)) as X. cbv beta zeta in X. rewrite <- Et in X. fold low in X. destruct X as (X1 & X2).
    split; [exact X1|]. split.
    + intros E s b Hs' Hb. pose proof (X2 s b Hs' Hb). lra.
    + intros E. rewrite Et. unfold low. rewrite (sumR_ext (seq 0 sp) _ (fun _ => sumR (seq 0 (bp_bands bp)) lam)); [rewrite sumR_const, seq_length; reflexivity|]. intros s Hs'. apply seq_in in Hs'. apply sumR_ext. intros b Hb. apply seq_in in Hb. apply E; assumption.
  - destruct (eigen_params cqr bp sp _ lam Hq Hf HB Hl) as (p & co & Hp & Hc & HS). exists p. split; [exact Hp|].
    destruct (ae_point_q cqr xcd ev bp sp hk n1 n2 n3 p k Hq Hev SG Sm Hvol Hpc HB1 HB Hp) as (co' & e & t & A & Hc' & He & Ht & HA & _ & Hs & Et). rewrite Hc in Hc'. injection Hc' as <-.
    rewrite Ht, Et. f_equal. unfold low. rewrite (sumR_ext (seq 0 sp) _ (fun _ => sumR (seq 0 (bp_bands bp)) lam)); [rewrite sumR_const, seq_length; reflexivity|]. intros s Hs'. apply seq_in in Hs'. apply sumR_ext. intros b Hb. apply seq_in in Hb.
    apply (spectrum_unique (bp_bands bp) _ _ lam (proj2 (Hs s Hs'))); [|exact Hb]. apply (spectrum_ext _ (compress (waves bp) (fun a b => sumC (seq 0 hk) (fun h => spin_hamiltonian bp v h k a b)) (fun g b => tget co ([s; 0%nat; b] ++ nth g (mask_positions (bp_mask bp)) [])))); [|apply HS, Hs'].
    intros i j _ _. apply compress_ext. intros x y Hx Hy. symmetry. apply (basis_channels xcd bp v hk k A Hg Hdet Hv Sv HA x y Hx Hy).
Qed.

(** ** norm-conserving, one channel *)
Lemma no_excess x y : x - (INR 1 - 1) * y = x.
Proof. cbn [INR]. ring. Qed.
Lemma nc_minimum {PP} pkg read (nc us : crystal -> string -> res PP) valence bandpath gs c bp cqr xcd ev V nlk nl A k sp' nb nm lam : complex_qr cqr -> qr_factors cqr -> eigvalsh_ok ev ->
  nc_band_problem pkg read nc us valence bandpath gs c = Ok bp -> m3det (cr_cell (bp_crystal bp)) <> 0 -> tshape (bp_dens bp) = sp' :: tshape (bp_G bp) -> tshape V = tshape (bp_G bp) ->
  nlk k = Ok nl -> tshape nl = [1; nb; nm]%nat ++ tshape (bp_G bp) -> xc_channels xcd bp 1 -> (1 <= bp_bands bp)%nat -> (bp_bands bp <= waves bp)%nat ->
  nc_basis_hamiltonian xcd bp V nl k = Ok A -> spectrum (waves bp) (hermitian_part (matrix_at A [0%nat; 0%nat])) lam ->
  let low := sumR (seq 0 (bp_bands bp)) lam in
  (forall p, band_shape bp 1 p -> exists e t, nc_eig cqr xcd ev bp V nlk p k = Ok e /\ nc_trace cqr xcd bp V nlk p k = Ok t /\ low <= t /\
     (t = low <-> forall b, (b < bp_bands bp)%nat -> tget e [0%nat; b] = lam b)) /\
  (exists p, band_shape bp 1 p /\ nc_trace cqr xcd bp V nlk p k = Ok low).
Proof.
  intros Hq Hf Hev Hbp Hdet Sd SV Hnl Sn Hx HB1 HB HA Hl low. pose proof (setup_grids' _ _ _ _ _ _ _ _ Hbp) as Hg. destruct (grid_facts' bp Hg Hdet) as (n1 & n2 & n3 & Sm & SG & Hpos & Hvol).
  destruct Hg as (m1 & m2 & m3 & HG & Sm'). rewrite Sm in Sm'. injection Sm' as <- <- <-. rewrite SG in Sd, SV, Sn.
  split.
  - intros p Hp. destruct (nc_point cqr xcd ev bp V nlk sp' nb nm 1 n1 n2 n3 p k nl Hq Hev HG Hdet Sm Hvol Hpos Sd SV Hnl Sn Hx (le_n 1) HB1 HB Hp) as (co & e & t & A' & one & _ & He & Ht & HA' & _ & _ & Hs & Et).
    rewrite HA in HA'. injection HA' as <-. exists e, t. split; [exact He|]. split; [exact Ht|]. rewrite no_excess in Et.
    pose proof (separated_excess (waves bp) (bp_bands bp) (hermitian_part (matrix_at A [0%nat; 0%nat])) lam 1 (fun s b => tget e [s; b])) as X. cbv beta zeta in X. rewrite <- Et in X.
    destruct X as (X1 & X2); [intros s Hs'; assert (s = 0%nat) by lia; subst s; apply (Hs 0%nat); lia|exact Hl|]. fold low in X1, X2. cbn [INR] in X1, X2. rewrite Rmult_1_l in X1.
    split; [exact X1|]. split.
    + intros E b Hb. pose proof (X2 0%nat b ltac:(lia) Hb). lra.
    + intros E. rewrite Et. rewrite sumR_one. apply sumR_ext. intros b Hb. apply seq_in in Hb. apply E, Hb.
  - destruct (eigen_params cqr bp 1 _ lam Hq Hf HB Hl) as (p & co & Hp & Hc & HS). exists p. split; [exact Hp|].
    destruct (nc_point_q cqr xcd ev bp V nlk sp' nb nm 1 n1 n2 n3 p k nl Hq Hev HG Hdet Sm Hvol Hpos Sd SV Hnl Sn Hx (le_n 1) HB1 HB Hp) as (co' & e & t & A' & one & Hc' & He & Ht & HA' & _ & _ & _ & Hs & Et).
    rewrite HA in HA'. injection HA' as <-. rewrite Hc in Hc'. injection Hc' as <-. rewrite Ht, Et. f_equal. rewrite no_excess. rewrite sumR_one. apply sumR_ext. intros b Hb. apply seq_in in Hb.
    apply (spectrum_unique (bp_bands bp) _ _ lam (Hs 0%nat ltac:(lia)) (HS 0%nat ltac:(lia)) b Hb).
Qed.

(** ** the calculations of C116's and C117's examples *)
Lemma ex_ae_minimum erfc pkg grad occ r k : In occ ex_methods -> exists bp v lam, ae_band_problem pkg ex_ase ex_bandpath (ex_gs erfc pkg grad) (ex_drv occ r false 8) = Ok bp /\
  m3det (cr_cell (bp_crystal bp)) <> 0 /\ bp_bands bp = 10%nat /\ (bp_bands bp <= waves bp)%nat /\ bp_restricted bp = r /\ effective_potential ex_xcd bp = Ok v /\ tshape v = num_spin r :: tshape (bp_G bp) /\
  spectrum (waves bp) (fun a b => sumC (seq 0 (num_spin r)) (fun h => spin_hamiltonian bp v h k a b)) lam.
Proof.
  intros Ho. destruct (ex_bands erfc pkg grad (fun _ p _ => p) occ r ex_qr_ok id_qr_ok Ho) as (bp & opt & v & out & Hbp & _ & Hdet & _ & HB & HBn & Hr & _ & Hv & Sv & _).
  destruct (spectrum_exists (waves bp) (fun a b => sumC (seq 0 (num_spin r)) (fun h => spin_hamiltonian bp v h k a b))) as (lam & Hl).
  - intros x y Hx Hy. rewrite Cconj_sum. apply sumC_ext. intros h _. apply spin_hermitian; assumption.
  - exists bp, v, lam. repeat (split; [assumption|]). exact Hl.
Qed.
Lemma ex_nc_minimum erfc pkg grad k : let cf := ex_drv "simplex-projector" true true 8 in
  exists bp V nl A lam, nc_band_problem pkg ex_ase ex_loader ex_loader (fun l => l) ex_bandpath (ex_ngs erfc pkg grad) cf = Ok bp /\ m3det (cr_cell (bp_crystal bp)) <> 0 /\
    tshape (bp_dens bp) = 1%nat :: tshape (bp_G bp) /\ tshape V = tshape (bp_G bp) /\ ex_nlk [4; 4]%Z (bp_crystal bp) (bp_G bp) (bp_path bp) k = Ok nl /\ (exists nb nm, tshape nl = [1; nb; nm]%nat ++ tshape (bp_G bp)) /\
    xc_channels ex_xcd bp 1 /\ bp_bands bp = 8%nat /\ (bp_bands bp <= waves bp)%nat /\ nc_basis_hamiltonian ex_xcd bp V nl k = Ok A /\ spectrum (waves bp) (hermitian_part (matrix_at A [0%nat; 0%nat])) lam.
Proof.
  intros cf. destruct (ex_nc_bands erfc pkg grad (fun _ p _ => p) true ex_qr_ok id_qr_ok) as (bp & opt & V & out & Hbp & _ & _ & _ & SV & Hnl & Hdet & HB & HBn & Sd & Hx & _).
  destruct (Hnl k) as (nl & nb & nm & Hn & Sn). pose proof (setup_grids' _ _ _ _ _ _ _ _ Hbp) as Hg. destruct (grid_facts' bp Hg Hdet) as (n1 & n2 & n3 & Sm & SG & Hpos & Hvol).
  destruct Hg as (m1 & m2 & m3 & HG & Sm'). rewrite Sm in Sm'. injection Sm' as <- <- <-. pose proof Sd as Sd'. pose proof SV as SV'. pose proof Sn as Sn'. rewrite SG in Sd', SV', Sn'.
  set (z := mkT [1; 1; waves bp; bp_bands bp]%nat (fun _ => 0)).
  destruct (nc_point id_qr ex_xcd eig_ev bp V (fun _ => Ok nl) 1 nb nm 1 n1 n2 n3 (z, z) k nl id_qr_ok eig_ev_ok HG Hdet Sm Hvol Hpos Sd' SV' eq_refl Sn' Hx (le_n 1) ltac:(rewrite HB; lia) HBn (conj eq_refl eq_refl)) as (co & e & t & A & one & _ & _ & _ & HA & _).
  destruct (spectrum_exists (waves bp) _ (hermitian_part_hermitian (waves bp) (matrix_at A [0%nat; 0%nat]))) as (lam & Hl).
  exists bp, V, nl, A, lam. repeat (split; [first [assumption|exists nb, nm; assumption]|]). exact Hl.
Qed.
