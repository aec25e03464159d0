(** The objective of the drivers, and the electrons in the returned density. *)
From Coq Require Import Reals Lra Lia.
From Coquelicot Require Import Complex.
From Coq Require Import Ascii String List Arith ZArith Bool.
From Verif Require Import Base Sums Tensor DFT Lin3 VecModel VecProofs OccModel OccSpec OccProofs PadModel PwModel PwSpec PwProofs BraketModel EnergyModel EnergySpec
  EwaldModel GridModel RespProofs TotalProofs XcModel XcProofs XcProofs3 LocModel LocProofs2 NlocModel NlocProofs4 CalcSpec CalcModel CalcProofs CalcProofs2 CalcProofs3 DrvModel DrvSpec DrvProofs DrvProofs2.
Import ListNotations.
Local Open Scope R_scope.

(** The objective of given orbitals and occupations. *)
Definition objective_at (xcd : xcdens) (pb : problem) (c : tensor C) (occ : tensor R) : res R :=
  do d <- density_grid c (pb_vol pb) (Some occ);
  do D <- density_grid_reciprocal c (pb_vol pb) (Some occ);
  do ek <- e_kinetic (pb_G pb) (pb_k pb) c (Some occ);
  do eh <- e_hartree D (pb_G pb) (pb_vol pb) false;
  do ei <- ion_energy pb c occ D;
  do ex <- e_xc xcd d (pb_G pb) (pb_vol pb) (pb_xc pb) false;
  Ok (tget ek [] + eh + ei + ex).
Lemma objective_unfold qr cqr xcd pb p c occ : get_coeff cqr pb p = Ok c -> get_occupation qr pb p = Ok occ ->
  objective qr cqr xcd pb p = objective_at xcd pb c occ.
Proof. intros H1 H2. unfold objective. rewrite H1. cbn [bind]. rewrite H2. reflexivity. Qed.

Lemma ae_objective_at xcd pb c occ e sp K B n1 n2 n3 : pb_ions pb = None -> xc_local xcd false (pb_xc pb) ->
  tshape c = [sp; K; B] ++ [n1; n2; n3] -> tshape occ = [sp; K; B] ->
  objective_at xcd pb c occ = Ok e <->
  total_energy xcd c (cr_positions (pb_crystal pb)) (map IZR (cr_charges (pb_crystal pb))) (pb_G pb) (pb_k pb) (pb_vol pb) (Some occ) false (pb_xc pb) = Ok e.
Proof.
  intros Hi Hx Sc So. set (vol := pb_vol pb). set (ns := [n1; n2; n3]) in *.
  destruct (density_eq c vol occ sp K B n1 n2 n3 Sc So) as (d & Ed & Sd & _). destruct (wave_grid_eq c vol [sp; K; B] ns eq_refl Sc) as (w & Ew & _).
  destruct (wave_to_density_eq c vol occ sp K B n1 n2 n3 w d Sc So Ew Ed) as (d' & Ed' & T).
  unfold objective_at, total_energy, total_energy_split, density_grid_reciprocal, wave_to_density_reciprocal, ion_energy. fold vol. rewrite Ed, Ew, Hi. cbn [bind]. rewrite Ed'. cbn [bind].
  pose proof (fftn3_teq _ _ (tmap_teq RtoC _ _ T)) as F. destruct (fftn3 (tmap RtoC d')) as [D'|x'], (fftn3 (tmap RtoC d)) as [D|x]; cbn in F; try contradiction; cbn [bind]; [|split; discriminate].
  rewrite (e_external_teq D' D _ _ _ _ F), (e_hartree_teq D' D _ _ _ F), (e_xc_teq xcd d' d _ _ _ _ Hx T).
  destruct (e_kinetic (pb_G pb) (pb_k pb) c (Some occ)) as [ek|]; cbn [bind]; [|split; discriminate].
  destruct (e_hartree D (pb_G pb) vol false) as [eh|], (e_external D (cr_positions (pb_crystal pb)) (map IZR (cr_charges (pb_crystal pb))) (pb_G pb) vol) as [ee|]; cbn [bind]; try (split; discriminate).
  destruct (e_xc xcd d (pb_G pb) vol (pb_xc pb) false) as [ex|]; cbn [bind]; [|split; discriminate].
  replace (tget ek [] + eh + ee + ex) with (tget ek [] + ee + eh + ex) by ring. tauto.
Qed.

Lemma nc_objective_at xcd pb c occ e V psi sp K B nb nm n1 n2 n3 : let ns := [n1; n2; n3] in pb_ions pb = Some (V, psi) -> gridpos ns ->
  tshape c = [sp; K; B] ++ ns -> tshape occ = [sp; K; B] -> tshape V = ns -> tshape psi = [K; nb; nm] ++ ns ->
  exists d D w Hl Hn, density_grid c (pb_vol pb) (Some occ) = Ok d /\ fftn3 (tmap RtoC d) = Ok D /\ wave_grid c (pb_vol pb) = Ok w /\
    hamiltonian_local w V (pb_vol pb) = Ok Hl /\ hamiltonian_nonlocal c psi (pb_vol pb) = Ok Hn /\ tshape Hl = [sp; K; B; B] /\ tshape Hn = [sp; K; B; B] /\
  (objective_at xcd pb c occ = Ok e <->
   exists ek eh ex, e_kinetic (pb_G pb) (pb_k pb) c (Some occ) = Ok ek /\ e_hartree D (pb_G pb) (pb_vol pb) false = Ok eh /\ e_xc xcd d (pb_G pb) (pb_vol pb) (pb_xc pb) false = Ok ex /\
     e = tget ek [] + eh + sumR (seq 0 sp) (fun s => sumR (seq 0 K) (fun k => sumR (seq 0 B) (fun b => tget occ [s; k; b] * (Re (tget Hl [s; k; b; b]) + Re (tget Hn [s; k; b; b]))))) + ex).
Proof.
  intros ns Hi Hp Sc So SV Sp. set (vol := pb_vol pb).
  destruct (density_eq c vol occ sp K B n1 n2 n3 Sc So) as (d & Ed & Sd & _). destruct (energy_bands c occ V vol sp K B n1 n2 n3 Hp Sc So SV) as (w & D & Hl & Ew & ED & EHl & SHl & El).
  destruct (energy_eq c psi vol occ sp K B nb nm n1 n2 n3 Sc Sp So) as (Hn & EHn & SHn & En).
  exists d, D, w, Hl, Hn. split; [exact Ed|]. split; [unfold density_grid_reciprocal in ED; rewrite Ed in ED; exact ED|]. split; [exact Ew|]. split; [exact EHl|]. split; [exact EHn|]. split; [exact SHl|]. split; [exact SHn|].
  unfold objective_at. fold vol. rewrite Ed, ED. cbn [bind]. unfold ion_energy. rewrite Hi. fold vol. rewrite El, En. cbn [bind].
  assert (Es : sumR (seq 0 sp) (fun s => sumR (seq 0 K) (fun k => sumR (seq 0 B) (fun b => tget occ [s; k; b] * (Re (tget Hl [s; k; b; b]) + Re (tget Hn [s; k; b; b]))))) =
     sumR (seq 0 sp) (fun s => sumR (seq 0 K) (fun k => sumR (seq 0 B) (fun b => tget occ [s; k; b] * Re (tget Hl [s; k; b; b])))) +
     sumR (seq 0 sp) (fun s => sumR (seq 0 K) (fun k => sumR (seq 0 B) (fun b => tget occ [s; k; b] * Re (tget Hn [s; k; b; b]))))).
  { rewrite <- sumR_plus. apply sumR_ext. intros s _. rewrite <- sumR_plus. apply sumR_ext. intros k _. rewrite <- sumR_plus. apply sumR_ext. intros b _. ring. }
  rewrite Es. clear Es. destruct (e_kinetic (pb_G pb) (pb_k pb) c (Some occ)) as [ek|]; cbn [bind]; [|split; [discriminate|intros (? & ? & ? & ? & _); discriminate]].
  destruct (e_hartree D (pb_G pb) vol false) as [eh|]; cbn [bind]; [|split; [discriminate|intros (? & ? & ? & _ & ? & _); discriminate]].
  destruct (e_xc xcd d (pb_G pb) vol (pb_xc pb) false) as [ex|]; cbn [bind]; [|split; [discriminate|intros (? & ? & ? & _ & _ & ? & _); discriminate]].
  split.
  - intros H. injection H as <-. exists ek, eh, ex. repeat split; ring.
  - intros (a & b & x & Ha & Hb & Hx & ->). injection Ha as <-. injection Hb as <-. injection Hx as <-. f_equal. 
Qed.

(** An occupation array with one channel is used for every spin channel of the orbitals. *)
Definition spread (S : nat) (occ : tensor R) : tensor R := mkT (S :: tl (tshape occ)) (fun i => tget occ (0%nat :: tl i)).
Lemma bshape_spread K B : bshape [2; K; B]%nat [1; K; B]%nat = Some [2; K; B]%nat.
Proof. unfold bshape. cbn [rev app bshape_rev]. rewrite !Nat.eqb_refl. reflexivity. Qed.
Lemma einsum_spread dens occ K B rest : tshape dens = [2; K; B]%nat ++ rest -> tshape occ = [1; K; B]%nat ->
  einsum_occ dens occ = einsum_occ dens (spread 2 occ).
Proof.
  intros Sd So. unfold einsum_occ. rewrite Sd. cbn [app]. unfold spread at 1 2. cbn [tshape tl]. rewrite So. cbn [tl]. rewrite bshape_spread, bshape_refl. cbn [length].
  f_equal. unfold spread. rewrite So. cbn [tl tshape]. reflexivity.
Qed.
Lemma density_spread c vol occ K B n1 n2 n3 : tshape c = [2; K; B]%nat ++ [n1; n2; n3] -> tshape occ = [1; K; B]%nat ->
  density_grid c vol (Some occ) = density_grid c vol (Some (spread 2 occ)).
Proof.
  intros Sc So. unfold density_grid. destruct (wave_grid_eq c vol [2; K; B]%nat [n1; n2; n3] eq_refl Sc) as (w & -> & Sw & _). cbn [bind].
  apply (einsum_spread _ _ K B [n1; n2; n3]); [exact Sw|exact So].
Qed.
Lemma tzip_spread {X Y} (f : X -> R -> Y) (a : tensor X) occ K B : tshape a = [2; K; B]%nat -> tshape occ = [1; K; B]%nat ->
  rteq (tzip f a occ) (tzip f a (spread 2 occ)).
Proof.
  intros Sa So. unfold tzip. rewrite Sa, So. unfold spread. cbn [tshape]. rewrite So. cbn [tl]. rewrite bshape_spread, bshape_refl. cbn [rteq]. split; [reflexivity|].
  intros i Hi. cbn [tshape tget] in *. f_equal. destruct i as [|i0 [|i1 [|i2 [|]]]]; try (apply inb_length in Hi; discriminate). reflexivity.
Qed.
Lemma kinetic_spread G kpts c occ B n1 n2 n3 : let K := length kpts in tshape G = [n1; n2; n3] -> tshape c = [2; K; B]%nat ++ [n1; n2; n3] -> tshape occ = [1; K; B]%nat ->
  e_kinetic G kpts c (Some occ) = e_kinetic G kpts c (Some (spread 2 occ)).
Proof.
  intros K SG Sc So. destruct (kinetic_none G kpts c 2 B n1 n2 n3 SG Sc) as (t0 & E0 & S0 & _). unfold e_kinetic in *. destruct (negb _); [reflexivity|].
  destruct (tzip _ _ (absolute_square c)) as [p|]; cbn [bind] in *; [|reflexivity]. destruct (negb (ndim p =? 6)%nat); [reflexivity|]. injection E0 as <-. cbn [tmap tshape] in S0.
  apply (rteq_bind (Y := tensor R)); [apply (tzip_spread _ _ _ K B); [exact S0|exact So]|]. intros u v [H1 H2].
  assert (E : sumR (indices (tshape u)) (tget u) = sumR (indices (tshape v)) (tget v)) by (rewrite H1; apply sumR_ext; intros i Hi; apply H2; rewrite H1; apply in_indices, Hi).
  rewrite E. reflexivity.
Qed.

Lemma nonlocal_spread c psi vol occ K B nb nm n1 n2 n3 : tshape c = [2; K; B]%nat ++ [n1; n2; n3] -> tshape psi = [K; nb; nm] ++ [n1; n2; n3] -> tshape occ = [1; K; B]%nat ->
  energy_nonlocal c psi vol (Some occ) = energy_nonlocal c psi vol (Some (spread 2 occ)).
Proof.
  intros Sc Sp So. unfold energy_nonlocal. destruct (energy_eq c psi vol (spread 2 occ) 2 K B nb nm n1 n2 n3 Sc Sp) as (H & -> & SH & _); [unfold spread; cbn [tshape]; rewrite So; reflexivity|].
  cbn [bind]. apply rteq_bind; [apply (tzip_spread _ _ _ K B); [cbn [tshape]; rewrite SH; reflexivity|exact So]|]. intros u v T. rewrite (tsum_all_teq u v T). reflexivity.
Qed.
Lemma objective_spread xcd pb c occ B n1 n2 n3 : let K := length (pb_k pb) in tshape (pb_G pb) = [n1; n2; n3] ->
  (forall V psi, pb_ions pb = Some (V, psi) -> exists nb nm, tshape psi = [K; nb; nm] ++ [n1; n2; n3]) ->
  tshape c = [2; K; B]%nat ++ [n1; n2; n3] -> tshape occ = [1; K; B]%nat ->
  objective_at xcd pb c occ = objective_at xcd pb c (spread 2 occ).
Proof.
  intros K SG Hi Sc So. unfold objective_at, density_grid_reciprocal. rewrite (density_spread c _ occ K B n1 n2 n3 Sc So), (kinetic_spread _ _ c occ B n1 n2 n3 SG Sc So).
  destruct (density_grid _ _ _) as [d|]; cbn [bind]; [|reflexivity]. destruct (fftn3 _) as [D|]; cbn [bind]; [|reflexivity].
  assert (E : ion_energy pb c occ D = ion_energy pb c (spread 2 occ) D).
  { unfold ion_energy. destruct (pb_ions pb) as [[V psi]|]; [|reflexivity]. destruct (Hi V psi eq_refl) as (nb & nm & Sp). rewrite (nonlocal_spread c psi _ occ K B nb nm n1 n2 n3 Sc Sp So). reflexivity. }
  rewrite E. reflexivity.
Qed.

(** ** electrons in the density *)
Lemma density_electrons c vol occ sp K B n1 n2 n3 d : let ns := [n1; n2; n3] in gridpos ns -> 0 < vol ->
  tshape c = [sp; K; B] ++ ns -> tshape occ = [sp; K; B] -> orthonormal_bands [sp; K] B ns c -> (forall i, inb i (tshape occ) -> 0 <= tget occ i) ->
  density_grid c vol (Some occ) = Ok d ->
  tshape d = sp :: ns /\ (forall i, inb i (tshape d) -> 0 <= tget d i) /\ cell_integral vol d = total occ /\ (forall s, (s < sp)%nat -> channel_integral vol d s = channel occ s).
Proof.
  intros ns Hp Hv Sc So Hc Hn Hd. destruct (density_charge c vol occ sp K B n1 n2 n3 d Hp Hv Sc So Hd) as (Sd & Hnn & Hch). fold ns in Sd, Hch. split; [exact Sd|].
  split; [apply Hnn; rewrite <- So; exact Hn|].
  assert (Hs : forall s, (s < sp)%nat -> channel_integral vol d s = channel occ s) by (intros s Hs; unfold channel_integral; rewrite Sd; cbn [tl]; apply (Hch Hc s Hs)).
  split; [|exact Hs]. rewrite (integral_channels vol d sp ns Sd), (total_channels occ sp [K; B] So). apply sumR_ext. intros s Hin. apply in_seq in Hin. apply Hs. lia.
Qed.

Lemma grid_facts pb : has_grids pb -> m3det (cr_cell (pb_crystal pb)) <> 0 ->
  exists n1 n2 n3, g_vectors (cr_cell (pb_crystal pb)) [n1; n2; n3] = Ok (pb_G pb) /\ tshape (pb_mask pb) = [n1; n2; n3] /\ tshape (pb_G pb) = [n1; n2; n3] /\ gridpos [n1; n2; n3] /\ 0 < pb_vol pb.
Proof.
  intros (n1 & n2 & n3 & HG & Hm & _) HA. exists n1, n2, n3. split; [exact HG|]. split; [exact Hm|]. split; [rewrite (vector_grid_shape _ _ _ _ HG); reflexivity|].
  split; [destruct (proj1 (g_vectors_ok _ n1 n2 n3) (ex_intro _ _ HG)) as (? & ? & ?); repeat constructor; lia|]. unfold pb_vol, volume. apply Rabs_pos_lt, HA.
Qed.

(** The state a run can reach: density. *)
Lemma reachable_density rnd rpw pb p0 p qr cqr d : reduced_qr qr -> complex_qr cqr -> shape_ok rnd -> pair_shape_ok rpw -> has_grids pb -> m3det (cr_cell (pb_crystal pb)) <> 0 ->
  ae_init rnd rpw pb = Ok p0 -> reachable pb p0 p -> (pb_electrons pb mod 2 = pb_spin pb mod 2)%Z -> (fixed_occ (pb_method pb) -> pb_init_restricted pb = pb_restricted pb) ->
  bands_hold (pb_method pb) (pb_electrons pb) (pb_spin pb) (pb_bands pb) -> bands_fit_basis pb ->
  get_density qr cqr pb p = Ok d ->
  tshape d = num_spin (pb_restricted pb) :: tshape (pb_G pb) /\ (forall i, inb i (tshape d) -> 0 <= tget d i) /\
  cell_integral (pb_vol pb) d = IZR (kept_electrons (pb_method pb) (pb_electrons pb) (pb_spin pb)) /\
  (pb_restricted pb = false -> channel_integral (pb_vol pb) d 0 - channel_integral (pb_vol pb) d 1 = IZR (kept_spin (pb_method pb) (pb_spin pb))).
Proof.
  intros Hq Hcq Hr Hrp Hg HA Hi Hre Hpar Hir Hb Hfit Hd.
  destruct (occ_along rnd rpw pb p0 p qr Hq Hr Hg Hi Hre Hpar Hir Hb) as (occ & Eo & So & Hn & Ht & Hch).
  destruct (coeff_along rnd rpw pb p0 p cqr Hcq Hrp Hi (proj1 Hre) Hfit) as (c & Ec & Sc & Hon & _).
  destruct (grid_facts pb Hg HA) as (n1 & n2 & n3 & _ & Sm & SG & Hp & Hv). rewrite Sm in Sc, Hon. rewrite SG.
  unfold get_density in Hd. rewrite Ec in Hd. cbn [bind] in Hd. rewrite Eo in Hd. cbn [bind] in Hd.
  destruct (density_electrons c (pb_vol pb) occ _ _ _ n1 n2 n3 d Hp Hv Sc So Hon Hn Hd) as (Sd & Hnn & Hint & Hci). split; [exact Sd|]. split; [exact Hnn|]. split; [rewrite Hint; exact Ht|].
  intros Hrf. rewrite !Hci by (rewrite Hrf; cbn; lia). apply Hch, Hrf.
Qed.

(** The state a run can reach: objective and entropy return. *)
Lemma entropy_returns occ eps S K B : tshape occ = [S; K; B] -> exists h, fermi_dirac occ eps = Ok h.
Proof. intros E. unfold fermi_dirac. rewrite E. eauto. Qed.
Lemma ae_reachable_returns rnd rpw pb p0 p qr cqr xcd : reduced_qr qr -> complex_qr cqr -> shape_ok rnd -> pair_shape_ok rpw -> has_grids pb -> m3det (cr_cell (pb_crystal pb)) <> 0 ->
  length (cr_charges (pb_crystal pb)) = length (cr_positions (pb_crystal pb)) -> xc_local xcd false (pb_xc pb) -> xc_returns xcd pb -> pb_ions pb = None ->
  ae_init rnd rpw pb = Ok p0 -> reachable pb p0 p -> (pb_electrons pb mod 2 = pb_spin pb mod 2)%Z -> (fixed_occ (pb_method pb) -> pb_init_restricted pb = pb_restricted pb) ->
  bands_hold (pb_method pb) (pb_electrons pb) (pb_spin pb) (pb_bands pb) -> bands_fit_basis pb ->
  (exists e, objective qr cqr xcd pb p = Ok e) /\ exists h, get_entropy qr pb p = Ok h.
Proof.
  intros Hq Hcq Hr Hrp Hg HA Hl Hx Hxr Hio Hi Hre Hpar Hir Hb Hfit.
  destruct (occ_along rnd rpw pb p0 p qr Hq Hr Hg Hi Hre Hpar Hir Hb) as (occ & Eo & So & _).
  destruct (coeff_along rnd rpw pb p0 p cqr Hcq Hrp Hi (proj1 Hre) Hfit) as (c & Ec & Sc & _).
  destruct (grid_facts pb Hg HA) as (n1 & n2 & n3 & HG & Sm & SG & Hp & Hv). rewrite Sm in Sc. split.
  - rewrite (objective_unfold qr cqr xcd pb p c occ Ec Eo).
    destruct (total_returns xcd (cr_cell (pb_crystal pb)) c (cr_positions (pb_crystal pb)) (map IZR (cr_charges (pb_crystal pb))) (pb_G pb) (pb_k pb) (pb_vol pb) occ false (pb_xc pb) (num_spin (pb_restricted pb)) (pb_bands pb) n1 n2 n3 HA Hv HG) as [e He].
    + rewrite map_length. exact Hl.
    + exact Sc.
    + exact So.
    + unfold xc_returns in Hxr. rewrite SG in Hxr. exact Hxr.
    + exists e. apply (ae_objective_at xcd pb c occ e _ _ _ n1 n2 n3 Hio Hx Sc So). exact He.
  - unfold get_entropy. rewrite Eo. cbn [bind]. apply (entropy_returns _ _ _ _ _ So).
Qed.
