(** The energy of the valence electrons is a continuous function of the state (C150). *)
From Coq Require Import Reals Lra Lia.
From Coquelicot Require Import Coquelicot.
From Coq Require Import Ascii String List Arith ZArith Bool.
From Verif Require Import Base Sums Tensor DFT GridModel GridProofs PadModel PadProofs Lin3 VecModel VecProofs OccModel OccSpec PwModel PwSpec PwProofs BraketModel XcModel XcSpec XcProofs XcProofs3 GgaProofs2 EnergyModel EnergySpec EnergyProofs ExtProofs TotalProofs SpinProofs
  LocModel LocProofs2 NlocModel NlocProofs NlocProofs4 BoundSpec BoundProofs ReachSpec ReachProofs AttSpec AttProofs AttProofs2 AttProofs3 AttProofs4 NcAttSpec.
Import ListNotations.
Local Open Scope R_scope.

Definition dens_value (lib : xclib) (xt : string) (sp : nat) (ns : list nat) (G : tensor v3) (V : tensor C) (vol : R) (d : tensor R) : R :=
  let N := INR (nprod ns) in
  2 * PI * vol / (N * N) * sumR (indices ns) (fun x => if is_origin x then 0 else Cnorm2 (rho_q sp ns d x) / Lin3.norm2 (tget G x))
  + vol / (N * N) * Re (sumC (seq 0 sp) (fun s => sumC (indices ns) (fun x => (Cconj (tget V x) * dft ns (fun y => RtoC (tget d (s :: y))) x)%C)))
  + vol / N * sumR (indices ns) (fun x => point_xc lib (split_on "+" xt) (contains "gga" xt) (sp =? 2)%nat (dens_at sp d x) (if contains "gga" xt then sig_at ns G sp d x else []) * sumR (seq 0 sp) (fun s => tget d (s :: x))).
Definition proj (ns : list nat) (c nl : tensor C) (s k b be m : nat) : C := sumC (indices ns) (fun g => (tget c ([s; k; b] ++ g) * tget nl ([k; be; m] ++ g))%C).
Definition band_value (ns : list nat) (G : tensor v3) (kpts : list v3) (nb nm : nat) (nl : tensor C) (vol : R) (c : tensor C) (s k b : nat) : R :=
  ekin G kpts c ns s k b / 2 + / vol * sumR (seq 0 nb) (fun be => sumR (seq 0 nm) (fun m => Cnorm2 (proj ns c nl s k b be m))).
Definition nc_value (lib : xclib) (xt : string) (sp B nb nm : nat) (ns : list nat) (G : tensor v3) (kpts : list v3) (V nl : tensor C) (vol : R) (c : tensor C) (occ : tensor R) : R :=
  sumR (seq 0 sp) (fun s => sumR (seq 0 (length kpts)) (fun k => sumR (seq 0 B) (fun b => band_value ns G kpts nb nm nl vol c s k b * tget occ [s; k; b])))
  + dens_value lib xt sp ns G V vol (rho sp (length kpts) B ns vol c occ).

Lemma dens_value_ext lib xt sp ns G V vol d d' : (sp = 1 \/ sp = 2)%nat -> (forall s x, (s < sp)%nat -> inb x ns -> tget d (s :: x) = tget d' (s :: x)) ->
  dens_value lib xt sp ns G V vol d = dens_value lib xt sp ns G V vol d'.
Proof.
  intros Hs Gd. assert (DF : forall s x, (s < sp)%nat -> dft ns (fun y => RtoC (tget d (s :: y))) x = dft ns (fun y => RtoC (tget d' (s :: y))) x) by (intros s x H; apply dft_ext; intros y Hy; rewrite Gd by assumption; reflexivity).
  assert (Q : forall x, rho_q sp ns d x = rho_q sp ns d' x) by (intros x; unfold rho_q; apply sumC_ext; intros s H; apply in_seq in H; apply DF; lia).
  unfold dens_value. cbv zeta. f_equal; [f_equal|].
  - f_equal. apply sumR_ext. intros x _. rewrite Q. reflexivity.
  - f_equal. f_equal. apply sumC_ext. intros s H. apply in_seq in H. apply sumC_ext. intros x _. rewrite DF by lia. reflexivity.
  - f_equal. apply sumR_ext. intros x Hx. apply in_indices in Hx. f_equal; [|apply sumR_ext; intros s H; apply in_seq in H; apply Gd; [lia|exact Hx]]. f_equal.
    + unfold dens_at. apply map_ext_in. intros s H. apply in_seq in H. apply Gd; [lia|exact Hx].
    + destruct (contains "gga" xt); [|reflexivity]. unfold sig_at. cbv zeta. destruct Hs as [-> | ->]; cbn [Nat.eqb].
      * f_equal. apply gprod_ext; intros y Hy; apply Gd; (lia || exact Hy).
      * f_equal; [|f_equal; [|f_equal]]; apply gprod_ext; intros y Hy; apply Gd; (lia || exact Hy).
Qed.

Lemma nc_formula lib vg xt A c G kpts vol V nl occ sp B nb nm n1 n2 n3 : let ns := [n1; n2; n3] in let K := length kpts in
  m3det A <> 0 -> g_vectors A ns = Ok G -> 0 < vol -> (sp = 1 \/ sp = 2)%nat -> tshape c = [sp; K; B] ++ ns -> tshape occ = [sp; K; B] -> tshape V = ns -> tshape nl = [K; nb; nm] ++ ns ->
  (forall t, In t (split_on "+" xt) -> pick lib t (sp =? 2)%nat <> None) ->
  forall e, valence_energy (xc_density lib vg) G kpts vol V nl xt c occ e <-> e = nc_value lib xt sp B nb nm ns G kpts V nl vol c occ.
Proof.
  intros ns K HA HG Hv Hs Sc So SV Sn HP. destruct (g_vectors_dual A n1 n2 n3 G HA HG) as (SG & _). fold ns in SG.
  destruct (density_eq c vol occ sp K B n1 n2 n3 Sc So) as (d & Ed & Sd & Gd). fold ns in Sd, Gd.
  destruct (fftn3_eq (tmap RtoC d) [sp] ns eq_refl Sd) as (D & ED & SD & GD).
  assert (ED' : density_grid_reciprocal c vol (Some occ) = Ok D) by (unfold density_grid_reciprocal; rewrite Ed; exact ED).
  destruct (kinetic_some G kpts c occ sp B n1 n2 n3 SG Sc So) as (t & Et & _ & Gt). fold K ns in Gt.
  pose proof (proj1 (hartree_energy A n1 n2 n3 G D sp vol false HA HG SD Hv)) as Eh. pose proof (braket_trail V D vol sp n1 n2 n3 SV SD) as El. fold ns in Eh, El.
  destruct (energy_eq c nl vol occ sp K B nb nm n1 n2 n3 Sc Sn So) as (H & EH & _ & En). destruct (nonlocal_eq c nl vol sp K B nb nm n1 n2 n3 Sc Sn) as (H2 & EH2 & _ & GH). rewrite EH in EH2. injection EH2 as <-. fold ns in GH.
  pose proof (e_xc_point lib vg xt d G vol sp n1 n2 n3 Hs Sd SG HP) as Ex. cbv zeta in Ex. fold ns in Ex.
  set (r := rho sp K B ns vol c occ).
  assert (Gr : forall s x, (s < sp)%nat -> inb x ns -> tget d (s :: x) = tget r (s :: x)) by (intros s x H1 H2; rewrite Gd by assumption; reflexivity).
  assert (DD : forall s x, (s < sp)%nat -> tget D (s :: x) = dft ns (fun y => RtoC (tget d (s :: y))) x) by (intros s x H1; change (s :: x) with ([s] ++ x); rewrite GD by reflexivity; reflexivity).
  assert (Q : forall x, spin_sum D x = rho_q sp ns d x).
  { intros x. unfold spin_sum, rho_q. rewrite SD. cbn [app hd]. apply sumC_ext. intros s Hs'. apply in_seq in Hs'. apply DD. lia. }
  match type of Eh with _ = Ok ?h => set (eh := h) in * end. match type of El with _ = Ok ?h => set (el := h) in * end. match type of En with _ = Ok ?h => set (en := h) in * end. match type of Ex with _ = Ok ?h => set (ex := h) in * end.
  assert (Val : tget t [] + eh + el + en + ex = nc_value lib xt sp B nb nm ns G kpts V nl vol c occ).
  { unfold nc_value. fold K r. rewrite <- (dens_value_ext lib xt sp ns G V vol d r Hs Gr). unfold dens_value. cbv zeta.
    replace (2 * PI * vol / (INR (nprod ns) * INR (nprod ns)) * sumR (indices ns) (fun x => if is_origin x then 0 else Cnorm2 (rho_q sp ns d x) / Lin3.norm2 (tget G x))) with eh.
    2:{ unfold eh. rewrite coulomb_sum_alt. f_equal. apply sumR_ext. intros x _. rewrite Q. reflexivity. }
    replace (vol / (INR (nprod ns) * INR (nprod ns)) * Re (sumC (seq 0 sp) (fun s => sumC (indices ns) (fun x => (Cconj (tget V x) * dft ns (fun y => RtoC (tget d (s :: y))) x)%C)))) with el.
    2:{ unfold el. f_equal. f_equal. apply sumC_ext. intros s Hs'. apply in_seq in Hs'. apply sumC_ext. intros x _. rewrite DD by lia. reflexivity. }
    fold ex. rewrite Gt. unfold band_value.
    rewrite (sumR_ext (seq 0 sp) (fun s => sumR (seq 0 K) (fun k => sumR (seq 0 B) (fun b => (ekin G kpts c ns s k b / 2 + / vol * sumR (seq 0 nb) (fun be => sumR (seq 0 nm) (fun m => Cnorm2 (proj ns c nl s k b be m)))) * tget occ [s; k; b])))
      (fun s => sumR (seq 0 K) (fun k => sumR (seq 0 B) (fun b => ekin G kpts c ns s k b * tget occ [s; k; b])) * / 2 + sumR (seq 0 K) (fun k => sumR (seq 0 B) (fun b => tget occ [s; k; b] * Re (tget H [s; k; b; b]))))).
    - rewrite sumR_plus, sumR_scal_r. fold en. unfold Rdiv. lra.
    - intros s _. rewrite <- sumR_scal_r, <- sumR_plus. apply sumR_ext. intros k _. rewrite <- sumR_scal_r, <- sumR_plus. apply sumR_ext. intros b _.
      rewrite GH. rewrite (sumC_ext _ _ (fun be => RtoC (sumR (seq 0 nm) (fun m => Cnorm2 (proj ns c nl s k b be m))))) by (intros be _; rewrite <- sumC_RtoC; apply sumC_ext; intros m _; apply Cconj_mult_self).
      rewrite sumC_RtoC, <- RtoC_mult. cbn [Re RtoC fst]. field. lra. }
  intros e. split.
  - intros (d' & D' & ek' & eh' & el' & en' & ex' & H1 & H2 & H3 & H4 & H5 & H6 & H7 & ->). rewrite Ed in H1. injection H1 as <-. rewrite ED' in H2. injection H2 as <-. rewrite Et in H3. injection H3 as <-.
    assert (Inj : forall a b : R, Ok a = Ok b -> a = b) by (intros; congruence).
    unfold energy_local in H5. fold K in H6. rewrite Eh in H4. rewrite El in H5. rewrite En in H6. rewrite Ex in H7. apply Inj in H4, H5, H6, H7. rewrite <- H4, <- H5, <- H6, <- H7. exact Val.
  - intros ->. exists d, D, t, eh, el, en, ex. do 7 (split; [assumption|]). symmetry. exact Val.
Qed.

(** Phase factors do not change it. *)
Lemma nc_phase lib xt sp B nb nm ns G kpts V nl vol c c' occ : let K := length kpts in (sp = 1 \/ sp = 2)%nat -> orthonormal_bands [sp; K] B ns c -> same_up_to_phase sp K B ns c c' ->
  nc_value lib xt sp B nb nm ns G kpts V nl vol c' occ = nc_value lib xt sp B nb nm ns G kpts V nl vol c occ.
Proof.
  intros K Hs Ho Hp. destruct (phase_function sp K B ns c c' Ho Hp) as (U & HU).
  assert (N1 : forall s k b z, (s < sp)%nat -> (k < K)%nat -> (b < B)%nat -> Cnorm2 (U s k b * z)%C = Cnorm2 z) by (intros s k b z H1 H2 H3; rewrite !Cnorm2_Cmod, Cmod_mult, (proj1 (HU s k b H1 H2 H3)); ring).
  unfold nc_value. fold K. f_equal.
  - apply sumR_ext. intros s H1. apply sumR_ext. intros k H2. apply sumR_ext. intros b H3. apply in_seq in H1, H2, H3. f_equal. unfold band_value. f_equal; [f_equal|f_equal].
    + unfold ekin. apply sumR_ext. intros g Hg. apply in_indices in Hg. rewrite (proj2 (HU s k b ltac:(lia) ltac:(lia) ltac:(lia)) g Hg), N1 by lia. reflexivity.
    + apply sumR_ext. intros be _. apply sumR_ext. intros m _. rewrite <- (N1 s k b (proj ns c nl s k b be m)) by lia. f_equal. unfold proj. rewrite <- sumC_scal. apply sumC_ext. intros g Hg. apply in_indices in Hg.
      rewrite (proj2 (HU s k b ltac:(lia) ltac:(lia) ltac:(lia)) g Hg). apply eq_sym, Cmult_assoc.
  - apply dens_value_ext; [exact Hs|]. intros s x H1 _. unfold rho. cbn [tget hd tl]. apply sumR_ext. intros k H2. apply sumR_ext. intros b H3. apply in_seq in H2, H3. f_equal. rewrite <- (N1 s k b (psi ns vol c [s; k; b] x)) by lia. f_equal.
    unfold psi, idft. rewrite (sumC_ext (indices ns) (fun g => (tget c' ([s; k; b] ++ g) * _)%C) (fun g => (U s k b * (tget c ([s; k; b] ++ g) * cis (2 * PI * phase ns (zs g) (zs x))))%C)); [rewrite sumC_scal; ring|]. intros g Hg. apply in_indices in Hg.
    rewrite (proj2 (HU s k b ltac:(lia) ltac:(lia) ltac:(lia)) g Hg). apply eq_sym, Cmult_assoc.
Qed.

Lemma cts_nc lib xt G kpts V nl vol sp B nb nm n1 n2 n3 (St : (crd -> R) -> Prop) x : let ns := [n1; n2; n3] in let K := length kpts in let csh := [sp; K; B] ++ ns in let osh := [sp; K; B] in let L := crds csh osh in
  (sp = 1 \/ sp = 2)%nat -> (forall t, In t (split_on "+" xt) -> continuous_functional lib (contains "gga" xt) t) -> St x ->
  (forall y, St y -> forall i, inb i osh -> 0 <= tget (o_of osh y) i) ->
  cts L St x (fun y => nc_value lib xt sp B nb nm ns G kpts V nl vol (c_of csh y) (o_of osh y)).
Proof.
  intros ns K csh osh L Hs Hf Sx Po. unfold nc_value. fold K. apply cts_plus.
  - apply (cts_sum L St x (seq 0 sp) (fun s y => sumR (seq 0 K) (fun k => sumR (seq 0 B) (fun b => band_value ns G kpts nb nm nl vol (c_of csh y) s k b * tget (o_of osh y) [s; k; b])))). intros s Hs'. apply in_seq in Hs'.
    apply (cts_sum L St x (seq 0 K) (fun k y => sumR (seq 0 B) (fun b => band_value ns G kpts nb nm nl vol (c_of csh y) s k b * tget (o_of osh y) [s; k; b]))). intros k Hk. apply in_seq in Hk.
    apply (cts_sum L St x (seq 0 B) (fun b y => band_value ns G kpts nb nm nl vol (c_of csh y) s k b * tget (o_of osh y) [s; k; b])). intros b Hb. apply in_seq in Hb.
    apply cts_mult; [|apply (cts_o sp K B ns), (at3o sp K B); lia]. unfold band_value. apply cts_plus; [apply cts_mult; [apply (cts_ekin sp K B ns); lia|apply cts_const]|]. apply cts_mult; [apply cts_const|].
    apply (cts_sum L St x (seq 0 nb) (fun be y => sumR (seq 0 nm) (fun m => Cnorm2 (proj ns (c_of csh y) nl s k b be m)))). intros be _. apply (cts_sum L St x (seq 0 nm) (fun m y => Cnorm2 (proj ns (c_of csh y) nl s k b be m))). intros m _.
    apply cts_norm2. unfold proj. apply (ctsC_sum L St x (indices ns) (fun g y => (tget (c_of csh y) ([s; k; b] ++ g) * tget nl ([k; be; m] ++ g))%C)). intros g Hg. apply in_indices in Hg.
    apply ctsC_mult; [|apply ctsC_const]. apply (cts_c sp K B ns), (at3 sp K B ns); (lia || exact Hg).
  - unfold dens_value. cbv zeta. apply cts_plus; [apply cts_plus|].
    + apply cts_mult; [apply cts_const|]. apply (cts_sum L St x (indices ns) (fun q y => if is_origin q then 0 else Cnorm2 (rho_q sp ns (rho sp K B ns vol (c_of csh y) (o_of osh y)) q) / norm2 (tget G q))).
      intros q _. destruct (is_origin q); [apply cts_const|]. apply cts_mult; [apply cts_norm2, (ctsC_rho_q sp K B ns)|apply cts_const].
    + apply cts_mult; [apply cts_const|]. apply (ctsC_sum L St x (seq 0 sp) (fun s y => sumC (indices ns) (fun q => (Cconj (tget V q) * dft ns (fun z => RtoC (tget (rho sp K B ns vol (c_of csh y) (o_of osh y)) (s :: z))) q)%C))). intros s Hs'. apply in_seq in Hs'.
      apply (ctsC_sum L St x (indices ns) (fun q y => (Cconj (tget V q) * dft ns (fun z => RtoC (tget (rho sp K B ns vol (c_of csh y) (o_of osh y)) (s :: z))) q)%C)). intros q _. apply ctsC_mult; [apply ctsC_const|].
      apply (ctsC_dft L St x ns (fun z y => RtoC (tget (rho sp K B ns vol (c_of csh y) (o_of osh y)) (s :: z)))). intros z _. apply ctsC_R, (cts_rho sp K B ns). lia.
    + apply cts_mult; [apply cts_const|]. apply (cts_sum L St x (indices ns) (fun q y => let d := rho sp K B ns vol (c_of csh y) (o_of osh y) in
        point_xc lib (split_on "+" xt) (contains "gga" xt) (sp =? 2)%nat (dens_at sp d q) (if contains "gga" xt then sig_at ns G sp d q else []) * sumR (seq 0 sp) (fun s => tget d (s :: q)))).
      intros q _. cbv zeta. apply cts_mult; [apply (cts_xc sp K B ns St x lib vol G _ _ q Sx Hs Hf Po)|]. apply (cts_sum L St x (seq 0 sp) (fun s y => tget (rho sp K B ns vol (c_of csh y) (o_of osh y)) (s :: q))). intros s Hs'. apply in_seq in Hs'. apply (cts_rho sp K B ns). lia.
Qed.
