(** The norm-conserving Hamiltonian at one k-point, for any number of channels of the
    exchange-correlation potential. *)
From Coq Require Import Reals Lra Lia.
From Coquelicot Require Import Coquelicot.
From Coq Require Import Ascii String List Arith ZArith Bool.
From Verif Require Import Base Sums Tensor DFT GridModel PadModel PadProofs Lin3 VecModel VecProofs PwModel PwSpec PwProofs BraketModel BraketSpec BraketProofs XcModel EnergyModel EnergySpec EnergyProofs ShiftProofs HamModel HamSpec HamProofs HamProofs2 HamProofs3.
From Verif Require Import OccModel OccSpec EwaldModel LocModel LocSpec LocProofs2 NlocModel NlocSpec NlocProofs NlocProofs2 NlocProofs4 CalcModel CalcSpec CalcProofs2 CalcProofs3 DrvModel DrvSpec DrvProofs2 DrvProofs3 DrvProofs4 TotalProofs.
From Verif Require Import EigSpec EigProofs BndModel BndSpec BndProofs BndProofs2.
Import ListNotations.
Local Open Scope R_scope.

Lemma sumR_one (f : nat -> R) : sumR (seq 0 1) f = f 0%nat.
Proof. unfold sumR. cbn. ring. Qed.
Lemma expectation_one bra ham vol mode sp hk B n1 n2 n3 : let ns := [n1; n2; n3] in
  mode <> OtherMode -> tshape bra = [sp; 1%nat; B] ++ ns -> tshape ham = hk :: ns ->
  exists E, expectation bra ham vol None false mode = Ok E /\ tshape E = [sp; hk; B; B] /\
    forall s h i j, (s < sp)%nat -> (h < hk)%nat -> (i < B)%nat -> (j < B)%nat ->
      tget E [s; h; i; j] = (RtoC (efactor mode vol (INR (nprod ns))) * sumC (indices ns) (fun g => Cconj (tget bra ([s; 0%nat; i] ++ g)) * tget ham (h :: g) * tget bra ([s; 0%nat; j] ++ g)))%C.
Proof.
  intros ns Hmode Hb Hh. unfold expectation.
  assert (Nb : (ndim bra =? 6)%nat = true) by (unfold ndim; rewrite Hb; reflexivity). rewrite Nb. cbn [negb].
  assert (Nh : (ndim ham =? 3)%nat = false /\ (ndim ham =? 4)%nat = true) by (unfold ndim; rewrite Hh; split; reflexivity).
  destruct Nh as [-> ->]. cbn [negb orb]. rewrite (grid3_app bra [sp; 1%nat; B] ns eq_refl Hb).
  assert (Ef : forall X (f : R -> res X), (do factor <- match mode with | RealMode => Ok (vol / INR (nprod ns))%R | ReciprocalMode => Ok (vol / INR (nprod ns) * (1 / INR (nprod ns)))%R | KineticMode => Ok 1%R | OtherMode => Err ValueErr end; f factor)
    = f (efactor mode vol (INR (nprod ns)))) by (intros; destruct mode; try reflexivity; contradiction).
  rewrite Ef. clear Ef. rewrite Hb, Hh. cbn [app ns]. rewrite bshape5_refl.
  assert (Eb : bshape [sp; 1%nat; n1; n2; n3] [1%nat; hk; n1; n2; n3] = Some [sp; hk; n1; n2; n3]).
  { change (option_map (@rev nat) (bshape_rev [n3; n2; n1; 1%nat; sp] [n3; n2; n1; hk; 1%nat]) = Some [sp; hk; n1; n2; n3]).
    rewrite (bshape_rev_same n3 _ [n2; n1; hk; 1%nat] [n2; n1; hk; sp]); [reflexivity|].
    apply bshape_rev_same, bshape_rev_same, bshape_rev_one_l, bshape_rev_one. reflexivity. }
  rewrite Eb. eexists. split; [reflexivity|]. split; [reflexivity|]. intros s h i j Hs Hk Hi Hj. cbn [tget nth]. fold ns. f_equal.
  apply sumC_ext. intros g Hg. apply in_indices in Hg.
  assert (E1 : forall x, (x < B)%nat -> clip1 (sp :: 1%nat :: B :: ns) ([s; h; x] ++ g) = [s; 0%nat; x] ++ g).
  { intros x Hx. cbn [app]. pose proof (clip1_inb ns g Hg) as Ec.
    assert (Es : (if (sp =? 1)%nat then 0 else s)%nat = s) by (destruct (Nat.eqb_spec sp 1); lia).
    assert (Ei : (if (B =? 1)%nat then 0 else x)%nat = x) by (destruct (Nat.eqb_spec B 1); lia).
    cbn [clip1]. rewrite Ec, Es, Ei. reflexivity. }
  assert (E2 : clip1 (hk :: ns) (h :: g) = h :: g) by (apply clip1_inb; constructor; assumption).
  pose proof (E1 i Hi) as Ea. pose proof (E1 j Hj) as Eb'. cbn [app] in Ea, Eb', E2. cbn [app]. rewrite Ea, Eb', E2. reflexivity.
Qed.

Lemma tzip_up {A} (f : C -> C -> A) (a b : tensor C) sp hk B : tshape a = [sp; 1; B; B]%nat -> tshape b = [sp; hk; B; B] ->
  exists t, tzip f a b = Ok t /\ tshape t = [sp; hk; B; B] /\ forall s h i j, (s < sp)%nat -> (h < hk)%nat -> (i < B)%nat -> (j < B)%nat -> tget t [s; h; i; j] = f (tget a [s; 0%nat; i; j]) (tget b [s; h; i; j]).
Proof.
  intros Sa Sb. unfold tzip. rewrite Sa, Sb.
  assert (E : bshape [sp; 1; B; B]%nat [sp; hk; B; B] = Some [sp; hk; B; B]).
  { change (option_map (@rev nat) (bshape_rev [B; B; 1%nat; sp] [B; B; hk; sp]) = Some [sp; hk; B; B]). rewrite (bshape_rev_same B _ [B; hk; sp] [B; hk; sp]); [reflexivity|].
    apply bshape_rev_same, bshape_rev_one_l, bshape_rev_same. reflexivity. }
  rewrite E. eexists. split; [reflexivity|]. split; [reflexivity|]. intros s h i j Hs Hh Hi Hj. cbn [tget]. rewrite (bidx_inb [sp; hk; B; B]) by (repeat constructor; assumption). f_equal. f_equal.
  unfold bidx. cbn [length Nat.sub skipn clip1 Nat.eqb]. repeat f_equal; destruct (Nat.eqb_spec sp 1); destruct (Nat.eqb_spec B 1); lia.
Qed.
Lemma tzip_down {A} (f : C -> C -> A) (a b : tensor C) sp hk B : tshape a = [sp; hk; B; B] -> tshape b = [sp; 1; B; B]%nat ->
  exists t, tzip f a b = Ok t /\ tshape t = [sp; hk; B; B] /\ forall s h i j, (s < sp)%nat -> (h < hk)%nat -> (i < B)%nat -> (j < B)%nat -> tget t [s; h; i; j] = f (tget a [s; h; i; j]) (tget b [s; 0%nat; i; j]).
Proof.
  intros Sa Sb. unfold tzip. rewrite Sa, Sb.
  assert (E : bshape [sp; hk; B; B] [sp; 1; B; B]%nat = Some [sp; hk; B; B]).
  { change (option_map (@rev nat) (bshape_rev [B; B; hk; sp] [B; B; 1%nat; sp]) = Some [sp; hk; B; B]). rewrite (bshape_rev_same B _ [B; 1%nat; sp] [B; hk; sp]); [reflexivity|].
    apply bshape_rev_same, bshape_rev_one, bshape_rev_same. reflexivity. }
  rewrite E. eexists. split; [reflexivity|]. split; [reflexivity|]. intros s h i j Hs Hh Hi Hj. cbn [tget]. rewrite (bidx_inb [sp; hk; B; B]) by (repeat constructor; assumption). f_equal. f_equal.
  unfold bidx. cbn [length Nat.sub skipn clip1 Nat.eqb]. repeat f_equal; destruct (Nat.eqb_spec sp 1); destruct (Nat.eqb_spec B 1); lia.
Qed.
Lemma tzip_up3 {A} (f : C -> C -> A) (a b : tensor C) sp hk B : tshape a = [sp; 1; B]%nat -> tshape b = [sp; hk; B] ->
  exists t, tzip f a b = Ok t /\ tshape t = [sp; hk; B] /\ forall s h i, (s < sp)%nat -> (h < hk)%nat -> (i < B)%nat -> tget t [s; h; i] = f (tget a [s; 0%nat; i]) (tget b [s; h; i]).
Proof.
  intros Sa Sb. unfold tzip. rewrite Sa, Sb.
  assert (E : bshape [sp; 1; B]%nat [sp; hk; B] = Some [sp; hk; B]).
  { change (option_map (@rev nat) (bshape_rev [B; 1%nat; sp] [B; hk; sp]) = Some [sp; hk; B]). rewrite (bshape_rev_same B _ [hk; sp] [hk; sp]); [reflexivity|].
    apply bshape_rev_one_l, bshape_rev_same. reflexivity. }
  rewrite E. eexists. split; [reflexivity|]. split; [reflexivity|]. intros s h i Hs Hh Hi. cbn [tget]. rewrite (bidx_inb [sp; hk; B]) by (repeat constructor; assumption). f_equal. f_equal.
  unfold bidx. cbn [length Nat.sub skipn clip1 Nat.eqb]. repeat f_equal; destruct (Nat.eqb_spec sp 1); destruct (Nat.eqb_spec B 1); lia.
Qed.

(** A matrix element of a multiplication operator. *)
Definition mult_element ns vol (w : tensor C) (v : list nat -> C) (b b' : list nat) : C :=
  (RtoC (vol / INR (nprod ns)) * sumC (indices ns) (fun x => Cconj (tget w (b ++ x)) * v x * tget w (b' ++ x)))%C.
Definition proj_element ns vol nb nm (c nl : tensor C) (b b' : list nat) : C :=
  (RtoC (/ vol) * sumC (seq 0 nb) (fun be => sumC (seq 0 nm) (fun m =>
      Cconj (sumC (indices ns) (fun g => tget c (b ++ g) * tget nl ([0%nat; be; m] ++ g))) * sumC (indices ns) (fun g => tget c (b' ++ g) * tget nl ([0%nat; be; m] ++ g)))))%C.

Section NC1.
  Context (xcd : xcdens) (dens : tensor R) (V nl : tensor C) (G : tensor v3) (k : v3) (vol : R) (xc : string) (ks : bool) (sp' nb nm n1 n2 n3 hk : nat) (vxc : tensor C).
  Let ns := [n1; n2; n3].
  Context (Sd : tshape dens = sp' :: ns) (SV : tshape V = ns) (Sn : tshape nl = [1; nb; nm]%nat ++ ns) (SG : tshape G = ns) (Hz : forall x, inb x ns -> is_origin x = false -> Lin3.norm2 (tget G x) <> 0)
    (Ex : xcd dens G ks xc = Ok vxc) (Sx : tshape vxc = hk :: ns) (Hp : Forall (fun n => (0 < n)%nat) ns).

  Definition nc_el (v vh : list nat -> C) (c w : tensor C) (h : nat) (b b' : list nat) : C :=
    (proj_element ns vol nb nm c nl b b' + mult_element ns vol w v b b' + mult_element ns vol w (fun x => vh x + tget vxc (h :: x)) b b' + kinetic_element ns c G k b b')%C.

  Lemma nc_value : exists v vh, tshape v = ns /\ tshape vh = ns /\ forall c sp B w, tshape c = [sp; 1%nat; B] ++ ns -> wave_grid c vol = Ok w ->
    exists M, nl_hamiltonian_matrix xcd c dens V nl G [k] vol xc ks = Ok M /\ tshape M = [sp; hk; B; B] /\
    (forall s h i j, (s < sp)%nat -> (h < hk)%nat -> (i < B)%nat -> (j < B)%nat -> tget M [s; h; i; j] = nc_el (tget v) (tget vh) c w h [s; 0%nat; i] [s; 0%nat; j]) /\
    exists e t, one_body c V nl G k vol e /\ nl_hamiltonian_trace xcd c dens V nl G [k] vol xc ks = Ok t /\
      e = sumR (seq 0 sp) (fun s => sumR (seq 0 B) (fun b => Re (proj_element ns vol nb nm c nl [s; 0%nat; b] [s; 0%nat; b] + mult_element ns vol w (tget v) [s; 0%nat; b] [s; 0%nat; b] + kinetic_element ns c G k [s; 0%nat; b] [s; 0%nat; b])%C)) /\
      t = e + sumR (seq 0 sp) (fun s => sumR (seq 0 hk) (fun h => sumR (seq 0 B) (fun b => Re (mult_element ns vol w (fun x => tget vh x + tget vxc (h :: x))%C [s; 0%nat; b] [s; 0%nat; b])))).
  Proof.
    destruct (hartree_parts dens G ks sp' n1 n2 n3 Sd SG Hz) as (D & hr & vh & ED & Eh & Ev & Sv).
    destruct (ifftn3_eq V [] ns eq_refl SV) as (v & EV & SVr & _).
    exists v, vh. split; [exact SVr|]. split; [exact Sv|]. intros c sp B w Sc Ew.
    destruct (wave_grid_eq c vol [sp; 1%nat; B] ns eq_refl Sc) as (w' & Ew' & Sw & Gw). assert (w' = w) as -> by congruence.
    destruct (nonlocal_eq c nl vol sp 1 B nb nm n1 n2 n3 Sc Sn) as (N & EN & SN & GN). fold ns in GN.
    destruct (expectation_full w w v vol RealMode sp 1 B B n1 n2 n3 ltac:(discriminate) Sw Sw (or_introl SVr)) as (L & EL & SL & GL). fold ns in GL.
    assert (EL' : hamiltonian_local w V vol = Ok L) by (unfold hamiltonian_local; rewrite EV; cbn [bind]; exact EL).
    assert (Sc1 : tshape c = [sp; length [k]; B] ++ ns) by exact Sc.
    destruct (kin_part c G [k] vol sp B n1 n2 n3 Sc1 SG) as (T & ET & ST & GT). cbn [length] in ST, GT. fold ns in GT.
    destruct (tzip_trail Cplus vh vxc hk n1 n2 n3 Sv Sx) as (vs & Es & Ss & Gs). fold ns in Ss, Gs.
    destruct (expectation_one w vs vol RealMode sp hk B n1 n2 n3 ltac:(discriminate) Sw Ss) as (P & EP & SP & GP). fold ns in GP.
    destruct (tzip_same Cplus N L) as (a1 & E1 & S1 & G1); [rewrite SN, SL; reflexivity|]. rewrite SN in S1.
    destruct (tzip_up Cplus a1 P sp hk B S1 SP) as (a2 & E2 & S2 & G2). destruct (tzip_down Cplus a2 T sp hk B S2 ST) as (M & E3 & S3 & G3).
    assert (VL : forall s i j, (s < sp)%nat -> (i < B)%nat -> (j < B)%nat -> tget L [s; 0%nat; i; j] = mult_element ns vol w (tget v) [s; 0%nat; i] [s; 0%nat; j]).
    { intros s i j Hs Hi Hj. rewrite GL by (try lia; assumption). unfold mult_element. cbn [efactor]. f_equal. apply sumC_ext. intros x _. unfold ham_at, ndim. rewrite SVr. reflexivity. }
    exists M. split.
    { unfold nl_hamiltonian_matrix. rewrite Ew. cbn [bind]. rewrite EN. cbn [bind]. rewrite EL'. cbn [bind]. rewrite ED. cbn [bind]. rewrite ET. cbn [bind]. rewrite Eh. cbn [bind]. rewrite Ev. cbn [bind]. rewrite Ex. cbn [bind]. rewrite Es. cbn [bind].
      rewrite EP. cbn [bind]. rewrite E1. cbn [bind]. rewrite E2. cbn [bind]. exact E3. }
    split; [exact S3|]. split.
    { intros s h i j Hs Hh Hi Hj. rewrite G3, G2, G1 by (try assumption; rewrite SN; repeat constructor; lia || assumption). rewrite GT by (try assumption; lia). unfold nc_el. cbn [nth]. f_equal. f_equal.
      - f_equal; [apply GN|apply VL; assumption].
      - rewrite GP by assumption. unfold mult_element. cbn [efactor]. f_equal. apply sumC_ext. intros x Hx. apply in_indices in Hx. rewrite Gs by assumption. reflexivity. }
    set (occ := mkT [sp; 1%nat; B] (fun _ : list nat => 1%R)).
    destruct (kinetic_some G [k] c occ sp B n1 n2 n3 SG Sc1 eq_refl) as (tk & Etk & Stk & Gtk). fold ns in Gtk.
    destruct (density_eq c vol occ sp 1 B n1 n2 n3 Sc eq_refl) as (d & Ed & Sdd & Gd). destruct (wave_to_density_eq c vol occ sp 1 B n1 n2 n3 w d Sc eq_refl Ew Ed) as (d' & Ed' & (Sd' & Gd')).
    destruct (fftn3_eq (tmap RtoC d') [sp] ns eq_refl ltac:(cbn [tmap tshape]; rewrite Sd'; exact Sdd)) as (D1 & ED1 & SD1 & GD1).
    destruct (fftn3_eq (tmap RtoC d) [sp] ns eq_refl Sdd) as (D2 & ED2 & SD2 & GD2).
    destruct (energy_bands c occ V vol sp 1 B n1 n2 n3 Hp Sc eq_refl SV) as (w2 & D3 & L2 & Ew2 & ED3 & EL2 & SL2 & Een). assert (w2 = w) as -> by congruence. assert (L2 = L) as -> by congruence. clear EL2 Ew2.
    assert (D3 = D2) as -> by (unfold density_grid_reciprocal in ED3; rewrite Ed in ED3; cbn [bind] in ED3; congruence).
    assert (Een1 : energy_local D1 V vol = energy_local D2 V vol).
    { unfold energy_local. rewrite (braket_trail V D1 vol sp n1 n2 n3 SV SD1), (braket_trail V D2 vol sp n1 n2 n3 SV SD2). f_equal. f_equal. f_equal. apply sumC_ext. intros s Hs. apply in_seq in Hs. apply sumC_ext. intros x Hx. f_equal.
      change (s :: x) with ([s] ++ x). rewrite GD1, GD2 by reflexivity. apply dft_ext. intros y Hy. cbn [tmap tget app]. f_equal. apply Gd'. rewrite Sd', Sdd. constructor; [lia|exact Hy]. }
    destruct (energy_eq c nl vol occ sp 1 B nb nm n1 n2 n3 Sc Sn eq_refl) as (N' & EN' & SN' & Enl). assert (N' = N) as -> by congruence.
    destruct (expectation_full w w vh vol RealMode sp 1 B B n1 n2 n3 ltac:(discriminate) Sw Sw (or_introl Sv)) as (P1 & EP1 & SP1 & GP1). fold ns in GP1.
    destruct (expectation_diag w w vh vol RealMode sp 1 B n1 n2 n3 P1 ltac:(discriminate) Sw Sw (or_introl Sv) EP1) as (Q1 & EQ1 & SQ1 & GQ1).
    destruct (expectation_rect w vxc vol RealMode sp 1 hk B n1 n2 n3 ltac:(discriminate) Sw Sx (or_introl eq_refl)) as (Q2 & EQ2 & SQ2 & GQ2). fold ns in GQ2. cbn [Nat.eqb] in SQ2, GQ2.
    assert (Hko : ham_ok (tmap RtoC (kinetic_operator G (Some [k]))) 1 ns) by (right; left; cbn [tmap kinetic_operator tshape]; rewrite SG; reflexivity).
    destruct (expectation_diag c c _ vol KineticMode sp 1 B n1 n2 n3 T ltac:(discriminate) Sc Sc Hko ET) as (Q3 & EQ3 & SQ3 & GQ3).
    destruct (tzip_up3 Cplus Q1 Q2 sp hk B SQ1 SQ2) as (hs & Ehs & Shs & Ghs).
    set (one := sumR (seq 0 sp) (fun s => sumR (seq 0 B) (fun b => Re (proj_element ns vol nb nm c nl [s; 0%nat; b] [s; 0%nat; b] + mult_element ns vol w (tget v) [s; 0%nat; b] [s; 0%nat; b] + kinetic_element ns c G k [s; 0%nat; b] [s; 0%nat; b])%C))).
    exists one, (one + sumR (seq 0 sp) (fun s => sumR (seq 0 hk) (fun h => sumR (seq 0 B) (fun b => Re (mult_element ns vol w (fun x => tget vh x + tget vxc (h :: x))%C [s; 0%nat; b] [s; 0%nat; b]))))).
    assert (Hk1 : forall s b, Re (kinetic_element ns c G k [s; 0%nat; b] [s; 0%nat; b]) = ekin G [k] c ns s 0 b / 2).
    { intros s b. unfold kinetic_element, ekin. rewrite Re_sumC. unfold Rdiv at 2. rewrite <- sumR_scal_r. apply sumR_ext. intros g _. rewrite re_quad. cbv zeta. cbn [nth]. unfold Lin3.norm2. change (Re (RtoC ?x)) with x. unfold Rdiv. ring. }
    split.
    { exists occ, D2, tk, (sumR (seq 0 sp) (fun s => sumR (seq 0 1) (fun k0 => sumR (seq 0 B) (fun b => tget occ [s; k0; b] * Re (tget L [s; k0; b; b]))))), (sumR (seq 0 sp) (fun s => sumR (seq 0 1) (fun k0 => sumR (seq 0 B) (fun b => tget occ [s; k0; b] * Re (tget N [s; k0; b; b]))))).
      split; [rewrite Sc; reflexivity|]. split; [reflexivity|]. split; [exact Etk|]. split; [exact ED3|]. split; [exact Een|]. split; [exact Enl|].
      rewrite Gtk. unfold Rdiv. rewrite <- sumR_scal_r, <- !sumR_plus. apply sumR_ext. intros s Hs. apply seq_in in Hs. cbn [length]. rewrite !sumR_one, <- sumR_scal_r, <- !sumR_plus. apply sumR_ext. intros b Hb. apply seq_in in Hb.
      cbn [occ tget]. rewrite !Re_plus, Hk1, GN, VL by assumption. unfold proj_element. unfold Rdiv. ring. }
    split; [|split; reflexivity].
    unfold nl_hamiltonian_trace. rewrite Ew. cbn [bind]. rewrite Sw. change (firstn 3 ([sp; 1%nat; B] ++ ns)) with [sp; 1%nat; B]. fold occ. rewrite Ed'. cbn [bind]. rewrite ED1. cbn [bind]. rewrite Enl. cbn [bind]. rewrite Een1, Een. cbn [bind]. rewrite ED. cbn [bind]. rewrite Eh. cbn [bind]. rewrite Ev. cbn [bind].
    change (expectation w vh vol None true RealMode) with (expectation w vh vol (Some w) true RealMode). rewrite EQ1. cbn [bind]. rewrite Ex. cbn [bind]. rewrite EQ2. cbn [bind]. rewrite Ehs. cbn [bind].
    change (expectation c (tmap RtoC (kinetic_operator G (Some [k]))) vol None true KineticMode) with (expectation c (tmap RtoC (kinetic_operator G (Some [k]))) vol (Some c) true KineticMode). rewrite EQ3. cbn [bind]. f_equal.
    rewrite (tsum_all_3 hs sp hk B) by congruence. rewrite (tsum_all_3 Q3 sp 1 B) by congruence. rewrite !Re_plus. change (Re (RtoC ?x)) with x.
    assert (X1 : Re (sumC (seq 0 sp) (fun i => sumC (seq 0 hk) (fun j => sumC (seq 0 B) (fun k0 => tget hs [i; j; k0])))) = sumR (seq 0 sp) (fun s => sumR (seq 0 hk) (fun h => sumR (seq 0 B) (fun b => Re (mult_element ns vol w (fun x => tget vh x + tget vxc (h :: x))%C [s; 0%nat; b] [s; 0%nat; b]))))).
    { rewrite Re_sumC. apply sumR_ext. intros s Hs. apply seq_in in Hs. rewrite Re_sumC. apply sumR_ext. intros h Hh. apply seq_in in Hh. rewrite Re_sumC. apply sumR_ext. intros b Hb. apply seq_in in Hb.
      rewrite Ghs, GQ1, GP1, GQ2 by (try assumption; lia). f_equal. unfold mult_element. cbn [efactor]. rewrite <- Cmult_plus_distr_l, <- sumC_plus. f_equal. apply sumC_ext. intros x _. unfold ham_at, ndim. rewrite Sv. cbn [ns length Nat.eqb].
      replace (if (hk =? 1)%nat then 0%nat else h) with h by (destruct (Nat.eqb_spec hk 1); lia). ring. }
    rewrite X1. rewrite Rplus_assoc, (Rplus_comm (sumR _ _) (Re _)), <- Rplus_assoc. f_equal. unfold one.
    rewrite Re_sumC, <- !sumR_plus. apply sumR_ext. intros s Hs. apply seq_in in Hs. rewrite Re_sumC. rewrite !sumR_one, Re_sumC, <- !sumR_plus. apply sumR_ext. intros b Hb. apply seq_in in Hb.
    rewrite GQ3, GT, GN, VL by (try assumption; lia). cbn [occ tget nth]. rewrite !Re_plus. unfold proj_element. ring.
  Qed.
End NC1.
