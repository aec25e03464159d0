(** The energy and the Hamiltonian of the valence electrons in a norm-conserving calculation (C152). *)
From Coq Require Import Reals Lra Lia FunctionalExtensionality.
From Coquelicot Require Import Coquelicot.
From Coq Require Import Ascii String List Arith ZArith Bool.
From Verif Require Import Base Sums Tensor DFT GridModel GridProofs PadModel PadProofs Lin3 VecModel VecProofs OccModel OccSpec PwModel PwSpec PwProofs BraketModel BraketSpec BraketProofs XcModel XcSpec EnergyModel EnergySpec EnergyProofs ExtProofs TotalProofs HamModel HamSpec XcProofs XcProofs2 XcProofs3 HamProofs HamProofs2 HamProofs3
  LocModel LocProofs2 NlocModel NlocSpec NlocProofs NlocProofs4 SymProofs NcAttSpec DerProofs ReachSpec KsSpec KsProofs KsProofs2 KsProofs3 KsProofs4 KsLevels KsGen NcKsSpec.
Import ListNotations.
Local Open Scope R_scope.

(** *** Two Hermitian forms: the local potential and the projectors *)
Definition locf (ns : list nat) (vol : R) (U : list nat -> R) (a b : list nat -> C) : C :=
  (RtoC (vol / INR (nprod ns)) * sumC (indices ns) (fun x => Cconj (RtoC (INR (nprod ns) / sqrt vol) * idft ns a x) * RtoC (U x) * (RtoC (INR (nprod ns) / sqrt vol) * idft ns b x)))%C.
Definition prj (ns : list nat) (nl : tensor C) (k be m : nat) (a : list nat -> C) : C := sumC (indices ns) (fun g => a g * tget nl ([k; be; m] ++ g))%C.
Definition nlf (ns : list nat) (vol : R) (nb nm : nat) (nl : tensor C) (k : nat) (a b : list nat -> C) : C :=
  (RtoC (/ vol) * sumC (seq 0 nb) (fun be => sumC (seq 0 nm) (fun m => Cconj (prj ns nl k be m a) * prj ns nl k be m b)))%C.

Lemma locf_linl ns vol U a a' b s s' : locf ns vol U (fun g => s * a g + s' * a' g)%C b = (Cconj s * locf ns vol U a b + Cconj s' * locf ns vol U a' b)%C.
Proof.
  unfold locf.
  rewrite (sumC_ext (indices ns) (fun x => Cconj (RtoC (INR (nprod ns) / sqrt vol) * idft ns (fun g => s * a g + s' * a' g)%C x) * _ * _)%C
     (fun x => Cconj s * (Cconj (RtoC (INR (nprod ns) / sqrt vol) * idft ns a x) * RtoC (U x) * (RtoC (INR (nprod ns) / sqrt vol) * idft ns b x)) +
               Cconj s' * (Cconj (RtoC (INR (nprod ns) / sqrt vol) * idft ns a' x) * RtoC (U x) * (RtoC (INR (nprod ns) / sqrt vol) * idft ns b x)))%C)
    by (intros x _; replace (idft ns (fun g => s * a g + s' * a' g)%C x) with (s * idft ns a x + s' * idft ns a' x)%C by (rewrite <- !idft_scal, <- idft_plus; reflexivity); rewrite !Cconj_mult, Cconj_plus, !Cconj_mult; ring).
  rewrite sumC_plus, !sumC_scal. ring.
Qed.
Lemma locf_ext ns vol U U' a a' b b' : (forall x, inb x ns -> U x = U' x) -> (forall g, inb g ns -> a g = a' g) -> (forall g, inb g ns -> b g = b' g) -> locf ns vol U a b = locf ns vol U' a' b'.
Proof.
  intros HU Ha Hb. unfold locf. f_equal. apply sumC_ext. intros x Hx. apply in_indices in Hx. rewrite HU by exact Hx. rewrite (idft_ext ns a a' x Ha), (idft_ext ns b b' x Hb). reflexivity.
Qed.
Lemma prj_lin ns nl k be m a a' s s' : prj ns nl k be m (fun g => s * a g + s' * a' g)%C = (s * prj ns nl k be m a + s' * prj ns nl k be m a')%C.
Proof. unfold prj. rewrite <- !sumC_scal, <- sumC_plus. apply sumC_ext. intros g _. ring. Qed.
Lemma prj_ext ns nl k be m a a' : (forall g, inb g ns -> a g = a' g) -> prj ns nl k be m a = prj ns nl k be m a'.
Proof. intros H. unfold prj. apply sumC_ext. intros g Hg. apply in_indices in Hg. rewrite H by exact Hg. reflexivity. Qed.
Lemma nlf_linl ns vol nb nm nl k a a' b s s' : nlf ns vol nb nm nl k (fun g => s * a g + s' * a' g)%C b = (Cconj s * nlf ns vol nb nm nl k a b + Cconj s' * nlf ns vol nb nm nl k a' b)%C.
Proof.
  unfold nlf. transitivity (RtoC (/ vol) * (Cconj s * sumC (seq 0 nb) (fun be => sumC (seq 0 nm) (fun m => Cconj (prj ns nl k be m a) * prj ns nl k be m b)) + Cconj s' * sumC (seq 0 nb) (fun be => sumC (seq 0 nm) (fun m => Cconj (prj ns nl k be m a') * prj ns nl k be m b))))%C; [|ring].
  f_equal. rewrite <- !sumC_scal, <- sumC_plus. apply sumC_ext. intros be _. rewrite <- !sumC_scal, <- sumC_plus. apply sumC_ext. intros m _. rewrite prj_lin, Cconj_plus, !Cconj_mult. ring.
Qed.
Lemma nlf_ext ns vol nb nm nl k a a' b b' : (forall g, inb g ns -> a g = a' g) -> (forall g, inb g ns -> b g = b' g) -> nlf ns vol nb nm nl k a b = nlf ns vol nb nm nl k a' b'.
Proof. intros Ha Hb. unfold nlf. f_equal. apply sumC_ext. intros be _. apply sumC_ext. intros m _. rewrite (prj_ext _ _ _ _ _ _ _ Ha), (prj_ext _ _ _ _ _ _ _ Hb). reflexivity. Qed.
Lemma Re_nlf ns vol nb nm nl k a b : Re (nlf ns vol nb nm nl k a b) = / vol * sumR (seq 0 nb) (fun be => sumR (seq 0 nm) (fun m => Re (Cconj (prj ns nl k be m a) * prj ns nl k be m b)%C)).
Proof. unfold nlf. rewrite Re_scal_R, Re_sumC. f_equal. apply sumR_ext. intros be _. apply Re_sumC. Qed.
Lemma Re_locf ns vol U c e k b : Re (locf ns vol U (orb e k b) (orb c k b)) = vol / INR (nprod ns) * sumR (indices ns) (fun x => U x * Re (Cconj (psi ns vol e [0%nat; k; b] x) * psi ns vol c [0%nat; k; b] x)%C).
Proof.
  unfold locf. rewrite Re_scal_R, Re_sumC. f_equal. apply sumR_ext. intros x _.
  change (RtoC (INR (nprod ns) / sqrt vol) * idft ns (orb e k b) x)%C with (psi ns vol e [0%nat; k; b] x). change (RtoC (INR (nprod ns) / sqrt vol) * idft ns (orb c k b) x)%C with (psi ns vol c [0%nat; k; b] x).
  unfold Re, Cconj, Cmult, RtoC. cbn [fst snd]. ring.
Qed.

(** *** The two energies *)
Definition eloc (ns : list nat) (K B : nat) (vol : R) (U : list nat -> R) (c : tensor C) (occ : tensor R) : R := vol / INR (nprod ns) * sumR (indices ns) (fun x => U x * rho ns K B vol c occ x).
Definition enl (ns : list nat) (K B : nat) (vol : R) (nb nm : nat) (nl c : tensor C) (occ : tensor R) : R :=
  sumR (seq 0 K) (fun k => sumR (seq 0 B) (fun b => tget occ [0%nat; k; b] * (/ vol * sumR (seq 0 nb) (fun be => sumR (seq 0 nm) (fun m => Cnorm2 (prj ns nl k be m (orb c k b))))))).

Lemma eloc_turn ns K B vol U h c e occ : exists q, forall t, eloc ns K B vol U (turn h c e t) occ = eloc ns K B vol U c occ
  + sin t * cos t * sumR (seq 0 K) (fun k => sumR (seq 0 B) (fun b => picked h occ k b * (2 * Re (locf ns vol U (orb e k b) (orb c k b))))) + sin t * sin t * q.
Proof.
  set (f1 := fun x => sumR (seq 0 K) (fun k => sumR (seq 0 B) (fun b => picked h occ k b * (2 * Re (Cconj (psi ns vol e [0%nat; k; b] x) * psi ns vol c [0%nat; k; b] x)%C)))).
  set (f2 := fun x => sumR (seq 0 K) (fun k => sumR (seq 0 B) (fun b => picked h occ k b * (Cnorm2 (psi ns vol e [0%nat; k; b] x) - Cnorm2 (psi ns vol c [0%nat; k; b] x))))).
  exists (vol / INR (nprod ns) * sumR (indices ns) (fun x => U x * f2 x)). intros t. unfold eloc.
  rewrite (sumR_ext (indices ns) (fun x => U x * rho ns K B vol (turn h c e t) occ x) (fun x => U x * rho ns K B vol c occ x + (sin t * cos t * (U x * f1 x) + sin t * sin t * (U x * f2 x)))).
  - rewrite !sumR_plus, !sumR_scal. unfold f1 at 1. rewrite sum_out.
    assert (E : vol / INR (nprod ns) * sumR (seq 0 K) (fun k => sumR (seq 0 B) (fun b => picked h occ k b * sumR (indices ns) (fun x => U x * (2 * Re (Cconj (psi ns vol e [0%nat; k; b] x) * psi ns vol c [0%nat; k; b] x)%C))))
      = sumR (seq 0 K) (fun k => sumR (seq 0 B) (fun b => picked h occ k b * (2 * Re (locf ns vol U (orb e k b) (orb c k b)))))).
    { rewrite <- sumR_scal. apply sumR_ext. intros k _. rewrite <- sumR_scal. apply sumR_ext. intros b _. rewrite Re_locf.
      rewrite (sumR_ext (indices ns) (fun x => U x * (2 * _)) (fun x => 2 * (U x * Re (Cconj (psi ns vol e [0%nat; k; b] x) * psi ns vol c [0%nat; k; b] x)%C))) by (intros; ring). rewrite sumR_scal. ring. }
    rewrite <- E. ring.
  - intros x _. rewrite rho_turn. fold (f1 x) (f2 x). ring.
Qed.

Lemma enl_turn ns K B vol nb nm nl h c e occ : exists q, forall t, enl ns K B vol nb nm nl (turn h c e t) occ = enl ns K B vol nb nm nl c occ
  + sin t * cos t * sumR (seq 0 K) (fun k => sumR (seq 0 B) (fun b => picked h occ k b * (2 * Re (nlf ns vol nb nm nl k (orb e k b) (orb c k b))))) + sin t * sin t * q.
Proof.
  exists (sumR (seq 0 K) (fun k => sumR (seq 0 B) (fun b => picked h occ k b * (/ vol * sumR (seq 0 nb) (fun be => sumR (seq 0 nm) (fun m => Cnorm2 (prj ns nl k be m (orb e k b)) - Cnorm2 (prj ns nl k be m (orb c k b)))))))).
  intros t. unfold enl. rewrite <- !sumR_scal, <- !sumR_plus. apply sumR_ext. intros k _. rewrite <- !sumR_scal, <- !sumR_plus. apply sumR_ext. intros b _.
  rewrite Re_nlf. unfold picked. destruct (h k b) eqn:E.
  - set (S0 := sumR (seq 0 nb) (fun be => sumR (seq 0 nm) (fun m => Cnorm2 (prj ns nl k be m (orb c k b))))).
    set (S1 := sumR (seq 0 nb) (fun be => sumR (seq 0 nm) (fun m => Re (Cconj (prj ns nl k be m (orb e k b)) * prj ns nl k be m (orb c k b))%C))).
    set (S2 := sumR (seq 0 nb) (fun be => sumR (seq 0 nm) (fun m => Cnorm2 (prj ns nl k be m (orb e k b)) - Cnorm2 (prj ns nl k be m (orb c k b))))).
    assert (Es : sumR (seq 0 nb) (fun be => sumR (seq 0 nm) (fun m => Cnorm2 (prj ns nl k be m (orb (turn h c e t) k b)))) = S0 + 2 * (sin t * cos t) * S1 + sin t * sin t * S2).
    { unfold S0, S1, S2. rewrite <- !sumR_scal, <- !sumR_plus. apply sumR_ext. intros be _. rewrite <- !sumR_scal, <- !sumR_plus. apply sumR_ext. intros m _.
      rewrite (prj_ext ns nl k be m (orb (turn h c e t) k b) (fun g => RtoC (cos t) * orb c k b g + RtoC (sin t) * orb e k b g)%C) by (intros g _; unfold orb, turn; cbn [tget app nth]; rewrite E; reflexivity).
      rewrite prj_lin, Cnorm2_turn. ring. }
    rewrite Es. ring.
  - replace (orb (turn h c e t) k b) with (orb c k b); [ring|]. unfold orb, turn. cbn [tget app nth]. rewrite E. reflexivity.
Qed.

Lemma eloc_occ ns K B vol U c occ (o : tensor R) t : eloc ns K B vol U c (mkT (tshape occ) (fun i => tget occ i + t * tget o i)) = eloc ns K B vol U c occ + t * sumR (seq 0 K) (fun k => sumR (seq 0 B) (fun b => tget o [0%nat; k; b] * Re (locf ns vol U (orb c k b) (orb c k b)))).
Proof.
  unfold eloc. rewrite (sumR_ext (indices ns) _ (fun x => U x * rho ns K B vol c occ x + t * (U x * rho ns K B vol c o x))) by (intros x _; rewrite rho_occ; ring).
  rewrite sumR_plus, sumR_scal. unfold rho at 2. rewrite sum_out, Rmult_plus_distr_l. f_equal. rewrite <- Rmult_assoc, (Rmult_comm _ t), Rmult_assoc. f_equal. rewrite <- sumR_scal. apply sumR_ext. intros k _. rewrite <- sumR_scal. apply sumR_ext. intros b _. rewrite Re_locf.
  rewrite (sumR_ext (indices ns) (fun x => U x * Re _) (fun x => U x * Cnorm2 (psi ns vol c [0%nat; k; b] x))) by (intros x _; rewrite Cconj_mult_self; reflexivity). ring.
Qed.
Lemma enl_occ ns K B vol nb nm nl c occ (o : tensor R) t : enl ns K B vol nb nm nl c (mkT (tshape occ) (fun i => tget occ i + t * tget o i)) = enl ns K B vol nb nm nl c occ + t * sumR (seq 0 K) (fun k => sumR (seq 0 B) (fun b => tget o [0%nat; k; b] * Re (nlf ns vol nb nm nl k (orb c k b) (orb c k b)))).
Proof.
  unfold enl. rewrite <- sumR_scal, <- sumR_plus. apply sumR_ext. intros k _. rewrite <- sumR_scal, <- sumR_plus. apply sumR_ext. intros b _. cbn [tget]. rewrite Re_nlf.
  rewrite (sumR_ext (seq 0 nb) (fun be => sumR (seq 0 nm) (fun m => Re _)) (fun be => sumR (seq 0 nm) (fun m => Cnorm2 (prj ns nl k be m (orb c k b))))) by (intros be _; apply sumR_ext; intros m _; rewrite Cconj_mult_self; reflexivity). ring.
Qed.

(** *** The valence energy is the energy without ions plus the two *)
Lemma fext_none ns G f : fext ns G [] [] f = 0.
Proof.
  unfold fext. rewrite sumC_zero; [cbn [Re RtoC fst]; ring|]. intros x _. destruct (is_origin x); [reflexivity|]. unfold structure_factor. cbn [combine sumC]. rewrite Cconj_R. ring.
Qed.

Lemma valence_split lib vg xt A c G kpts vol V nl vl occ B nb nm n1 n2 n3 : let ns := [n1; n2; n3] in let K := length kpts in let ts := split_on "+" xt in
  contains "gga" xt = false -> (forall t b, In t ts -> lib t b <> None) ->
  m3det A <> 0 -> 0 < vol -> g_vectors A ns = Ok G -> tshape c = [1%nat; K; B] ++ ns -> tshape occ = [1%nat; K; B] -> tshape V = ns -> tshape nl = [K; nb; nm] ++ ns -> ifftn3 V = Ok vl ->
  exists e1, total_energy (xc_density lib vg) c [] [] G kpts vol (Some occ) false xt = Ok e1 /\
  forall e, valence_energy (xc_density lib vg) G kpts vol V nl xt c occ e <-> e = e1 + eloc ns K B vol (fun x => Re (tget vl x)) c occ + enl ns K B vol nb nm nl c occ.
Proof.
  intros ns K ts Hg Hl HA Hv HG Sc So SV Sn Hvl. destruct (g_vectors_dual A n1 n2 n3 G HA HG) as (SG & _). fold ns in SG.
  assert (Hn : Forall (fun n => (0 < n)%nat) ns) by (destruct (proj1 (g_vectors_ok A n1 n2 n3) (ex_intro _ G HG)) as (? & ? & ?); repeat constructor; lia).
  eexists. split; [exact (total_formula lib vg xt A c [] [] G kpts vol occ B n1 n2 n3 Hg Hl HA Hv HG eq_refl Sc So)|]. fold ns K ts. rewrite fext_none.
  destruct (density_eq c vol occ 1 K B n1 n2 n3 Sc So) as (d & Ed & Sd & Gd). fold ns in Sd, Gd.
  destruct (fftn3_eq (tmap RtoC d) [1%nat] ns eq_refl Sd) as (D & ED & SD & GD).
  assert (ED' : density_grid_reciprocal c vol (Some occ) = Ok D) by (unfold density_grid_reciprocal; rewrite Ed; exact ED).
  assert (Gd' : forall x, inb x ns -> tget d (0%nat :: x) = rho ns K B vol c occ x) by (intros x Hx; apply (Gd 0%nat x); [lia|exact Hx]).
  destruct (kinetic_some G kpts c occ 1 B n1 n2 n3 SG Sc So) as (t & Et & _ & Gt). fold K ns in Gt.
  pose proof (e_hartree_eq D G vol false 1 n1 n2 n3 SD SG (fun x => g_nonzero A n1 n2 n3 G x HA HG)) as Eh.
  pose proof (e_xc_lda_unpol lib vg xt d G vol n1 n2 n3 Hg (fun t H => Hl t false H) Sd) as Ex.
  destruct (energy_real d V D vol 1 n1 n2 n3 Hn SV Sd ED) as (v' & Ev' & _ & El). rewrite Hvl in Ev'. injection Ev' as <-. fold ns in El.
  destruct (energy_eq c nl vol occ 1 K B nb nm n1 n2 n3 Sc Sn So) as (H & EH & _ & En). destruct (nonlocal_eq c nl vol 1 K B nb nm n1 n2 n3 Sc Sn) as (H2 & EH2 & _ & GH). rewrite EH in EH2. injection EH2 as <-. fold ns in GH.
  assert (Gs : forall x, spin_sum D x = fhat ns (rho ns K B vol c occ) x).
  { intros x. rewrite (spin_sum_one D d n1 n2 n3 x SD); [apply fhat_ext, Gd'|]. intros s g. change (s :: g) with ([s] ++ g). rewrite GD by reflexivity. reflexivity. }
  match type of Eh with _ = Ok ?h => set (eh := h) in * end. match type of El with _ = Ok ?h => set (el := h) in * end. match type of En with _ = Ok ?h => set (en := h) in * end. match type of Ex with _ = Ok ?h => set (ex := h) in * end.
  assert (Vt : tget t [] = fT ns G kpts B c occ) by (rewrite Gt; cbn [seq sumR]; unfold fT; fold K; rewrite Rplus_0_r; reflexivity).
  assert (Vh : eh = fhar ns G vol (rho ns K B vol c occ)).
  { unfold eh, fhar. rewrite coulomb_sum_alt. fold ns. cbn [hfac]. f_equal. apply sumR_ext. intros x _. rewrite Gs. reflexivity. }
  assert (Vx : ex = fxc ns vol (fun r => lda_sum_at lib ts [r]) (rho ns K B vol c occ)).
  { unfold ex, fxc. fold ns ts. f_equal. apply sumR_ext. intros x Hx. apply in_indices in Hx. rewrite Gd' by exact Hx. reflexivity. }
  assert (Vl : el = eloc ns K B vol (fun x => Re (tget vl x)) c occ).
  { unfold el, eloc. f_equal. cbn [seq sumR]. rewrite Rplus_0_r. apply sumR_ext. intros x Hx. apply in_indices in Hx. rewrite Gd' by exact Hx. reflexivity. }
  assert (Vn : en = enl ns K B vol nb nm nl c occ).
  { unfold en, enl. cbn [seq sumR]. rewrite Rplus_0_r. apply sumR_ext. intros k _. apply sumR_ext. intros b _. f_equal. rewrite GH.
    change (Re (nlf ns vol nb nm nl k (orb c k b) (orb c k b)) = / vol * sumR (seq 0 nb) (fun be => sumR (seq 0 nm) (fun m => Cnorm2 (prj ns nl k be m (orb c k b))))).
    rewrite Re_nlf. f_equal. apply sumR_ext. intros be _. apply sumR_ext. intros m _. rewrite Cconj_mult_self. reflexivity. }
  rewrite <- Vt, <- Vh, <- Vx, <- Vl, <- Vn. intros e. split.
  - intros (d' & D' & ek' & eh' & el' & en' & ex' & H1 & H3 & H4 & H5 & H6 & H7 & H8 & ->). rewrite Ed in H1. injection H1 as <-. rewrite ED' in H3. injection H3 as <-. rewrite Et in H4. injection H4 as <-.
    assert (Inj : forall a b : R, Ok a = Ok b -> a = b) by (intros; congruence).
    fold K in H7. rewrite Eh in H5. rewrite El in H6. rewrite En in H7. rewrite Ex in H8. apply Inj in H5, H6, H7, H8. rewrite <- H5, <- H6, <- H7, <- H8. ring.
  - intros ->. exists d, D, t, eh, el, en, ex. do 7 (split; [assumption|]). ring.
Qed.
