(** Valence states of lowest energy consist of Kohn-Sham orbitals, filled from below (C152). *)
From Coq Require Import Reals Lra Lia FunctionalExtensionality.
From Coquelicot Require Import Coquelicot.
From Coq Require Import Ascii String List Arith ZArith Bool.
From Verif Require Import Base Sums Tensor DFT GridModel GridProofs PadModel PadProofs Lin3 VecModel VecProofs OccModel OccSpec PwModel PwSpec PwProofs BraketModel BraketSpec BraketProofs XcModel XcSpec EnergyModel EnergySpec EnergyProofs ExtProofs TotalProofs HamModel HamSpec XcProofs XcProofs2 XcProofs3 HamProofs HamProofs2 HamProofs3
  LocModel LocProofs2 NlocModel NlocSpec NlocProofs NlocProofs4 SymProofs SymProofs2 NcAttSpec DerProofs ReachSpec KsSpec KsProofs KsProofs2 KsProofs3 KsProofs4 KsLevels KsGen NcKsSpec NcKsProofs.
Import ListNotations.
Local Open Scope R_scope.

Lemma hv_sym ns vol U G q a b : Cconj (hv ns vol U G q a b) = hv ns vol U G q b a.
Proof.
  unfold hv. rewrite Cconj_plus, Cconj_mult, Cconj_R, !Cconj_sum. f_equal; [|f_equal]; apply sumC_ext; intros g _; rewrite ?Cconj_mult, ?Cconj_conj, ?Cconj_R; cbv zeta; ring.
Qed.
Lemma locf_sym ns vol U a b : Cconj (locf ns vol U a b) = locf ns vol U b a.
Proof. unfold locf. rewrite Cconj_mult, Cconj_R, Cconj_sum. f_equal. apply sumC_ext. intros x _. rewrite !Cconj_mult, !Cconj_conj, !Cconj_R. ring. Qed.
Lemma nlf_sym ns vol nb nm nl k a b : Cconj (nlf ns vol nb nm nl k a b) = nlf ns vol nb nm nl k b a.
Proof.
  unfold nlf. rewrite Cconj_mult, Cconj_R, Cconj_sum. f_equal. apply sumC_ext. intros be _. rewrite Cconj_sum. apply sumC_ext. intros m _. rewrite Cconj_mult, Cconj_conj. ring.
Qed.
Lemma real_eq (z : C) : Im z = 0 -> z = RtoC (Re z).
Proof. destruct z as [p q]. cbn [Im Re fst snd]. intros ->. reflexivity. Qed.

Section Valence.
Context (lib : xclib) (vg : list string -> tensor R -> tensor R -> tensor v3 -> res (tensor C)) (xt : string) (A : m3) (G : tensor v3) (kpts : list v3) (vol : R) (V nl vl : tensor C) (n1 n2 n3 nb nm : nat).
Let ns := [n1; n2; n3].
Let K := length kpts.
Let ts := split_on "+" xt.
Let xcd := xc_density lib vg.
Context (Hg : contains "gga" xt = false) (Hl : forall t b, In t ts -> lib t b <> None) (HA : m3det A <> 0) (Hv : 0 < vol) (HG : g_vectors A ns = Ok G)
  (SV : tshape V = ns) (Sn : tshape nl = [K; nb; nm] ++ ns) (Evl : ifftn3 V = Ok vl) (Rvl : real_valued vl).
Let SG : tshape G = ns.
Proof. exact (proj1 (g_vectors_dual A n1 n2 n3 G HA HG)). Qed.

(** The form of the Hamiltonian with the self-consistent potential [v]. *)
Definition ncH (v : tensor C) (k : nat) (a b : list nat -> C) : C :=
  (hv ns vol (fun x => Re (tget v (0%nat :: x))) G (nth k kpts vzero) a b + locf ns vol (fun x => Re (tget vl x)) a b + nlf ns vol nb nm nl k a b)%C.

Lemma ncH_linl v k a a' b s s' : ncH v k (fun g => s * a g + s' * a' g)%C b = (Cconj s * ncH v k a b + Cconj s' * ncH v k a' b)%C.
Proof. unfold ncH. rewrite hv_linl, locf_linl, nlf_linl. ring. Qed.
Lemma ncH_ext v v' k a a' b b' : (forall x, inb x ns -> tget v (0%nat :: x) = tget v' (0%nat :: x)) -> (forall g, inb g ns -> a g = a' g) -> (forall g, inb g ns -> b g = b' g) -> ncH v k a b = ncH v' k a' b'.
Proof.
  intros Ev Ha Hb. unfold ncH. f_equal; [f_equal|].
  - apply hv_ext; [intros x Hx; rewrite Ev by exact Hx; reflexivity|exact Ha|exact Hb].
  - apply locf_ext; [reflexivity|exact Ha|exact Hb].
  - apply nlf_ext; assumption.
Qed.
Lemma ncH_sym v k a b : Cconj (ncH v k a b) = ncH v k b a.
Proof. unfold ncH. rewrite !Cconj_plus, hv_sym, locf_sym, nlf_sym. reflexivity. Qed.
Lemma Re_ncH v k a b : Re (ncH v k a b) = Re (hv ns vol (fun x => Re (tget v (0%nat :: x))) G (nth k kpts vzero) a b) + Re (locf ns vol (fun x => Re (tget vl x)) a b) + Re (nlf ns vol nb nm nl k a b).
Proof. unfold ncH. rewrite !Re_plus. reflexivity. Qed.

(** The self-consistent potential. *)
Lemma scf_potential d : tshape d = 1%nat :: ns -> hartree_real d G -> exists v vh vxc D hr, effective_sum xcd d [] [] G vol xt true = Ok v /\ tshape v = 1%nat :: ns /\
  fftn3 (tmap RtoC d) = Ok D /\ hartree_reciprocal D G true = Ok hr /\ ifftn3 hr = Ok vh /\ xcd d G true xt = Ok vxc /\ tshape vxc = 1%nat :: ns /\
  forall x, inb x ns -> (tget vh x + tget vxc (0%nat :: x))%C = RtoC (Re (tget v (0%nat :: x))).
Proof.
  intros Sd Hr.
  destruct (lda_known lib _ d 1 ns (or_introl eq_refl) Sd Hl) as (e & E & Se).
  assert (X : exists vx : tensor R, xc_density lib vg d G true xt = Ok (tmap RtoC vx) /\ tshape vx = 1%nat :: ns).
  { unfold xc_density. rewrite Hg. fold ts. rewrite E. cbn [bind rmap]. unfold vxc_lda. rewrite Sd. cbn [Nat.eqb orb rmap]. eexists. split; reflexivity. }
  destruct X as (vx & Ex & Sx). fold xcd in Ex. set (vxc := tmap RtoC vx) in *. assert (Sx' : tshape vxc = 1%nat :: ns) by exact Sx.
  destruct (effective_parts xcd d [] [] G vol xt true 1 n1 n2 n3 vxc Sd SG eq_refl Ex) as (D & vhr & ver & vh & ve & ED & Eh & Eih & Ee & Eie & Svh & Sve & SD & GD & Gh & Ge & Es).
  destruct (effective_adds xcd d [] [] G vol xt true 1 n1 n2 n3 vxc Sd SG eq_refl Ex (or_introl Sx')) as (h1 & h2 & v & Eu & _ & _ & Ev & Cases). rewrite Es in Eu. injection Eu as <- <-.
  destruct Cases as [(_ & Sv & Gv)|(S1 & _)]; [|exfalso; rewrite Sx' in S1; apply (f_equal (@length nat)) in S1; cbn in S1; lia].
  exists v, vh, vxc, D, vhr. do 7 (split; [assumption|]). intros x Hx. fold ns in Gv. rewrite Gv by (try lia; exact Hx).
  assert (Z : tget ve x = RtoC 0).
  { rewrite Ge. destruct (external_eq [] [] G vol n1 n2 n3 SG eq_refl) as (u & Eu & _ & Gu). rewrite Ee in Eu. injection Eu as <-.
    unfold idft. rewrite sumC_zero; [ring|]. intros g _. rewrite Gu. destruct (is_origin g); [ring|]. unfold structure_factor. cbn [combine sumC]. ring. }
  assert (Ih : Im (tget vh x) = 0) by (apply (Hr D vhr ED Eh vh Eih); rewrite Svh; exact Hx).
  rewrite Z. rewrite (real_eq _ Ih). unfold vxc. cbn [tmap tget]. rewrite Cplus_0_r, <- RtoC_plus. reflexivity.
Qed.

Lemma nc_matrix d v B c : tshape d = 1%nat :: ns -> hartree_real d G -> effective_sum xcd d [] [] G vol xt true = Ok v -> tshape c = [1%nat; K; B] ++ ns ->
  exists M, nl_hamiltonian_matrix xcd c d V nl G kpts vol xt true = Ok M /\
    forall k i j, (k < K)%nat -> (i < B)%nat -> (j < B)%nat -> tget M [0%nat; k; i; j] = ncH v k (orb c k i) (orb c k j) /\ tget M [0%nat; k; j; i] = Cconj (tget M [0%nat; k; i; j]).
Proof.
  intros Sd Hr Ev Sc. destruct (scf_potential d Sd Hr) as (v' & vh & vxc & D & hr & Ev' & Sv & ED & Eh & Eih & Ex & Sx & Gv). rewrite Ev in Ev'. injection Ev' as <-.
  assert (HI : nl_inputs c d V nl G kpts 1 1 B nb nm n1 n2 n3) by (split; [exact Sc|]; split; [exact Sd|]; split; [exact SV|]; split; [exact Sn|]; split; [exact SG|exact (fun x => g_nonzero A n1 n2 n3 G x HA HG)]).
  destruct (matrix_eq xcd c d V nl G kpts vol xt true 1 1 B nb nm n1 n2 n3 1 vxc HI Ex Sx (or_introl eq_refl)) as (w & D' & hr' & vh' & N & L & M & Ew & ED' & Eh' & Eih' & EN & EL & EM & SM & GM).
  rewrite ED in ED'. injection ED' as <-. rewrite Eh in Eh'. injection Eh' as <-. rewrite Eih in Eih'. injection Eih' as <-.
  destruct (wave_grid_eq c vol [1%nat; K; B] ns eq_refl Sc) as (w' & Ew' & Sw & Gw). rewrite Ew in Ew'. injection Ew' as <-.
  destruct (nonlocal_eq c nl vol 1 K B nb nm n1 n2 n3 Sc Sn) as (N' & EN' & _ & GN). rewrite EN in EN'. injection EN' as <-. fold ns in GN.
  assert (Svl : tshape vl = ns) by (destruct (ifftn3_eq V [] ns eq_refl SV) as (u & Eu & Su & _); rewrite Evl in Eu; injection Eu as <-; exact Su).
  destruct (expectation_full w w vl vol RealMode 1 K B B n1 n2 n3) as (L' & EL' & _ & GL); [discriminate|exact Sw|exact Sw|left; exact Svl|].
  unfold hamiltonian_local in EL. rewrite Evl in EL. cbn [bind] in EL. change (expectation w vl vol None false RealMode) with (expectation w vl vol (Some w) false RealMode) in EL. rewrite EL in EL'. injection EL' as <-. fold ns in GL.
  assert (P : forall k b x, tget w ([0%nat; k; b] ++ x) = (RtoC (INR (nprod ns) / sqrt vol) * idft ns (orb c k b) x)%C) by (intros k b x; rewrite Gw by reflexivity; reflexivity).
  assert (E : forall k i j, (k < K)%nat -> (i < B)%nat -> (j < B)%nat -> tget M [0%nat; k; i; j] = ncH v k (orb c k i) (orb c k j)).
  { intros k i j Hk Hi Hj. rewrite GM by (try lia; assumption). cbn [Nat.eqb]. fold ns. rewrite GN. rewrite GL by (try lia; assumption). cbn [efactor].
    assert (T1 : (RtoC (/ vol) * sumC (seq 0 nb) (fun be => sumC (seq 0 nm) (fun m => Cconj (sumC (indices ns) (fun g => tget c ([0%nat; k; i] ++ g) * tget nl ([k; be; m] ++ g))) * sumC (indices ns) (fun g => tget c ([0%nat; k; j] ++ g) * tget nl ([k; be; m] ++ g)))))%C = nlf ns vol nb nm nl k (orb c k i) (orb c k j)) by reflexivity.
    rewrite T1. unfold ncH. unfold locf at 1.
    match goal with |- (_ + ?l + ?s + ?t)%C = _ => assert (T2 : l = locf ns vol (fun x => Re (tget vl x)) (orb c k i) (orb c k j)); [|rewrite T2; assert (T3 : (t + s)%C = hv ns vol (fun x => Re (tget v (0%nat :: x))) G (nth k kpts vzero) (orb c k i) (orb c k j)); [|rewrite <- T3; unfold locf; ring]] end.
    - unfold locf. f_equal. apply sumC_ext. intros x Hx. apply in_indices in Hx. rewrite !P. f_equal. f_equal. unfold ham_at, ndim. rewrite Svl. cbn [ns length Nat.eqb]. apply real_eq, Rvl. rewrite Svl. exact Hx.
    - unfold hv. f_equal. unfold scf_element. f_equal. apply sumC_ext. intros x Hx. apply in_indices in Hx. rewrite !P, Gv by exact Hx. reflexivity. }
  exists M. split; [exact EM|]. intros k i j Hk Hi Hj. split; [apply E; assumption|]. rewrite !E by assumption. rewrite ncH_sym. reflexivity.
Qed.

Lemma nc_stack d v B c f M : tshape d = 1%nat :: ns -> hartree_real d G -> effective_sum xcd d [] [] G vol xt true = Ok v -> tshape c = [1%nat; K; B] ++ ns ->
  nl_hamiltonian_matrix xcd (stack_bands B c f) d V nl G kpts vol xt true = Ok M ->
  forall k b b', (k < K)%nat -> (b < B)%nat -> (b' < B)%nat -> tget M [0%nat; k; (B + b)%nat; b'] = ncH v k (orb f k b) (orb c k b').
Proof.
  intros Sd Hr Ev Sc HM k b b' Hk Hb Hb'. destruct (nc_matrix d v (B + B) (stack_bands B c f) Sd Hr Ev (stack_shape B c f 1 K B ns Sc)) as (M' & HM' & VM). rewrite HM in HM'. injection HM' as <-.
  destruct (VM k (B + b)%nat b' Hk ltac:(lia) ltac:(lia)) as (-> & _). apply ncH_ext; [reflexivity| |]; intros g _; [apply stack_second|apply stack_first; exact Hb'].
Qed.

Section State.
Context (B : nat) (c : tensor C) (occ d : tensor R).
Context (Sc : tshape c = [1%nat; K; B] ++ ns) (So : tshape occ = [1%nat; K; B]) (Hd : density_grid c vol (Some occ) = Ok d)
  (Hex : forall x, inb x ns -> ex_derive (fun r : R => lda_sum_at lib ts [r]) (tget d (0%nat :: x))) (Hr : hartree_real d G).
Let Sd : tshape d = 1%nat :: ns.
Proof. destruct (density_eq c vol occ 1 K B n1 n2 n3 Sc So) as (d' & Ed' & S & _). rewrite Hd in Ed'. injection Ed' as <-. exact S. Qed.

(** The slope of the energy along a rotation of the orbitals. *)
Lemma nc_turn v h e : effective_sum xcd d [] [] G vol xt true = Ok v -> tshape v = 1%nat :: ns -> exists E : R -> R, (forall t e', valence_energy xcd G kpts vol V nl xt (turn h c e t) occ e' <-> e' = E t) /\
  is_derive E 0 (sumR (seq 0 K) (fun k => sumR (seq 0 B) (fun b => picked h occ k b * (2 * Re (ncH v k (orb e k b) (orb c k b)))))).
Proof.
  intros Ev Sv.
  destruct (turn_derivative lib vg xt A c e h [] [] G kpts vol occ d B n1 n2 n3 Hg Hl HA Hv HG eq_refl Sc So Hd Hex) as (M & E1 & HM & HE1 & DE1).
  destruct (eloc_turn ns K B vol (fun x => Re (tget vl x)) h c e occ) as (q1 & T1). destruct (enl_turn ns K B vol nb nm nl h c e occ) as (q2 & T2).
  set (l1 := sumR (seq 0 K) (fun k => sumR (seq 0 B) (fun b => picked h occ k b * (2 * Re (locf ns vol (fun x => Re (tget vl x)) (orb e k b) (orb c k b)))))) in T1.
  set (l2 := sumR (seq 0 K) (fun k => sumR (seq 0 B) (fun b => picked h occ k b * (2 * Re (nlf ns vol nb nm nl k (orb e k b) (orb c k b)))))) in T2.
  set (a1 := eloc ns K B vol (fun x => Re (tget vl x)) c occ) in T1. set (a2 := enl ns K B vol nb nm nl c occ) in T2.
  exists (fun t => E1 t + (a1 + a2 + sin t * cos t * (l1 + l2) + sin t * sin t * (q1 + q2))). split.
  - intros t e'. destruct (valence_split lib vg xt A (turn h c e t) G kpts vol V nl vl occ B nb nm n1 n2 n3 Hg Hl HA Hv HG Sc So SV Sn Evl) as (e1 & He1 & Hsp). rewrite HE1 in He1. injection He1 as <-.
    unfold xcd. rewrite Hsp. fold ns K. rewrite T1, T2. split; intros ->; ring.
  - assert (DL : is_derive (fun t : R => a1 + a2 + sin t * cos t * (l1 + l2) + sin t * sin t * (q1 + q2)) 0 (l1 + l2)) by (auto_derive; [exact I|]; rewrite sin_0, cos_0; ring).
    pose proof (derive_plus _ _ 0 _ _ DE1 DL) as DT.
    match type of DT with is_derive _ _ ?z => match goal with |- is_derive _ _ ?y => assert (Ez : y = z); [|rewrite Ez; exact DT] end end.
    unfold l1, l2. fold K. rewrite <- !sumR_plus. apply sumR_ext. intros k Hk. rewrite <- !sumR_plus. apply sumR_ext. intros b Hb. apply in_seq in Hk, Hb.
    rewrite (stack_hv xcd c e [] [] d G kpts vol xt B n1 n2 n3 v M Sc SG Ev Sv HM k b b) by (fold K; lia). fold ns. rewrite Re_ncH. ring.
Qed.

(** The slope of the energy along a change of the occupations. *)
Lemma nc_occ_slope v M : effective_sum xcd d [] [] G vol xt true = Ok v -> tshape v = 1%nat :: ns -> nl_hamiltonian_matrix xcd c d V nl G kpts vol xt true = Ok M ->
  exists F : tensor R -> R, (forall occ' e', tshape occ' = [1%nat; K; B] -> valence_energy xcd G kpts vol V nl xt c occ' e' <-> e' = F occ') /\
  forall o : tensor R, is_derive (fun t : R => F (mkT (tshape occ) (fun i => tget occ i + t * tget o i))) 0 (sumR (seq 0 K) (fun k => sumR (seq 0 B) (fun b => tget o [0%nat; k; b] * Re (tget M [0%nat; k; b; b])))).
Proof.
  intros Ev Sv HMn. destruct (nc_matrix d v B c Sd Hr Ev Sc) as (M' & HM' & VM). rewrite HMn in HM'. injection HM' as <-.
  set (F1 := fun o => match total_energy xcd c [] [] G kpts vol (Some o) false xt with Ok e => e | Err _ => 0 end).
  exists (fun o => F1 o + eloc ns K B vol (fun x => Re (tget vl x)) c o + enl ns K B vol nb nm nl c o). split.
  - intros occ' e' So'. destruct (valence_split lib vg xt A c G kpts vol V nl vl occ' B nb nm n1 n2 n3 Hg Hl HA Hv HG Sc So' SV Sn Evl) as (e1 & He1 & Hsp). unfold xcd. rewrite Hsp. fold ns K. unfold F1, xcd. rewrite He1. reflexivity.
  - intros o. destruct (occupation_derivative lib vg xt A c [] [] G kpts vol occ o d B n1 n2 n3 Hg Hl HA Hv HG eq_refl Sc So Hd Hex) as (M1 & E1 & HM1 & HE1 & DE1).
    set (l1 := sumR (seq 0 K) (fun k => sumR (seq 0 B) (fun b => tget o [0%nat; k; b] * Re (locf ns vol (fun x => Re (tget vl x)) (orb c k b) (orb c k b))))).
    set (l2 := sumR (seq 0 K) (fun k => sumR (seq 0 B) (fun b => tget o [0%nat; k; b] * Re (nlf ns vol nb nm nl k (orb c k b) (orb c k b))))).
    set (a := eloc ns K B vol (fun x => Re (tget vl x)) c occ + enl ns K B vol nb nm nl c occ).
    assert (DL : is_derive (fun t : R => a + t * (l1 + l2)) 0 (l1 + l2)) by (auto_derive; [exact I|ring]).
    pose proof (derive_plus _ _ 0 _ _ DE1 DL) as DT.
    match type of DT with is_derive _ _ ?z => match goal with |- is_derive _ _ ?y => assert (Ez : y = z) end end.
    { unfold l1, l2. fold K. rewrite <- !sumR_plus. apply sumR_ext. intros k Hk. rewrite <- !sumR_plus. apply sumR_ext. intros b Hb. apply in_seq in Hk, Hb.
      destruct (VM k b b) as (-> & _); [lia|lia|lia|]. destruct (matrix_hv xcd c [] [] d G kpts vol xt B n1 n2 n3 v M1 Sc SG Ev Sv HM1 k b b) as (-> & _); [fold K; lia|lia|lia|]. fold ns. rewrite Re_ncH. ring. }
    rewrite Ez. revert DT. apply is_derive_ext. intros t. match goal with |- ?x = ?y => change (@eq R x y) end. unfold F1, xcd. rewrite HE1, eloc_occ, enl_occ. fold l1 l2. unfold a. ring.
Qed.
End State.
End Valence.

Lemma nc_lowest_orbitals lib vg xt A c V nl G kpts vol occ d B n1 n2 n3 nb nm mask e0 : let ns := [n1; n2; n3] in let K := length kpts in let ts := split_on "+" xt in let xcd := xc_density lib vg in
  contains "gga" xt = false -> (forall t b, In t ts -> lib t b <> None) -> m3det A <> 0 -> 0 < vol -> g_vectors A ns = Ok G -> tshape V = ns -> tshape nl = [K; nb; nm] ++ ns -> real_on_grid V ->
  tshape mask = ns -> basis_orbitals 1 K B mask c -> tshape occ = [1%nat; K; B] -> density_grid c vol (Some occ) = Ok d -> hartree_real d G ->
  (forall x, inb x ns -> ex_derive (local_particle lib ts) (tget d (0%nat :: x))) ->
  valence_energy xcd G kpts vol V nl xt c occ e0 ->
  (forall c', basis_orbitals 1 K B mask c' -> exists e', valence_energy xcd G kpts vol V nl xt c' occ e' /\ e0 <= e') ->
  kohn_sham_orbitals (fun x => nl_hamiltonian_matrix xcd x d V nl G kpts vol xt true) ns K B mask c occ.
Proof.
  intros ns K ts xcd Hg Hl HA Hv HG SV Sn HV Sm Hc So Hd Hr Hex He0 Hmin.
  assert (Sc : tshape c = [1%nat; K; B] ++ ns) by (destruct Hc as (S & _); rewrite Sm in S; exact S).
  destruct (ifftn3_eq V [] ns eq_refl SV) as (vl & Evl & _). pose proof (HV vl Evl) as Rvl.
  assert (Sd : tshape d = 1%nat :: ns) by (destruct (density_eq c vol occ 1 K B n1 n2 n3 Sc So) as (d' & Ed' & S & _); rewrite Hd in Ed'; injection Ed' as <-; exact S).
  destruct (scf_potential lib vg xt A G kpts vol n1 n2 n3 Hg Hl HA HG d Sd Hr) as (v & _ & _ & _ & _ & Ev & Sv & _).
  destruct (nc_matrix lib vg xt A G kpts vol V nl vl n1 n2 n3 nb nm Hg Hl HA HG SV Sn Evl Rvl d v B c Sd Hr Ev Sc) as (M & HM & VM).
  apply (stationary_orbitals ns K B mask c occ (ncH G kpts vol nl vl n1 n2 n3 nb nm v) _ M Sm Hc); [apply ncH_linl|intros k a a' b Ha; apply ncH_ext; auto|exact HM|exact VM| |].
  - intros f M' HM' k b b' Hk Hb Hb'. exact (nc_stack lib vg xt A G kpts vol V nl vl n1 n2 n3 nb nm Hg Hl HA HG SV Sn Evl Rvl d v B c f M' Sd Hr Ev Sc HM' k b b' Hk Hb Hb').
  - intros h e Ht He. destruct (nc_turn lib vg xt A G kpts vol V nl vl n1 n2 n3 nb nm Hg Hl HA Hv HG SV Sn Evl B c occ d Sc So Hd Hex v h e Ev Sv) as (E & HE & DE).
    apply (slope_zero E _ DE). intros t. assert (E0 : e0 = E 0) by (apply (HE 0); rewrite turn_zero; exact He0). rewrite <- E0.
    assert (Hb : basis_orbitals 1 K B mask (turn h c e t)) by (apply turn_basis; [exact Hc| |]; rewrite Sm; assumption).
    destruct (Hmin _ Hb) as (e' & He' & Hle). apply HE in He'. rewrite <- He'. exact Hle.
Qed.

Lemma nc_levels lib vg xt A c V nl G kpts vol occ d B n1 n2 n3 nb nm w e0 : let ns := [n1; n2; n3] in let K := length kpts in let ts := split_on "+" xt in let xcd := xc_density lib vg in
  contains "gga" xt = false -> (forall t b, In t ts -> lib t b <> None) -> m3det A <> 0 -> 0 < vol -> g_vectors A ns = Ok G -> tshape V = ns -> tshape nl = [K; nb; nm] ++ ns -> real_on_grid V ->
  tshape c = [1%nat; K; B] ++ ns -> tshape occ = [1%nat; K; B] -> density_grid c vol (Some occ) = Ok d -> hartree_real d G ->
  (forall x, inb x ns -> ex_derive (local_particle lib ts) (tget d (0%nat :: x))) -> within 0 w occ ->
  valence_energy xcd G kpts vol V nl xt c occ e0 ->
  (forall occ', tshape occ' = [1%nat; K; B] -> within 0 w occ' -> total occ' = total occ -> exists e', valence_energy xcd G kpts vol V nl xt c occ' e' /\ e0 <= e') ->
  exists M F, nl_hamiltonian_matrix xcd c d V nl G kpts vol xt true = Ok M /\
    (forall o : tensor R, is_derive (fun t : R => F (mkT (tshape occ) (fun i => tget occ i + t * tget o i))) 0 (sumR (seq 0 K) (fun k => sumR (seq 0 B) (fun b => tget o [0%nat; k; b] * Re (tget M [0%nat; k; b; b]))))) /\
    forall occ', tshape occ' = [1%nat; K; B] -> within 0 w occ' -> total occ' = total occ -> F occ <= F occ'.
Proof.
  intros ns K ts xcd Hg Hl HA Hv HG SV Sn HV Sc So Hd Hr Hex Hw He0 Hmin.
  destruct (ifftn3_eq V [] ns eq_refl SV) as (vl & Evl & _). pose proof (HV vl Evl) as Rvl.
  assert (Sd : tshape d = 1%nat :: ns) by (destruct (density_eq c vol occ 1 K B n1 n2 n3 Sc So) as (d' & Ed' & S & _); rewrite Hd in Ed'; injection Ed' as <-; exact S).
  destruct (scf_potential lib vg xt A G kpts vol n1 n2 n3 Hg Hl HA HG d Sd Hr) as (v & _ & _ & _ & _ & Ev & Sv & _).
  destruct (nc_matrix lib vg xt A G kpts vol V nl vl n1 n2 n3 nb nm Hg Hl HA HG SV Sn Evl Rvl d v B c Sd Hr Ev Sc) as (M & HM & VM).
  destruct (nc_occ_slope lib vg xt A G kpts vol V nl vl n1 n2 n3 nb nm Hg Hl HA Hv HG SV Sn Evl Rvl B c occ d Sc So Hd Hex Hr v M Ev Sv HM) as (F & HF & DF).
  exists M, F. split; [exact HM|]. split; [exact DF|]. intros occ' S' W' T'. destruct (Hmin occ' S' W' T') as (e' & He' & Hle). apply HF in He'; [|exact S']. apply HF in He0; [|exact So]. subst. exact Hle.
Qed.

Lemma nc_lowest_filling lib vg xt A c V nl G kpts vol occ d B n1 n2 n3 nb nm w e0 : let ns := [n1; n2; n3] in let K := length kpts in let ts := split_on "+" xt in let xcd := xc_density lib vg in
  contains "gga" xt = false -> (forall t b, In t ts -> lib t b <> None) -> m3det A <> 0 -> 0 < vol -> g_vectors A ns = Ok G -> tshape V = ns -> tshape nl = [K; nb; nm] ++ ns -> real_on_grid V ->
  tshape c = [1%nat; K; B] ++ ns -> tshape occ = [1%nat; K; B] -> density_grid c vol (Some occ) = Ok d -> hartree_real d G ->
  (forall x, inb x ns -> ex_derive (local_particle lib ts) (tget d (0%nat :: x))) -> within 0 w occ ->
  valence_energy xcd G kpts vol V nl xt c occ e0 ->
  (forall occ', tshape occ' = [1%nat; K; B] -> within 0 w occ' -> total occ' = total occ -> exists e', valence_energy xcd G kpts vol V nl xt c occ' e' /\ e0 <= e') ->
  filled_from_below (fun x => nl_hamiltonian_matrix xcd x d V nl G kpts vol xt true) K B w c occ.
Proof.
  intros ns K ts xcd Hg Hl HA Hv HG SV Sn HV Sc So Hd Hr Hex Hw He0 Hmin.
  destruct (nc_levels lib vg xt A c V nl G kpts vol occ d B n1 n2 n3 nb nm w e0 Hg Hl HA Hv HG SV Sn HV Sc So Hd Hr Hex Hw He0 Hmin) as (M & F & HM & DF & HF).
  exact (lower_filling c occ K B w M (fun x => nl_hamiltonian_matrix xcd x d V nl G kpts vol xt true) F So Hw HM DF HF).
Qed.

(** Orbitals that differ in empty bands only have the same energy. *)
Lemma nc_same_filled lib vg xt A c c' V nl G kpts vol occ B n1 n2 n3 nb nm : let ns := [n1; n2; n3] in let K := length kpts in let ts := split_on "+" xt in let xcd := xc_density lib vg in
  contains "gga" xt = false -> (forall t b, In t ts -> lib t b <> None) -> m3det A <> 0 -> 0 < vol -> g_vectors A ns = Ok G -> tshape V = ns -> tshape nl = [K; nb; nm] ++ ns ->
  tshape c = [1%nat; K; B] ++ ns -> tshape c' = [1%nat; K; B] ++ ns -> tshape occ = [1%nat; K; B] ->
  (forall k b g, (k < K)%nat -> (b < B)%nat -> inb g ns -> tget occ [0%nat; k; b] <> 0 -> tget c' ([0%nat; k; b] ++ g) = tget c ([0%nat; k; b] ++ g)) ->
  (forall e, valence_energy xcd G kpts vol V nl xt c' occ e <-> valence_energy xcd G kpts vol V nl xt c occ e) /\
  forall d d', density_grid c vol (Some occ) = Ok d -> density_grid c' vol (Some occ) = Ok d' -> teq d d'.
Proof.
  intros ns K ts xcd Hg Hl HA Hv HG SV Sn Sc Sc' So Hag.
  destruct (same_filled lib vg xt A c c' [] [] G kpts vol occ B n1 n2 n3 Hg Hl HA Hv HG eq_refl Sc Sc' So Hag) as (Eq & Td). split; [|exact Td].
  destruct (ifftn3_eq V [] ns eq_refl SV) as (vl & Evl & _).
  destruct (valence_split lib vg xt A c G kpts vol V nl vl occ B nb nm n1 n2 n3 Hg Hl HA Hv HG Sc So SV Sn Evl) as (e1 & He1 & Hsp).
  destruct (valence_split lib vg xt A c' G kpts vol V nl vl occ B nb nm n1 n2 n3 Hg Hl HA Hv HG Sc' So SV Sn Evl) as (e2 & He2 & Hsp'). rewrite Eq, He1 in He2. injection He2 as <-.
  intros e. unfold xcd. rewrite Hsp, Hsp'. fold ns K.
  assert (E1 : eloc ns K B vol (fun x => Re (tget vl x)) c' occ = eloc ns K B vol (fun x => Re (tget vl x)) c occ).
  { unfold eloc. f_equal. apply sumR_ext. intros x _. f_equal. unfold rho. apply sumR_ext. intros k Hk. apply sumR_ext. intros b Hb. apply in_seq in Hk, Hb.
    destruct (Req_dec (tget occ [0%nat; k; b]) 0) as [->|N]; [ring|]. do 2 f_equal. unfold psi. f_equal. apply idft_ext. intros g Hgi. apply Hag; try assumption; lia. }
  assert (E2 : enl ns K B vol nb nm nl c' occ = enl ns K B vol nb nm nl c occ).
  { unfold enl. apply sumR_ext. intros k Hk. apply sumR_ext. intros b Hb. apply in_seq in Hk, Hb. destruct (Req_dec (tget occ [0%nat; k; b]) 0) as [->|N]; [ring|].
    f_equal. f_equal. apply sumR_ext. intros be _. apply sumR_ext. intros m _. f_equal. apply prj_ext. intros g Hgi. apply Hag; try assumption; lia. }
  rewrite E1, E2. reflexivity.
Qed.

Lemma nc_lowest_basis lib vg xt A c V nl G kpts vol occ d B n1 n2 n3 nb nm mask w e0 : let ns := [n1; n2; n3] in let K := length kpts in let ts := split_on "+" xt in let xcd := xc_density lib vg in
  contains "gga" xt = false -> (forall t b, In t ts -> lib t b <> None) -> m3det A <> 0 -> 0 < vol -> g_vectors A ns = Ok G -> tshape V = ns -> tshape nl = [K; nb; nm] ++ ns -> real_on_grid V ->
  tshape mask = ns -> basis_orbitals 1 K B mask c -> tshape occ = [1%nat; K; B] -> density_grid c vol (Some occ) = Ok d -> hartree_real d G ->
  (forall x, inb x ns -> ex_derive (local_particle lib ts) (tget d (0%nat :: x))) -> within 0 w occ ->
  valence_energy xcd G kpts vol V nl xt c occ e0 ->
  (forall c' occ', basis_orbitals 1 K B mask c' -> tshape occ' = [1%nat; K; B] -> within 0 w occ' -> total occ' = total occ -> exists e', valence_energy xcd G kpts vol V nl xt c' occ' e' /\ e0 <= e') ->
  lowest_levels (fun x => nl_hamiltonian_matrix xcd x d V nl G kpts vol xt true) ns K B mask w c occ.
Proof.
  intros ns K ts xcd Hg Hl HA Hv HG SV Sn HV Sm Hc So Hd Hr Hex Hw He0 Hmin c' M' Hc' Hag HM' k b k' b' Hk Hb Hk' Hb' Po Lo.
  assert (SG : tshape G = ns) by exact (proj1 (g_vectors_dual A n1 n2 n3 G HA HG)).
  assert (Sc : tshape c = [1%nat; K; B] ++ ns) by (destruct Hc as (S & _); rewrite Sm in S; exact S). assert (Sc' : tshape c' = [1%nat; K; B] ++ ns) by (destruct Hc' as (S & _); rewrite Sm in S; exact S).
  destruct (nc_same_filled lib vg xt A c c' V nl G kpts vol occ B n1 n2 n3 nb nm Hg Hl HA Hv HG SV Sn Sc Sc' So Hag) as (Eq & Td).
  destruct (density_eq c' vol occ 1 K B n1 n2 n3 Sc' So) as (d' & Hd' & Sd' & _). specialize (Td d d' Hd Hd').
  assert (Sd : tshape d = 1%nat :: ns) by (rewrite (proj1 Td); exact Sd').
  assert (Hex' : forall x, inb x ns -> ex_derive (local_particle lib ts) (tget d' (0%nat :: x))).
  { intros x Hx. rewrite <- (proj2 Td) by (rewrite Sd; constructor; [lia|exact Hx]). apply Hex, Hx. }
  assert (Hr' : hartree_real d' G).
  { intros D' U' ED' EU' u' Eu'. destruct (fftn3_eq (tmap RtoC d) [1%nat] ns eq_refl Sd) as (D & ED & SD & GD). destruct (fftn3_eq (tmap RtoC d') [1%nat] ns eq_refl Sd') as (D2 & ED2 & SD2 & GD2). rewrite ED' in ED2. injection ED2 as <-.
    destruct (hartree_eq D G true 1 n1 n2 n3 SD SG (fun x => g_nonzero A n1 n2 n3 G x HA HG)) as (U & EU & SU & GU). destruct (hartree_eq D' G true 1 n1 n2 n3 SD2 SG (fun x => g_nonzero A n1 n2 n3 G x HA HG)) as (U2 & EU2 & SU2 & GU2). rewrite EU' in EU2. injection EU2 as <-.
    destruct (ifftn3_eq U [] ns eq_refl SU) as (u & Eu & Su & Gu). destruct (ifftn3_eq U' [] ns eq_refl SU2) as (u2 & Eu2 & Su2 & Gu2). rewrite Eu' in Eu2. injection Eu2 as <-.
    intros x Hx. rewrite Su2 in Hx. cbn [app] in Hx. replace (tget u' x) with (tget u x); [apply (Hr D U ED EU u Eu); rewrite Su; exact Hx|].
    transitivity (idft ns (tget U) x); [exact (Gu [] x eq_refl)|]. transitivity (idft ns (tget U') x); [|symmetry; exact (Gu2 [] x eq_refl)].
    apply idft_ext. intros g Hgi. fold ns in GU, GU2. rewrite GU, GU2 by exact Hgi. destruct (is_origin g); [reflexivity|]. f_equal.
    assert (GDs : forall s g, tget D (s :: g) = dft ns (fun y => RtoC (tget d (s :: y))) g) by (intros s g0; change (s :: g0) with ([s] ++ g0); rewrite GD by reflexivity; reflexivity).
    assert (GDs' : forall s g, tget D' (s :: g) = dft ns (fun y => RtoC (tget d' (s :: y))) g) by (intros s g0; change (s :: g0) with ([s] ++ g0); rewrite GD2 by reflexivity; reflexivity).
    rewrite (spin_sum_one D d n1 n2 n3 g SD GDs), (spin_sum_one D' d' n1 n2 n3 g SD2 GDs'). apply fhat_ext. intros y Hy. apply (proj2 Td). rewrite Sd. constructor; [lia|exact Hy]. }
  destruct (ifftn3_eq V [] ns eq_refl SV) as (vl & Evl & _). pose proof (HV vl Evl) as Rvl.
  destruct (scf_potential lib vg xt A G kpts vol n1 n2 n3 Hg Hl HA HG d Sd Hr) as (v & _ & _ & _ & _ & Ev & Sv & _).
  destruct (scf_potential lib vg xt A G kpts vol n1 n2 n3 Hg Hl HA HG d' Sd' Hr') as (v' & _ & _ & _ & _ & Ev' & Sv' & _).
  destruct (nc_levels lib vg xt A c' V nl G kpts vol occ d' B n1 n2 n3 nb nm w e0 Hg Hl HA Hv HG SV Sn HV Sc' So Hd' Hr' Hex' Hw) as (M & F & HM & DF & HF).
  { apply Eq. exact He0. }
  { intros occ' S1 W1 T1. apply Hmin; assumption. }
  assert (EM : forall k0 b0, (k0 < K)%nat -> (b0 < B)%nat -> tget M [0%nat; k0; b0; b0] = tget M' [0%nat; k0; b0; b0]).
  { intros k0 b0 Hk0 Hb0.
    destruct (nc_matrix lib vg xt A G kpts vol V nl vl n1 n2 n3 nb nm Hg Hl HA HG SV Sn Evl Rvl d v B c' Sd Hr Ev Sc') as (M1 & HM1 & V1). cbv beta in HM'. fold xcd in HM1. rewrite HM' in HM1. injection HM1 as <-.
    destruct (nc_matrix lib vg xt A G kpts vol V nl vl n1 n2 n3 nb nm Hg Hl HA HG SV Sn Evl Rvl d' v' B c' Sd' Hr' Ev' Sc') as (M2 & HM2 & V2). rewrite HM in HM2. injection HM2 as <-.
    rewrite (proj1 (V1 k0 b0 b0 Hk0 Hb0 Hb0)), (proj1 (V2 k0 b0 b0 Hk0 Hb0 Hb0)). apply ncH_ext; try reflexivity. intros x Hx. symmetry. exact (potential_ext lib vg xt A [] [] G vol d d' n1 n2 n3 v v' Hg Hl HA HG eq_refl Sd Td Ev Sv Ev' Sv' x Hx). }
  rewrite <- !EM by assumption.
  exact (lower_levels occ K B w M F So Hw DF HF k b k' b' Hk Hb Hk' Hb' Po Lo).
Qed.

(** The Hartree potential is real when the squared lengths of the grid vectors are even in the grid index. *)
Lemma hartree_real_even A G d n1 n2 n3 sp : m3det A <> 0 -> g_vectors A [n1; n2; n3] = Ok G -> (forall g, inb g [n1; n2; n3] -> norm2 (tget G (neg_index [n1; n2; n3] g)) = norm2 (tget G g)) ->
  tshape d = sp :: [n1; n2; n3] -> hartree_real d G.
Proof.
  intros HA HG Hn Sd D U ED EU u Eu. set (ns := [n1; n2; n3]) in *. destruct (g_vectors_dual A n1 n2 n3 G HA HG) as (SG & _).
  destruct (fftn3_eq (tmap RtoC d) [sp] ns eq_refl Sd) as (D' & ED' & SD & GD). rewrite ED in ED'. injection ED' as <-.
  destruct (hartree_eq D G true sp n1 n2 n3 SD SG (fun x => g_nonzero A n1 n2 n3 G x HA HG)) as (v & Ev & Sv & Gv). rewrite EU in Ev. injection Ev as <-.
  destruct (ifftn3_eq U [] ns eq_refl Sv) as (u' & Eu' & Su & Gu). rewrite Eu in Eu'. injection Eu' as <-.
  intros x Hx. rewrite Su in Hx. cbn [app] in Hx. rewrite (Gu [] x eq_refl : tget u x = _). apply idft_real; [exact Hx|]. intros g Hg. cbn [app].
  fold ns in Gv. rewrite !Gv by (try apply neg_index_inb; exact Hg). rewrite (origin_neg ns g Hg). destruct (is_origin g); [rewrite Cconj_R; reflexivity|].
  rewrite (Hn g Hg), Cconj_mult, Cconj_R. f_equal. unfold spin_sum. rewrite SD. cbn [hd app].
  rewrite Cconj_sum. apply sumC_ext. intros s Hs. change (s :: neg_index ns g) with ([s] ++ neg_index ns g). change (s :: g) with ([s] ++ g). rewrite !GD by reflexivity. cbn [tmap tget]. apply dft_real_sym, Hg.
Qed.
(** On grids of odd sizes the Hartree potential of every density is real. *)
Lemma hartree_real_odd A G d n1 n2 n3 sp : m3det A <> 0 -> g_vectors A [n1; n2; n3] = Ok G -> Nat.odd n1 = true -> Nat.odd n2 = true -> Nat.odd n3 = true -> tshape d = sp :: [n1; n2; n3] -> hartree_real d G.
Proof.
  intros HA HG H1 H2 H3 Sd. apply (hartree_real_even A G d n1 n2 n3 sp HA HG); [|exact Sd]. intros g Hg. rewrite (g_neg A n1 n2 n3 G g HG H1 H2 H3 Hg). apply norm2_neg.
Qed.
(** So it is on every grid when the cell vectors are at right angles. *)
Lemma fr_sq n i : (i < n)%nat -> (fr n ((n - i) mod n) * fr n ((n - i) mod n) = fr n i * fr n i)%R.
Proof.
  intros Hi. destruct (Nat.eq_dec (2 * i) n) as [E|E].
  - replace ((n - i) mod n)%nat with i; [reflexivity|]. rewrite Nat.mod_small; lia.
  - rewrite (fr_neg' n i Hi) by exact E. ring.
Qed.
Lemma cross_dot u v w : dot (cross u v) (cross v w) = dot u v * dot v w - norm2 v * dot u w.
Proof. destruct u, v, w. unfold dot, cross, norm2, dot. cbn [Lin3.vx Lin3.vy Lin3.vz]. ring. Qed.
Lemma dot_scale2 a u v : dot (vscale a u) (vscale a v) = a * a * dot u v.
Proof. destruct u, v. unfold dot, vscale. cbn [Lin3.vx Lin3.vy Lin3.vz]. ring. Qed.
Lemma recip_rows A : exists a, reciprocal_vectors A = M3 (vscale a (cross (m1 A) (m2 A))) (vscale a (cross (m2 A) (m0 A))) (vscale a (cross (m0 A) (m1 A))).
Proof.
  exists (2 * PI * / m3det A). unfold reciprocal_vectors, m3inv. generalize (/ m3det A). intros r. destruct A as [[? ? ?] [? ? ?] [? ? ?]].
  unfold m3scale, m3adj, m3t, vscale, cross. cbn [Lin3.vx Lin3.vy Lin3.vz m0 m1 m2]. apply m3_eq; cbn [m0 m1 m2]; apply v3_eq; cbn [Lin3.vx Lin3.vy Lin3.vz]; ring.
Qed.
Lemma recip_orth A : dot (m0 A) (m1 A) = 0 -> dot (m1 A) (m2 A) = 0 -> dot (m2 A) (m0 A) = 0 ->
  let R := reciprocal_vectors A in dot (m0 R) (m1 R) = 0 /\ dot (m1 R) (m2 R) = 0 /\ dot (m2 R) (m0 R) = 0.
Proof.
  intros O1 O2 O3. destruct (recip_rows A) as (a & ->). cbv zeta. cbn [m0 m1 m2]. rewrite !dot_scale2, !cross_dot, O1, O2, O3, (dot_comm (m1 A) (m0 A)), (dot_comm (m2 A) (m1 A)), (dot_comm (m0 A) (m2 A)), O1, O2, O3. repeat split; ring.
Qed.
Lemma hartree_real_orth A G d n1 n2 n3 sp : m3det A <> 0 -> g_vectors A [n1; n2; n3] = Ok G -> dot (m0 A) (m1 A) = 0 -> dot (m1 A) (m2 A) = 0 -> dot (m2 A) (m0 A) = 0 -> tshape d = sp :: [n1; n2; n3] -> hartree_real d G.
Proof.
  intros HA HG O1 O2 O3 Sd. apply (hartree_real_even A G d n1 n2 n3 sp HA HG); [|exact Sd]. intros g Hg.
  unfold g_vectors in HG. destruct (vector_grid_get _ _ _ _ _ _ HG) as [_ Hv].
  destruct (inb3 _ _ _ _ Hg) as (i & j & k & -> & Hi & Hj & Hk). cbn [neg_index combine map fst snd]. rewrite !Hv. cbn [coef].
  pose proof (recip_orth A O1 O2 O3) as (P1 & P2 & P3). revert P1 P2 P3. generalize (reciprocal_vectors A). intros [[b1 b2 b3] [b4 b5 b6] [b7 b8 b9]]. unfold dot. cbn [m0 m1 m2 Lin3.vx Lin3.vy Lin3.vz]. intros P1 P2 P3.
  assert (N : forall a b c, norm2 (vmul (V3 a b c) (M3 (V3 b1 b2 b3) (V3 b4 b5 b6) (V3 b7 b8 b9))) = a * a * (b1 * b1 + b2 * b2 + b3 * b3) + b * b * (b4 * b4 + b5 * b5 + b6 * b6) + c * c * (b7 * b7 + b8 * b8 + b9 * b9)).
  { intros a b c. transitivity (a * a * (b1 * b1 + b2 * b2 + b3 * b3) + b * b * (b4 * b4 + b5 * b5 + b6 * b6) + c * c * (b7 * b7 + b8 * b8 + b9 * b9) + 2 * (a * b * (b1 * b4 + b2 * b5 + b3 * b6) + b * c * (b4 * b7 + b5 * b8 + b6 * b9) + a * c * (b7 * b1 + b8 * b2 + b9 * b3)));
    [unfold norm2, dot, vmul, vadd, vscale; cbn [Lin3.vx Lin3.vy Lin3.vz m0 m1 m2]; ring|rewrite P1, P2, P3; ring]. }
  rewrite !N, !fr_sq by assumption. reflexivity.
Qed.
