(** The energy along a rotation of the orbitals. *)
From Coq Require Import Reals Lra Lia.
From Coquelicot Require Import Coquelicot.
From Coq Require Import Ascii String List Arith ZArith Bool.
From Verif Require Import Base Sums Tensor DFT GridModel GridProofs PadModel PadProofs Lin3 VecModel VecProofs OccModel PwModel PwSpec PwProofs PwGrad BraketModel BraketSpec BraketProofs XcModel XcSpec EnergyModel EnergySpec EnergyProofs ExtProofs TotalProofs RespProofs HamModel HamSpec XcProofs XcProofs2 XcProofs3 HamProofs HamProofs2 HamProofs3 DerProofs.
Import ListNotations.
Local Open Scope R_scope.

Lemma fhat_uv ns f0 f1 f2 u v x : fhat ns (fun y => f0 y + u * f1 y + v * f2 y) x = (fhat ns f0 x + RtoC u * fhat ns f1 x + RtoC v * fhat ns f2 x)%C.
Proof. unfold fhat. rewrite <- !dft_scal, <- !dft_plus. apply dft_ext. intros y _. rewrite !RtoC_plus, !RtoC_mult. ring. Qed.

Lemma fext_uv ns G pos ch f0 f1 f2 u v : fext ns G pos ch (fun y => f0 y + u * f1 y + v * f2 y) = fext ns G pos ch f0 + u * fext ns G pos ch f1 + v * fext ns G pos ch f2.
Proof.
  unfold fext. rewrite !Re_sumC. set (a := - (4 * PI / INR (nprod ns))).
  set (X := fun (f : list nat -> R) x => Re (if is_origin x then RtoC 0 else Cconj (structure_factor ch pos (tget G x)) * fhat ns f x * RtoC (/ (norm2 (tget G x) + / 10 ^ 10)))%C).
  rewrite (sumR_ext (indices ns) _ (fun x => X f0 x + (u * X f1 x + v * X f2 x))).
  - rewrite !sumR_plus, !sumR_scal. unfold X. ring.
  - intros x _. unfold X. destruct (is_origin x); [cbn; ring|]. rewrite fhat_uv. unfold Re, Cconj, Cmult, Cplus, RtoC. cbn [fst snd]. ring.
Qed.

Lemma fhar_uv ns G vol f0 f1 f2 u v : fhar ns G vol (fun y => f0 y + u * f1 y + v * f2 y) =
  fhar ns G vol f0 + u * fharb ns G vol f0 f1 + v * fharb ns G vol f0 f2 + u * u * fhar ns G vol f1 + u * v * fharb ns G vol f1 f2 + v * v * fhar ns G vol f2.
Proof.
  unfold fhar, fharb. set (w := vol / (INR (nprod ns) * INR (nprod ns))).
  replace (2 * PI * vol / (INR (nprod ns) * INR (nprod ns))) with (2 * PI * w) by (unfold w, Rdiv; ring).
  replace (4 * PI * vol / (INR (nprod ns) * INR (nprod ns))) with (4 * PI * w) by (unfold w, Rdiv; ring).
  rewrite (sumR_ext (indices ns) _ (fun x => (if is_origin x then 0 else Cnorm2 (fhat ns f0 x) / norm2 (tget G x)) +
     (2 * u * (if is_origin x then 0 else Re (Cconj (fhat ns f0 x) * fhat ns f1 x)%C / norm2 (tget G x)) +
     (2 * v * (if is_origin x then 0 else Re (Cconj (fhat ns f0 x) * fhat ns f2 x)%C / norm2 (tget G x)) +
     (u * u * (if is_origin x then 0 else Cnorm2 (fhat ns f1 x) / norm2 (tget G x)) +
     (2 * u * v * (if is_origin x then 0 else Re (Cconj (fhat ns f1 x) * fhat ns f2 x)%C / norm2 (tget G x)) +
      v * v * (if is_origin x then 0 else Cnorm2 (fhat ns f2 x) / norm2 (tget G x)))))))).
  - rewrite !sumR_plus, !sumR_scal. ring.
  - intros x _. destruct (is_origin x); [ring|]. rewrite fhat_uv. unfold Cnorm2, Re, Cconj, Cplus, Cmult, RtoC, Rdiv. cbn [fst snd]. ring.
Qed.

(** The path of [energy_path] with sin t cos t and (sin t)^2 in the place of t and t^2. *)
Lemma energy_turn lib vg xt A pos ch G vol d n1 n2 n3 (f1 f2 : list nat -> R) : let ns := [n1; n2; n3] in let ts := split_on "+" xt in
  contains "gga" xt = false -> (forall t b, In t ts -> lib t b <> None) ->
  m3det A <> 0 -> 0 < vol -> g_vectors A ns = Ok G -> length ch = length pos -> tshape d = 1%nat :: ns ->
  (forall x, inb x ns -> ex_derive (fun r : R => lda_sum_at lib ts [r]) (tget d (0%nat :: x))) ->
  exists v, effective_sum (xc_density lib vg) d pos ch G vol xt true = Ok v /\ tshape v = 1%nat :: ns /\
    let f t x := tget d (0%nat :: x) + sin t * cos t * f1 x + sin t * sin t * f2 x in
    is_derive (fun t : R => fext ns G pos ch (f t) + fhar ns G vol (f t) + fxc ns vol (fun r => lda_sum_at lib ts [r]) (f t)) 0
      (vol / INR (nprod ns) * sumR (indices ns) (fun x => Re (tget v (0%nat :: x)) * f1 x)).
Proof.
  intros ns ts Hg Hl HA Hv HG Hp Sd Hex.
  destruct (energy_path lib vg xt A pos ch G vol d n1 n2 n3 f1 (fun _ => 0) Hg Hl HA Hv HG Hp Sd Hex) as (v & Ev & Sv & DP). fold ns ts in DP. cbv zeta in DP.
  exists v. split; [exact Ev|]. split; [exact Sv|]. intros f.
  set (f0 := fun x => tget d (0%nat :: x)). set (eps := fun r => lda_sum_at lib ts [r]) in *.
  assert (Hx : forall x, inb x ns -> exists l, is_derive (fun r : R => r * eps r) (f0 x) l).
  { intros x Hx. destruct (Hex x Hx) as (l & Dl). eexists. apply (is_derive_mult (fun r : R => r) eps); [apply is_derive_id|exact Dl|]. intros a b; apply Rmult_comm. }
  assert (DX : exists L, is_derive (fun t : R => fxc ns vol eps (fun x => f0 x + t * f1 x + t * t * 0)) 0 L /\ is_derive (fun t : R => fxc ns vol eps (f t)) 0 L).
  { unfold fxc. exists (vol / INR (nprod ns) * sumR (indices ns) (fun x => Derive (fun r : R => r * eps r) (f0 x) * f1 x)).
    split.
    - apply (is_derive_scal (fun t => sumR (indices ns) (fun x => (f0 x + t * f1 x + t * t * 0) * eps (f0 x + t * f1 x + t * t * 0))) 0 (vol / INR (nprod ns))).
      apply (is_derive_sumR (indices ns) (fun x t => (f0 x + t * f1 x + t * t * 0) * eps (f0 x + t * f1 x + t * t * 0)) (fun x => Derive (fun r : R => r * eps r) (f0 x) * f1 x)).
      intros x Hi. apply in_indices in Hi. rewrite Rmult_comm.
      apply (is_derive_comp (fun r : R => r * eps r) (fun t => f0 x + t * f1 x + t * t * 0) 0 (Derive (fun r : R => r * eps r) (f0 x)) (f1 x)).
      + rewrite !Rmult_0_l, !Rplus_0_r. apply Derive_correct. destruct (Hx x Hi) as (l & Dl). exists l. exact Dl.
      + auto_derive; [exact I|ring].
    - apply (is_derive_scal (fun t => sumR (indices ns) (fun x => f t x * eps (f t x))) 0 (vol / INR (nprod ns))).
      apply (is_derive_sumR (indices ns) (fun x t => f t x * eps (f t x)) (fun x => Derive (fun r : R => r * eps r) (f0 x) * f1 x)).
      intros x Hi. apply in_indices in Hi. rewrite Rmult_comm. unfold f. fold f0. change (tget d (0%nat :: x)) with (f0 x).
      apply (is_derive_comp (fun r : R => r * eps r) (fun t => f0 x + sin t * cos t * f1 x + sin t * sin t * f2 x) 0 (Derive (fun r : R => r * eps r) (f0 x)) (f1 x)).
      + rewrite sin_0, !Rmult_0_l, !Rplus_0_r. apply Derive_correct. destruct (Hx x Hi) as (l & Dl). exists l. exact Dl.
      + auto_derive; [exact I|]. rewrite sin_0, cos_0. ring. }
  destruct DX as (L & D1 & D2).
  assert (P1 : is_derive (fun t : R => fext ns G pos ch (fun x => f0 x + t * f1 x + t * t * 0) + fhar ns G vol (fun x => f0 x + t * f1 x + t * t * 0)) 0 (fext ns G pos ch f1 + fharb ns G vol f0 f1)).
  { apply (is_derive_ext (fun t : R => (fext ns G pos ch f0 + t * fext ns G pos ch f1 + t * t * fext ns G pos ch (fun _ => 0)) +
      (fhar ns G vol f0 + t * fharb ns G vol f0 f1 + t * t * fharb ns G vol f0 (fun _ => 0) + t * t * fhar ns G vol f1 + t * (t * t) * fharb ns G vol f1 (fun _ => 0) + t * t * (t * t) * fhar ns G vol (fun _ => 0)))).
    - intros t. rewrite <- (fext_uv ns G pos ch f0 f1 (fun _ => 0) t (t * t)), <- (fhar_uv ns G vol f0 f1 (fun _ => 0) t (t * t)). reflexivity.
    - auto_derive; [exact I|ring]. }
  assert (P2 : is_derive (fun t : R => fext ns G pos ch (f t) + fhar ns G vol (f t)) 0 (fext ns G pos ch f1 + fharb ns G vol f0 f1)).
  { apply (is_derive_ext (fun t : R => (fext ns G pos ch f0 + sin t * cos t * fext ns G pos ch f1 + sin t * sin t * fext ns G pos ch f2) +
      (fhar ns G vol f0 + sin t * cos t * fharb ns G vol f0 f1 + sin t * sin t * fharb ns G vol f0 f2 + sin t * cos t * (sin t * cos t) * fhar ns G vol f1
        + sin t * cos t * (sin t * sin t) * fharb ns G vol f1 f2 + sin t * sin t * (sin t * sin t) * fhar ns G vol f2))).
    - intros t. rewrite <- (fext_uv ns G pos ch f0 f1 f2 (sin t * cos t) (sin t * sin t)), <- (fhar_uv ns G vol f0 f1 f2 (sin t * cos t) (sin t * sin t)). reflexivity.
    - auto_derive; [exact I|]. rewrite sin_0, cos_0. ring. }
  pose proof (derive_plus _ _ 0 _ _ P1 D1) as T1. pose proof (derive_plus _ _ 0 _ _ P2 D2) as T2.
  pose proof (is_derive_unique _ _ _ DP) as U1. pose proof (is_derive_unique _ _ _ T1) as U2. rewrite <- U1.
  change (fun x : list nat => f0 x) with f0 in *. unfold f0 in U2 at 1 2 3. rewrite U2. exact T2.
Qed.

(** Rotate the orbitals that [h] selects towards [e]. *)
Definition turn (h : nat -> nat -> bool) (c e : tensor C) (t : R) : tensor C :=
  mkT (tshape c) (fun i => if h (nth 1 i 0%nat) (nth 2 i 0%nat) then RtoC (cos t) * tget c i + RtoC (sin t) * tget e i else tget c i)%C.

Lemma psi_turn ns vol h c e t k b x : psi ns vol (turn h c e t) [0%nat; k; b] x =
  (if h k b then RtoC (cos t) * psi ns vol c [0%nat; k; b] x + RtoC (sin t) * psi ns vol e [0%nat; k; b] x else psi ns vol c [0%nat; k; b] x)%C.
Proof.
  unfold psi, turn. cbn [tget app nth]. destruct (h k b); [|reflexivity]. rewrite idft_plus, !idft_scal. ring.
Qed.
Lemma Cnorm2_turn (a b : C) t : Cnorm2 (RtoC (cos t) * a + RtoC (sin t) * b)%C = Cnorm2 a + sin t * cos t * (2 * Re (Cconj b * a)%C) + sin t * sin t * (Cnorm2 b - Cnorm2 a).
Proof.
  pose proof (sin2_cos2 t) as S. unfold Rsqr in S. destruct a as [a1 a2], b as [b1 b2]. unfold Cnorm2, Re, Cconj, Cmult, Cplus, RtoC. cbn [fst snd].
  replace (a1 * a1 + a2 * a2) with ((sin t * sin t + cos t * cos t) * (a1 * a1 + a2 * a2)) at 1 by (rewrite S; ring). ring.
Qed.

Definition picked (h : nat -> nat -> bool) (occ : tensor R) (k b : nat) : R := if h k b then tget occ [0%nat; k; b] else 0.

Lemma rho_turn ns K B vol h c e occ t x : rho ns K B vol (turn h c e t) occ x = rho ns K B vol c occ x
  + sin t * cos t * sumR (seq 0 K) (fun k => sumR (seq 0 B) (fun b => picked h occ k b * (2 * Re (Cconj (psi ns vol e [0%nat; k; b] x) * psi ns vol c [0%nat; k; b] x)%C)))
  + sin t * sin t * sumR (seq 0 K) (fun k => sumR (seq 0 B) (fun b => picked h occ k b * (Cnorm2 (psi ns vol e [0%nat; k; b] x) - Cnorm2 (psi ns vol c [0%nat; k; b] x)))).
Proof.
  unfold rho. rewrite <- !sumR_scal, <- !sumR_plus. apply sumR_ext. intros k _. rewrite <- !sumR_scal, <- !sumR_plus. apply sumR_ext. intros b _.
  rewrite psi_turn. unfold picked. destruct (h k b); [rewrite Cnorm2_turn|]; ring.
Qed.
Lemma fT_turn ns G kpts B h c e occ t : fT ns G kpts B (turn h c e t) occ = fT ns G kpts B c occ
  + sin t * cos t * sumR (seq 0 (length kpts)) (fun k => sumR (seq 0 B) (fun b => picked h occ k b *
     sumR (indices ns) (fun g => norm2 (vadd (tget G g) (nth k kpts vzero)) * Re (Cconj (tget e ([0%nat; k; b] ++ g)) * tget c ([0%nat; k; b] ++ g))%C)))
  + sin t * sin t * (sumR (seq 0 (length kpts)) (fun k => sumR (seq 0 B) (fun b => picked h occ k b * (ekin G kpts e ns 0 k b - ekin G kpts c ns 0 k b))) / 2).
Proof.
  unfold fT. match goal with |- ?a / 2 = ?b / 2 + ?u * ?l + ?v * (?c / 2) => assert (Ea : a = b + (2 * u * l + v * c)); [|rewrite Ea; field] end.
  rewrite <- !sumR_scal, <- !sumR_plus. apply sumR_ext. intros k _. rewrite <- !sumR_scal, <- !sumR_plus. apply sumR_ext. intros b _.
  unfold ekin, picked, turn. cbn [tget app nth]. destruct (h k b); [|ring].
  rewrite (sumR_ext (indices ns) _ (fun g => norm2 (vadd (tget G g) (nth k kpts vzero)) * Cnorm2 (tget c ([0%nat; k; b] ++ g)) +
    (2 * (sin t * cos t) * (norm2 (vadd (tget G g) (nth k kpts vzero)) * Re (Cconj (tget e ([0%nat; k; b] ++ g)) * tget c ([0%nat; k; b] ++ g))%C) +
     (sin t * sin t * (norm2 (vadd (tget G g) (nth k kpts vzero)) * Cnorm2 (tget e ([0%nat; k; b] ++ g))) +
      - (sin t * sin t) * (norm2 (vadd (tget G g) (nth k kpts vzero)) * Cnorm2 (tget c ([0%nat; k; b] ++ g))))))).
  - rewrite !sumR_plus, !sumR_scal. cbn [app]. ring.
  - intros g _. rewrite Cnorm2_turn. cbn [app]. ring.
Qed.

Lemma turn_derivative lib vg xt A c e h pos ch G kpts vol occ d B n1 n2 n3 : let ns := [n1; n2; n3] in let K := length kpts in let ts := split_on "+" xt in
  contains "gga" xt = false -> (forall t b, In t ts -> lib t b <> None) ->
  m3det A <> 0 -> 0 < vol -> g_vectors A ns = Ok G -> length ch = length pos -> tshape c = [1%nat; K; B] ++ ns -> tshape occ = [1%nat; K; B] ->
  density_grid c vol (Some occ) = Ok d ->
  (forall x, inb x ns -> ex_derive (fun r : R => lda_sum_at lib ts [r]) (tget d (0%nat :: x))) ->
  exists M (E : R -> R), hamiltonian_matrix (xc_density lib vg) (stack_bands B c e) pos ch d G kpts vol xt true = Ok M /\
    (forall t, total_energy (xc_density lib vg) (turn h c e t) pos ch G kpts vol (Some occ) false xt = Ok (E t)) /\
    is_derive E 0 (sumR (seq 0 K) (fun k => sumR (seq 0 B) (fun b => picked h occ k b * (2 * Re (tget M [0%nat; k; (B + b)%nat; b]))))).
Proof.
  intros ns K ts Hg Hl HA Hv HG Hp Sc So Hd Hex. destruct (g_vectors_dual A n1 n2 n3 G HA HG) as (SG & _). fold ns in SG.
  destruct (density_eq c vol occ 1 K B n1 n2 n3 Sc So) as (d' & Ed' & Sd & Gd). rewrite Hd in Ed'. injection Ed' as <-. fold ns in Sd, Gd.
  assert (Gd' : forall x, inb x ns -> tget d (0%nat :: x) = rho ns K B vol c occ x) by (intros x Hx; apply Gd; [lia|exact Hx]).
  set (f1 := fun x => sumR (seq 0 K) (fun k => sumR (seq 0 B) (fun b => picked h occ k b * (2 * Re (Cconj (psi ns vol e [0%nat; k; b] x) * psi ns vol c [0%nat; k; b] x)%C)))).
  set (f2 := fun x => sumR (seq 0 K) (fun k => sumR (seq 0 B) (fun b => picked h occ k b * (Cnorm2 (psi ns vol e [0%nat; k; b] x) - Cnorm2 (psi ns vol c [0%nat; k; b] x))))).
  destruct (energy_turn lib vg xt A pos ch G vol d n1 n2 n3 f1 f2 Hg Hl HA Hv HG Hp Sd Hex) as (v & Ev & Sv & DP). fold ns ts in DP. cbv zeta in DP.
  pose proof (stack_shape B c e 1 K B ns Sc) as Ss.
  destruct (wave_grid_eq (stack_bands B c e) vol [1%nat; K; (B + B)%nat] ns eq_refl Ss) as (w & Ew & _ & Gw).
  destruct (one_channel (xc_density lib vg) (stack_bands B c e) pos ch d G kpts vol xt true 1 (B + B) n1 n2 n3 v w Ss SG Ev Sv Ew) as (M & HM & _ & VM). fold ns K in VM.
  exists M. eexists. split; [exact HM|]. split.
  { intros t. apply (total_formula lib vg xt A (turn h c e t) pos ch G kpts vol occ B n1 n2 n3 Hg Hl HA Hv HG Hp Sc So). }
  fold ns K ts.
  set (l := sumR (seq 0 K) (fun k => sumR (seq 0 B) (fun b => picked h occ k b *
     sumR (indices ns) (fun g => norm2 (vadd (tget G g) (nth k kpts vzero)) * Re (Cconj (tget e ([0%nat; k; b] ++ g)) * tget c ([0%nat; k; b] ++ g))%C)))).
  set (q := sumR (seq 0 K) (fun k => sumR (seq 0 B) (fun b => picked h occ k b * (ekin G kpts e ns 0 k b - ekin G kpts c ns 0 k b))) / 2).
  assert (DL : is_derive (fun t : R => fT ns G kpts B c occ + sin t * cos t * l + sin t * sin t * q) 0 l) by (auto_derive; [exact I|]; rewrite sin_0, cos_0; ring).
  pose proof (derive_plus _ _ 0 _ _ DL DP) as DT.
  match type of DT with is_derive _ _ ?z => match goal with |- is_derive _ _ ?y => assert (Ez : y = z) end end.
  { unfold f1. rewrite sum_out. unfold l. rewrite <- sumR_scal, <- sumR_plus. apply sumR_ext. intros k Hk. rewrite <- sumR_scal, <- sumR_plus. apply sumR_ext. intros b Hb. apply in_seq in Hk, Hb.
    destruct (VM 0%nat k (B + b)%nat b) as [-> _]; [lia|lia|lia|lia|]. unfold h_element. rewrite Re_plus, Re_kinetic, Re_potential.
    rewrite (sumR_ext (indices ns) (fun g => norm2 _ * _) (fun g => norm2 (vadd (tget G g) (nth k kpts vzero)) * Re (Cconj (tget e ([0%nat; k; b] ++ g)) * tget c ([0%nat; k; b] ++ g))%C))
      by (intros g _; rewrite stack_second, stack_first by lia; reflexivity).
    rewrite (sumR_ext (indices ns) (fun x => Re (tget v (0%nat :: x)) * (2 * _)) (fun x => 2 * (Re (tget v (0%nat :: x)) * Re (Cconj (tget w ([0%nat; k; (B + b)%nat] ++ x)) * tget w ([0%nat; k; b] ++ x))%C))).
    - rewrite sumR_scal. set (iN := vol / INR (nprod ns)). field.
    - intros x _. rewrite !Gw by reflexivity.
      rewrite (psi_same ns vol (stack_bands B c e) e [0%nat; k; (B + b)%nat] [0%nat; k; b] x) by (intros g; apply stack_second).
      rewrite (psi_same ns vol (stack_bands B c e) c [0%nat; k; b] [0%nat; k; b] x) by (intros g; apply stack_first; lia). ring. }
  rewrite Ez. revert DT. apply is_derive_ext. intros t. rewrite fT_turn. fold K. fold l q.
  assert (Er : forall x, inb x ns -> rho ns K B vol (turn h c e t) occ x =
    tget d (0%nat :: x) + sin t * cos t * f1 x + sin t * sin t * f2 x) by (intros x Hx; rewrite rho_turn, Gd' by exact Hx; reflexivity).
  rewrite (fext_ext _ _ _ _ _ _ Er), (fhar_ext _ _ _ _ _ Er), (fxc_ext _ _ _ _ _ Er). match goal with |- ?a = ?b => change (@eq R a b) end. cbv beta. rewrite <- !Rplus_assoc. reflexivity.
Qed.
