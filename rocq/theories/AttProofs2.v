(** The total energy is a continuous function of the coefficients and occupations (C148). *)
From Coq Require Import Reals Lra Lia.
From Coquelicot Require Import Coquelicot.
From Coq Require Import Ascii String List Arith ZArith Bool.
From Verif Require Import Base Sums Tensor DFT GridModel GridProofs PadModel PadProofs Lin3 VecModel VecProofs OccModel OccSpec PwModel PwSpec PwProofs BraketModel XcModel XcSpec XcProofs XcProofs3 GgaProofs2 EnergyModel EnergySpec EnergyProofs ExtProofs TotalProofs SpinProofs
  BoundSpec BoundProofs ReachSpec AttSpec AttProofs.
Import ListNotations.
Local Open Scope R_scope.

Definition rho (sp K B : nat) (ns : list nat) (vol : R) (c : tensor C) (occ : tensor R) : tensor R :=
  mkT (sp :: ns) (fun i => sumR (seq 0 K) (fun k => sumR (seq 0 B) (fun b => tget occ [hd 0%nat i; k; b] * Cnorm2 (psi ns vol c [hd 0%nat i; k; b] (tl i))))).
Definition rho_q (sp : nat) (ns : list nat) (d : tensor R) (x : list nat) : C := sumC (seq 0 sp) (fun s => dft ns (fun y => RtoC (tget d (s :: y))) x).
Definition energy_value (lib : xclib) (xt : string) (sp B : nat) (ns : list nat) (G : tensor v3) (kpts pos : list v3) (ch : list R) (vol : R) (c : tensor C) (occ : tensor R) : R :=
  let d := rho sp (length kpts) B ns vol c occ in let N := INR (nprod ns) in
  sumR (seq 0 sp) (fun s => sumR (seq 0 (length kpts)) (fun k => sumR (seq 0 B) (fun b => ekin G kpts c ns s k b * tget occ [s; k; b]))) / 2
  + - (4 * PI / N) * Re (sumC (indices ns) (fun x => if is_origin x then RtoC 0 else Cconj (structure_factor ch pos (tget G x)) * rho_q sp ns d x * RtoC (/ (norm2 (tget G x) + / 10 ^ 10)))%C)
  + 2 * PI * vol / (N * N) * sumR (indices ns) (fun x => if is_origin x then 0 else Cnorm2 (rho_q sp ns d x) / norm2 (tget G x))
  + vol / N * sumR (indices ns) (fun x => point_xc lib (split_on "+" xt) (contains "gga" xt) (sp =? 2)%nat (dens_at sp d x) (if contains "gga" xt then sig_at ns G sp d x else []) * sumR (seq 0 sp) (fun s => tget d (s :: x))).

Lemma energy_formula lib vg xt A c pos ch G kpts vol occ sp B n1 n2 n3 : let ns := [n1; n2; n3] in let K := length kpts in
  m3det A <> 0 -> g_vectors A ns = Ok G -> 0 < vol -> (sp = 1 \/ sp = 2)%nat -> length ch = length pos -> tshape c = [sp; K; B] ++ ns -> tshape occ = [sp; K; B] ->
  (forall t, In t (split_on "+" xt) -> pick lib t (sp =? 2)%nat <> None) ->
  total_energy (xc_density lib vg) c pos ch G kpts vol (Some occ) false xt = Ok (energy_value lib xt sp B ns G kpts pos ch vol c occ).
Proof.
  intros ns K HA HG Hv Hs Hl Sc So HP. destruct (g_vectors_dual A n1 n2 n3 G HA HG) as (SG & _). fold ns in SG.
  assert (Hn : Forall (fun n => (0 < n)%nat) ns) by (destruct (proj1 (g_vectors_ok A n1 n2 n3) (ex_intro _ G HG)) as (? & ? & ?); repeat constructor; lia).
  assert (HN : 0 < INR (nprod ns)) by (apply lt_0_INR, nprod_pos, Hn). assert (Hv0 : vol <> 0) by lra.
  unfold total_energy, total_energy_split.
  destruct (wave_grid_eq c vol [sp; K; B] ns eq_refl Sc) as (w & Ew & _). rewrite Ew. cbn [bind].
  destruct (density_eq c vol occ sp K B n1 n2 n3 Sc So) as (d0 & E0 & S0 & G0). destruct (wave_to_density_eq c vol occ sp K B n1 n2 n3 w d0 Sc So Ew E0) as (d & Ed & Eq).
  unfold wave_to_density_reciprocal. rewrite Ed. cbn [bind]. fold ns in S0. assert (Sd : tshape d = sp :: ns) by (rewrite (proj1 Eq); exact S0).
  assert (Gd : forall s x, (s < sp)%nat -> inb x ns -> tget d (s :: x) = tget (rho sp K B ns vol c occ) (s :: x)).
  { intros s x Hx Hi. rewrite (proj2 Eq) by (rewrite Sd; constructor; [exact Hx|exact Hi]). rewrite G0 by assumption. reflexivity. }
  destruct (fftn3_eq (tmap RtoC d) [sp] ns eq_refl Sd) as (D & -> & SD & GD). cbn [bind].
  destruct (kinetic_some G kpts c occ sp B n1 n2 n3 SG Sc So) as (t & -> & _ & Gt). cbn [bind].
  rewrite (e_external_eq D pos ch G vol sp n1 n2 n3 SD SG Hl Hv0 HN). cbn [bind].
  rewrite (proj1 (hartree_energy A n1 n2 n3 G D sp vol false HA HG SD Hv)). cbn [bind].
  rewrite (e_xc_point lib vg xt d G vol sp n1 n2 n3 Hs Sd SG HP). cbn [bind]. fold ns. rewrite coulomb_sum_alt. unfold energy_value. fold K.
  set (r := rho sp K B ns vol c occ) in *. cbv zeta.
  assert (Q : forall x, spin_sum D x = rho_q sp ns r x).
  { intros x. unfold spin_sum, rho_q. rewrite SD. cbn [app hd]. apply sumC_ext. intros s Hs'. apply in_seq in Hs'. change (s :: x) with ([s] ++ x). rewrite GD by reflexivity. apply dft_ext. intros y Hy. cbn [app tmap tget]. rewrite Gd by (lia || exact Hy). reflexivity. }
  f_equal. f_equal; [f_equal; [f_equal|]|].
  - exact Gt.
  - f_equal. f_equal. apply sumC_ext. intros x _. rewrite Q. reflexivity.
  - f_equal. apply sumR_ext. intros x _. rewrite Q. reflexivity.
  - f_equal. apply sumR_ext. intros x Hx. apply in_indices in Hx. f_equal; [|apply sumR_ext; intros s Hs'; apply in_seq in Hs'; apply Gd; [lia|exact Hx]]. f_equal.
    + unfold dens_at. apply map_ext_in. intros s Hs'. apply in_seq in Hs'. apply Gd; [lia|exact Hx].
    + destruct (contains "gga" xt); [|reflexivity]. unfold sig_at. cbv zeta. destruct Hs as [-> | ->]; cbn [Nat.eqb].
      * f_equal. apply gprod_ext; intros y Hy; apply Gd; (lia || exact Hy).
      * f_equal; [|f_equal; [|f_equal]]; apply gprod_ext; intros y Hy; apply Gd; (lia || exact Hy).
Qed.

Section Continuity.
  Context {X : Type} (L : list X) (S : (X -> R) -> Prop) (x : X -> R).
  Local Notation cts := (cts L S x). Local Notation ctsC := (ctsC L S x).
  Lemma ctsC_dft ns f q : (forall y, inb y ns -> ctsC (f y)) -> ctsC (fun z => dft ns (fun y => f y z) q).
  Proof. intros H. unfold dft. apply (ctsC_sum L S x (indices ns) (fun y z => (f y z * cis (- (2 * PI * phase ns (zs q) (zs y))))%C)). intros y Hy. apply in_indices in Hy. apply ctsC_mult; [apply H, Hy|apply ctsC_const]. Qed.
  Lemma ctsC_idft ns f q : (forall y, inb y ns -> ctsC (f y)) -> ctsC (fun z => idft ns (fun y => f y z) q).
  Proof. intros H. unfold idft. apply ctsC_mult; [apply ctsC_const|]. apply (ctsC_sum L S x (indices ns) (fun y z => (f y z * cis (2 * PI * phase ns (zs y) (zs q)))%C)). intros y Hy. apply in_indices in Hy. apply ctsC_mult; [apply H, Hy|apply ctsC_const]. Qed.
  Lemma cts_gprod ns G f g q : (forall y, inb y ns -> cts (f y)) -> (forall y, inb y ns -> cts (g y)) -> cts (fun z => gprod ns G (fun y => f y z) (fun y => g y z) q).
  Proof.
    intros Hf Hg. assert (K : forall u a, (forall y, inb y ns -> cts (u y)) -> ctsC (fun z => gradc ns G (fun y => u y z) a q)).
    { intros u a Hu. unfold gradc, grad_component. apply (ctsC_idft ns (fun g z => (dft ns (fun y => RtoC (u y z)) g * Ci * RtoC (vcomp a (tget G g)))%C)). intros y Hy. apply ctsC_mult; [|apply ctsC_const]. apply ctsC_mult; [|apply ctsC_const].
      apply (ctsC_dft ns (fun y z => RtoC (u y z))). intros y' Hy'. apply ctsC_R, Hu, Hy'. }
    unfold gprod. apply (ctsC_sum L S x (seq 0 3) (fun a z => (Cconj (gradc ns G (fun y => f y z) a q) * gradc ns G (fun y => g y z) a q)%C)). intros a _. apply ctsC_mult; [apply ctsC_conj|]; apply K; assumption.
  Qed.
  (** A continuous functional of continuous densities. *)
  Lemma near_list (l : list ((X -> R) -> R)) e : 0 < e -> Forall cts l -> around L S x (fun y => Forall2 (fun a b => Rabs (b - a) < e) (map (fun f => f x) l) (map (fun f => f y) l)).
  Proof.
    intros He. induction 1 as [|f l Hf _ IH]; [apply filter_forall; intros; constructor|]. destruct (proj1 (cts_iff L S x f) Hf e He) as (d & Hd & Hn). generalize (filter_and _ _ (ex_intro _ d (conj Hd Hn)) IH).
    apply filter_imp. intros y (A & B). cbn [map]. constructor; assumption.
  Qed.
  Lemma cts_functional (F : list R -> list R -> R) (v sg : list ((X -> R) -> R)) : Forall cts v -> Forall cts sg -> S x -> (forall y, S y -> Forall (fun f => 0 <= f y) v) ->
    (forall eps, 0 < eps -> exists d, 0 < d /\ forall v' sg', Forall (Rle 0) v' -> Forall2 (fun a b => Rabs (b - a) < d) (map (fun f => f x) v) v' -> Forall2 (fun a b => Rabs (b - a) < d) (map (fun f => f x) sg) sg' ->
      Rabs (F v' sg' - F (map (fun f => f x) v) (map (fun f => f x) sg)) < eps) ->
    cts (fun y => F (map (fun f => f y) v) (map (fun f => f y) sg)).
  Proof.
    intros Hv Hsg _ Hp HF. apply cts_iff. intros eps He. destruct (HF eps He) as (d & Hd & H). destruct (near_list v d Hd Hv) as (d1 & P1 & N1). destruct (near_list sg d Hd Hsg) as (d2 & P2 & N2).
    exists (Rmin d1 d2). split; [apply Rmin_pos; assumption|]. intros y Sy Ny. apply H.
    - apply Forall_map. apply Hp, Sy.
    - apply N1; [exact Sy|]. exact (near_le L _ _ _ _ (Rmin_l d1 d2) Ny).
    - apply N2; [exact Sy|]. exact (near_le L _ _ _ _ (Rmin_r d1 d2) Ny).
  Qed.
End Continuity.
