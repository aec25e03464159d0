(** The Hamiltonian matrix as the derivative of the total energy. *)
From Coq Require Import Reals Lra Lia.
From Coquelicot Require Import Coquelicot.
From Coq Require Import Ascii String List Arith ZArith Bool.
From Verif Require Import Base Sums Tensor DFT GridModel GridProofs PadModel PadProofs Lin3 VecModel VecProofs OccModel PwModel PwSpec PwProofs PwGrad BraketModel BraketSpec BraketProofs XcModel XcSpec EnergyModel EnergySpec EnergyProofs ExtProofs TotalProofs RespProofs HamModel HamSpec XcProofs XcProofs2 XcProofs3 HamProofs HamProofs2 HamProofs3.
Import ListNotations.
Local Open Scope R_scope.

Definition rho (ns : list nat) (K B : nat) (vol : R) (c : tensor C) (occ : tensor R) (x : list nat) : R :=
  sumR (seq 0 K) (fun k => sumR (seq 0 B) (fun b => tget occ [0%nat; k; b] * Cnorm2 (psi ns vol c [0%nat; k; b] x))).
Definition fT (ns : list nat) (G : tensor v3) (kpts : list v3) (B : nat) (c : tensor C) (occ : tensor R) : R :=
  sumR (seq 0 (length kpts)) (fun k => sumR (seq 0 B) (fun b => ekin G kpts c ns 0 k b * tget occ [0%nat; k; b])) / 2.
Definition fhat (ns : list nat) (f : list nat -> R) : list nat -> C := dft ns (fun x => RtoC (f x)).
Definition fext (ns : list nat) (G : tensor v3) (pos : list v3) (ch : list R) (f : list nat -> R) : R :=
  - (4 * PI / INR (nprod ns)) * Re (sumC (indices ns) (fun x => if is_origin x then RtoC 0 else
        Cconj (structure_factor ch pos (tget G x)) * fhat ns f x * RtoC (/ (norm2 (tget G x) + / 10 ^ 10)))%C).
Definition fhar (ns : list nat) (G : tensor v3) (vol : R) (f : list nat -> R) : R :=
  2 * PI * vol / (INR (nprod ns) * INR (nprod ns)) * sumR (indices ns) (fun x => if is_origin x then 0 else Cnorm2 (fhat ns f x) / norm2 (tget G x)).
Definition fharb (ns : list nat) (G : tensor v3) (vol : R) (f g : list nat -> R) : R :=
  4 * PI * vol / (INR (nprod ns) * INR (nprod ns)) * sumR (indices ns) (fun x => if is_origin x then 0 else Re (Cconj (fhat ns f x) * fhat ns g x)%C / norm2 (tget G x)).
Definition fxc (ns : list nat) (vol : R) (eps : R -> R) (f : list nat -> R) : R :=
  vol / INR (nprod ns) * sumR (indices ns) (fun x => f x * eps (f x)).

Lemma spin_sum_one D d n1 n2 n3 x : let ns := [n1; n2; n3] in tshape D = 1%nat :: ns ->
  (forall s g, tget D (s :: g) = dft ns (fun y => RtoC (tget d (s :: y))) g) -> spin_sum D x = fhat ns (fun y => tget d (0%nat :: y)) x.
Proof. intros ns SD GD. unfold spin_sum. rewrite SD. cbn [hd seq sumC]. rewrite Cplus_0_r, GD. reflexivity. Qed.

Lemma fhat_ext ns f g x : (forall y, inb y ns -> f y = g y) -> fhat ns f x = fhat ns g x.
Proof. intros H. apply dft_ext. intros y Hy. rewrite H by exact Hy. reflexivity. Qed.

Lemma total_formula lib vg xt A c pos ch G kpts vol occ B n1 n2 n3 : let ns := [n1; n2; n3] in let K := length kpts in let ts := split_on "+" xt in
  contains "gga" xt = false -> (forall t b, In t ts -> lib t b <> None) ->
  m3det A <> 0 -> 0 < vol -> g_vectors A ns = Ok G -> length ch = length pos -> tshape c = [1%nat; K; B] ++ ns -> tshape occ = [1%nat; K; B] ->
  total_energy (xc_density lib vg) c pos ch G kpts vol (Some occ) false xt =
  Ok (fT ns G kpts B c occ + fext ns G pos ch (rho ns K B vol c occ) + fhar ns G vol (rho ns K B vol c occ) + fxc ns vol (fun r => lda_sum_at lib ts [r]) (rho ns K B vol c occ)).
Proof.
  intros ns K ts Hg Hl HA Hv HG Hp Sc So. destruct (g_vectors_dual A n1 n2 n3 G HA HG) as (SG & _). fold ns in SG.
  assert (Hn : Forall (fun n => (0 < n)%nat) ns) by (destruct (proj1 (g_vectors_ok A n1 n2 n3) (ex_intro _ G HG)) as (? & ? & ?); repeat constructor; lia).
  assert (HN : 0 < INR (nprod ns)) by (apply lt_0_INR, nprod_pos, Hn).
  unfold total_energy, total_energy_split. destruct (wave_grid_eq c vol [1%nat; K; B] ns eq_refl Sc) as (w & Ew & _). rewrite Ew. cbn [bind].
  destruct (density_eq c vol occ 1 K B n1 n2 n3 Sc So) as (d0 & E0 & S0 & G0).
  destruct (wave_to_density_eq c vol occ 1 K B n1 n2 n3 w d0 Sc So Ew E0) as (d & Ed & Eq).
  unfold wave_to_density_reciprocal. rewrite Ed. cbn [bind]. assert (Sd : tshape d = 1%nat :: ns) by (rewrite (proj1 Eq); exact S0).
  assert (Gd : forall x, inb x ns -> tget d (0%nat :: x) = rho ns K B vol c occ x).
  { intros x Hx. rewrite (proj2 Eq) by (rewrite Sd; constructor; [lia|exact Hx]). apply (G0 0%nat x); [lia|exact Hx]. }
  destruct (fftn3_eq (tmap RtoC d) [1%nat] ns eq_refl Sd) as (D & -> & SD & GD). cbn [bind].
  destruct (kinetic_some G kpts c occ 1 B n1 n2 n3 SG Sc So) as (t & -> & _ & Gt). cbn [bind].
  rewrite (e_external_eq D pos ch G vol 1 n1 n2 n3 SD SG Hp ltac:(lra) HN). cbn [bind].
  rewrite (e_hartree_eq D G vol false 1 n1 n2 n3 SD SG (fun x => g_nonzero A n1 n2 n3 G x HA HG)). cbn [bind].
  rewrite (e_xc_lda_unpol lib vg xt d G vol n1 n2 n3 Hg (fun t H => Hl t false H) Sd). cbn [bind]. rewrite Gt. cbn [seq sumR].
  assert (Gs : forall x, spin_sum D x = fhat ns (rho ns K B vol c occ) x).
  { intros x. rewrite (spin_sum_one D d n1 n2 n3 x SD); [apply fhat_ext, Gd|]. intros s g. change (s :: g) with ([s] ++ g). rewrite GD by reflexivity. reflexivity. }
  f_equal. f_equal; [f_equal; [f_equal|]|].
  - unfold fT. rewrite Rplus_0_r. reflexivity.
  - unfold fext. fold ns. f_equal. f_equal. apply sumC_ext. intros x _. rewrite Gs. reflexivity.
  - unfold fhar. rewrite coulomb_sum_alt. fold ns. cbn [hfac]. f_equal. apply sumR_ext. intros x _. rewrite Gs. reflexivity.
  - unfold fxc. fold ns ts. f_equal. apply sumR_ext. intros x Hx. apply in_indices in Hx. rewrite Gd by exact Hx. reflexivity.
Qed.

Lemma fhat_path ns f0 f1 f2 t x : fhat ns (fun y => f0 y + t * f1 y + t * t * f2 y) x = (fhat ns f0 x + RtoC t * fhat ns f1 x + RtoC (t * t) * fhat ns f2 x)%C.
Proof.
  unfold fhat. rewrite <- !dft_scal, <- !dft_plus. apply dft_ext. intros y _. rewrite !RtoC_plus, !RtoC_mult. ring.
Qed.

Lemma fext_path ns G pos ch f0 f1 f2 t : fext ns G pos ch (fun y => f0 y + t * f1 y + t * t * f2 y) = fext ns G pos ch f0 + t * fext ns G pos ch f1 + t * t * fext ns G pos ch f2.
Proof.
  unfold fext. rewrite !Re_sumC. set (a := - (4 * PI / INR (nprod ns))).
  set (X := fun (f : list nat -> R) x => Re (if is_origin x then RtoC 0 else Cconj (structure_factor ch pos (tget G x)) * fhat ns f x * RtoC (/ (norm2 (tget G x) + / 10 ^ 10)))%C).
  rewrite (sumR_ext (indices ns) _ (fun x => X f0 x + (t * X f1 x + t * t * X f2 x))).
  - rewrite !sumR_plus, !sumR_scal. unfold X. ring.
  - intros x _. unfold X. destruct (is_origin x); [cbn; ring|]. rewrite fhat_path. unfold Re, Cconj, Cmult, Cplus, RtoC. cbn [fst snd]. ring.
Qed.

Lemma fhar_path ns G vol f0 f1 f2 : exists a3 a4, forall t, fhar ns G vol (fun y => f0 y + t * f1 y + t * t * f2 y) =
  fhar ns G vol f0 + t * fharb ns G vol f0 f1 + t * t * (fhar ns G vol f1 + fharb ns G vol f0 f2) + t * t * t * a3 + t * t * t * t * a4.
Proof.
  exists (fharb ns G vol f1 f2), (fhar ns G vol f2). intros t. unfold fhar, fharb. set (w := vol / (INR (nprod ns) * INR (nprod ns))).
  replace (2 * PI * vol / (INR (nprod ns) * INR (nprod ns))) with (2 * PI * w) by (unfold w, Rdiv; ring).
  replace (4 * PI * vol / (INR (nprod ns) * INR (nprod ns))) with (4 * PI * w) by (unfold w, Rdiv; ring).
  rewrite (sumR_ext (indices ns) _ (fun x => (if is_origin x then 0 else Cnorm2 (fhat ns f0 x) / norm2 (tget G x)) +
     (2 * t * (if is_origin x then 0 else Re (Cconj (fhat ns f0 x) * fhat ns f1 x)%C / norm2 (tget G x)) +
     (t * t * (if is_origin x then 0 else Cnorm2 (fhat ns f1 x) / norm2 (tget G x)) +
     (2 * t * t * (if is_origin x then 0 else Re (Cconj (fhat ns f0 x) * fhat ns f2 x)%C / norm2 (tget G x)) +
     (2 * t * t * t * (if is_origin x then 0 else Re (Cconj (fhat ns f1 x) * fhat ns f2 x)%C / norm2 (tget G x)) +
      t * t * t * t * (if is_origin x then 0 else Cnorm2 (fhat ns f2 x) / norm2 (tget G x)))))))).
  - rewrite !sumR_plus, !sumR_scal. ring.
  - intros x _. destruct (is_origin x); [ring|]. rewrite fhat_path. unfold Cnorm2, Re, Cconj, Cplus, Cmult, RtoC, Rdiv. cbn [fst snd]. ring.
Qed.

(** A reciprocal potential against a real function: the sum over the grid. *)
Lemma recip_to_real ns (V : list nat -> C) (f : list nat -> R) : Forall (fun n => (0 < n)%nat) ns ->
  / INR (nprod ns) * sumR (indices ns) (fun g => Re (Cconj (V g) * fhat ns f g)%C) = sumR (indices ns) (fun x => Re (idft ns V x) * f x).
Proof.
  intros Hn. assert (HN : INR (nprod ns) <> 0) by (apply not_0_INR; pose proof (nprod_pos ns Hn); lia).
  pose proof (parseval ns (idft ns V) (fun x => RtoC (f x)) Hn) as P. apply (f_equal Re) in P. rewrite Re_scal_R, !Re_sumC in P.
  transitivity (/ INR (nprod ns) * sumR (indices ns) (fun k => Re (Cconj (dft ns (idft ns V) k) * dft ns (fun x => RtoC (f x)) k)%C)).
  - f_equal. apply sumR_ext. intros g Hg. apply in_indices in Hg. rewrite dft_idft by exact Hg. reflexivity.
  - rewrite P, <- Rmult_assoc, Rinv_l, Rmult_1_l by exact HN. apply sumR_ext. intros x _. unfold Re, Cconj, Cmult, RtoC. cbn [fst snd]. ring.
Qed.

Lemma derive_plus (f g : R -> R) (x a b : R) : is_derive f x a -> is_derive g x b -> is_derive (fun t : R => f t + g t) x (a + b).
Proof. intros F H. apply (is_derive_plus f g x a b F H). Qed.

(** Kohn-Sham potential and the derivative along a quadratic path of densities. *)
Lemma energy_path lib vg xt A pos ch G vol d n1 n2 n3 (f1 f2 : list nat -> R) : let ns := [n1; n2; n3] in let ts := split_on "+" xt in
  contains "gga" xt = false -> (forall t b, In t ts -> lib t b <> None) ->
  m3det A <> 0 -> 0 < vol -> g_vectors A ns = Ok G -> length ch = length pos -> tshape d = 1%nat :: ns ->
  (forall x, inb x ns -> ex_derive (fun r : R => lda_sum_at lib ts [r]) (tget d (0%nat :: x))) ->
  exists v, effective_sum (xc_density lib vg) d pos ch G vol xt true = Ok v /\ tshape v = 1%nat :: ns /\
    let f t x := tget d (0%nat :: x) + t * f1 x + t * t * f2 x in
    is_derive (fun t : R => fext ns G pos ch (f t) + fhar ns G vol (f t) + fxc ns vol (fun r => lda_sum_at lib ts [r]) (f t)) 0
      (vol / INR (nprod ns) * sumR (indices ns) (fun x => Re (tget v (0%nat :: x)) * f1 x)).
Proof.
  intros ns ts Hg Hl HA Hv HG Hp Sd Hex. destruct (g_vectors_dual A n1 n2 n3 G HA HG) as (SG & _). fold ns in SG.
  assert (Hn : Forall (fun n => (0 < n)%nat) ns) by (destruct (proj1 (g_vectors_ok A n1 n2 n3) (ex_intro _ G HG)) as (? & ? & ?); repeat constructor; lia).
  assert (HN : 0 < INR (nprod ns)) by (apply lt_0_INR, nprod_pos, Hn).
  destruct (vxc_lda_unpol (lda_sum_at lib ts) d ns Sd Hex) as (vx & Evx & Svx & Hvx).
  destruct (lda_sum_unpol lib ts d ns Sd (fun t H => Hl t false H)) as (g & Eg & _).
  assert (Ex : xc_density lib vg d G true xt = Ok (tmap RtoC vx)) by (unfold xc_density; rewrite Hg; fold ts; rewrite Eg; cbn [bind]; rewrite Evx; reflexivity).
  destruct (effective_parts (xc_density lib vg) d pos ch G vol xt true 1 n1 n2 n3 _ Sd SG Hp Ex) as (D & vhr & ver & vh & ve & ED & Ehr & _ & Eer & _ & Svh & Sve & SD & GD & Gvh & Gve & Es).
  destruct (effective_adds (xc_density lib vg) d pos ch G vol xt true 1 n1 n2 n3 _ Sd SG Hp Ex (or_introl Svx)) as (vh' & ve' & v & Es' & _ & _ & Ev & Cases).
  rewrite Es in Es'. injection Es' as <- <-. exists v. split; [exact Ev|].
  destruct Cases as [(_ & Sv & Gv)|(S & _)]; [|exfalso; apply (f_equal (@length nat)) in S; cbn in S; rewrite Svx in S; cbn in S; lia].
  split; [exact Sv|]. intros f.
  set (f0 := fun x => tget d (0%nat :: x)).
  assert (DH : fharb ns G vol f0 f1 = vol / INR (nprod ns) * sumR (indices ns) (fun x => Re (tget vh x) * f1 x)).
  { destruct (hartree_eq D G true 1 n1 n2 n3 SD SG (fun x => g_nonzero A n1 n2 n3 G x HA HG)) as (vr & Evr & _ & Gvr). rewrite Ehr in Evr. injection Evr as <-.
    rewrite (sumR_ext (indices ns) _ (fun x => Re (idft ns (tget vhr) x) * f1 x)) by (intros x _; rewrite Gvh; reflexivity).
    rewrite <- recip_to_real by exact Hn. unfold fharb.
    match goal with |- _ * ?a = _ * (_ * ?b) => assert (Eab : b = 4 * PI * a); [|rewrite Eab; field; lra] end.
    rewrite <- sumR_scal. apply sumR_ext. intros x Hx. apply in_indices in Hx. rewrite Gvr by exact Hx.
    destruct (is_origin x); [unfold Re, Cconj, Cmult, RtoC; cbn [fst snd]; ring|].
    rewrite (spin_sum_one D d n1 n2 n3 x SD GD). fold ns. change (fun y : list nat => tget d (0%nat :: y)) with f0. destruct (fhat ns f0 x) as [p q]. destruct (fhat ns f1 x) as [u v']. unfold hfac, Rdiv, Re, Cconj, Cmult, RtoC. cbn [fst snd]. ring. }
  assert (DE : fext ns G pos ch f1 = vol / INR (nprod ns) * sumR (indices ns) (fun x => Re (tget ve x) * f1 x)).
  { destruct (external_eq pos ch G vol n1 n2 n3 SG Hp) as (vr & Evr & _ & Gvr). rewrite Eer in Evr. injection Evr as <-.
    rewrite (sumR_ext (indices ns) _ (fun x => Re (idft ns (tget ver) x) * f1 x)) by (intros x _; rewrite Gve; reflexivity).
    rewrite <- recip_to_real by exact Hn. unfold fext. rewrite Re_sumC, <- Rmult_assoc, <- !sumR_scal. apply sumR_ext. intros x _. rewrite Gvr.
    destruct (is_origin x); [unfold Re, Cconj, Cmult, RtoC; cbn [fst snd]; ring|]. fold ns. unfold ext_coef.
    assert (0 < norm2 (tget G x) + / 10 ^ 10) by (pose proof (norm2_ge0 (tget G x)); assert (0 < / 10 ^ 10) by (apply Rinv_0_lt_compat, pow_lt; lra); lra).
    set (q := norm2 (tget G x) + / 10 ^ 10) in *. unfold Re, Cconj, Cmult, RtoC. cbn [fst snd]. field. lra. }
  assert (DX : is_derive (fun t : R => fxc ns vol (fun r => lda_sum_at lib ts [r]) (f t)) 0 (vol / INR (nprod ns) * sumR (indices ns) (fun x => tget vx (0%nat :: x) * f1 x))).
  { unfold fxc. apply (is_derive_scal (fun t => sumR (indices ns) (fun x => f t x * lda_sum_at lib ts [f t x])) 0 (vol / INR (nprod ns))).
    apply (is_derive_sumR (indices ns) (fun x t => f t x * lda_sum_at lib ts [f t x]) (fun x => tget vx (0%nat :: x) * f1 x)).
    intros x Hx. apply in_indices in Hx. pose proof (Hvx x Hx) as Dx. unfold f. set (a := tget d (0%nat :: x)) in *. rewrite Rmult_comm.
    apply (is_derive_comp (fun r : R => r * lda_sum_at lib ts [r]) (fun t => a + t * f1 x + t * t * f2 x) 0 (tget vx (0%nat :: x)) (f1 x)).
    - rewrite !Rmult_0_l, !Rplus_0_r. exact Dx.
    - auto_derive; [exact I|ring]. }
  destruct (fhar_path ns G vol f0 f1 f2) as (a3 & a4 & PH).
  assert (DP : is_derive (fun t : R => fext ns G pos ch (f t) + fhar ns G vol (f t)) 0 (fext ns G pos ch f1 + fharb ns G vol f0 f1)).
  { apply (is_derive_ext (fun t : R => (fext ns G pos ch f0 + t * fext ns G pos ch f1 + t * t * fext ns G pos ch f2) +
      (fhar ns G vol f0 + t * fharb ns G vol f0 f1 + t * t * (fhar ns G vol f1 + fharb ns G vol f0 f2) + t * t * t * a3 + t * t * t * t * a4))).
    - intros t. rewrite <- PH, <- fext_path. reflexivity.
    - auto_derive; [exact I|ring]. }
  pose proof (derive_plus _ _ 0 _ _ DP DX) as DT.
  replace (vol / INR (nprod ns) * sumR (indices ns) (fun x => Re (tget v (0%nat :: x)) * f1 x)) with
    (fext ns G pos ch f1 + fharb ns G vol f0 f1 + vol / INR (nprod ns) * sumR (indices ns) (fun x => tget vx (0%nat :: x) * f1 x)); [exact DT|].
  rewrite DE, DH, <- !Rmult_plus_distr_l, <- !sumR_plus. f_equal. apply sumR_ext. intros x Hx. apply in_indices in Hx. rewrite Gv by (try exact Hx; lia).
  unfold Re, tmap, RtoC, Cplus. cbn [tget fst snd]. ring.
Qed.

Lemma stack_shape B c e s k b ns : tshape c = [s; k; b] ++ ns -> tshape (stack_bands B c e) = [s; k; (B + B)%nat] ++ ns.
Proof. intros H. unfold stack_bands. cbn [tshape]. rewrite H. reflexivity. Qed.
Lemma stack_first B c e s k b g : (b < B)%nat -> tget (stack_bands B c e) ([s; k; b] ++ g) = tget c ([s; k; b] ++ g).
Proof. intros H. unfold stack_bands. cbn [tget app nth]. apply Nat.ltb_lt in H. rewrite H. reflexivity. Qed.
Lemma stack_second B c e s k b g : tget (stack_bands B c e) ([s; k; (B + b)%nat] ++ g) = tget e ([s; k; b] ++ g).
Proof.
  unfold stack_bands. cbn [tget app nth firstn skipn]. rewrite (proj2 (Nat.ltb_ge (B + b) B)) by lia.
  replace (B + b - B)%nat with b by lia. reflexivity.
Qed.

Lemma psi_add ns vol c e t b x : psi ns vol (mkT (tshape c) (fun i => tget c i + RtoC t * tget e i)%C) b x = (psi ns vol c b x + RtoC t * psi ns vol e b x)%C.
Proof. unfold psi. cbn [tget]. rewrite idft_plus, idft_scal. ring. Qed.
Lemma psi_same ns vol c c' b b' x : (forall g, tget c (b ++ g) = tget c' (b' ++ g)) -> psi ns vol c b x = psi ns vol c' b' x.
Proof. intros H. unfold psi. f_equal. apply idft_ext. intros g _. apply H. Qed.
Lemma Cnorm2_line (a b : C) t : Cnorm2 (a + RtoC t * b)%C = Cnorm2 a + t * (2 * Re (Cconj b * a)%C) + t * t * Cnorm2 b.
Proof. destruct a, b. unfold Cnorm2, Re, Cconj, Cmult, Cplus, RtoC. cbn [fst snd]. ring. Qed.

Lemma rho_line ns K B vol c e occ t x : rho ns K B vol (mkT (tshape c) (fun i => tget c i + RtoC t * tget e i)%C) occ x =
  rho ns K B vol c occ x + t * sumR (seq 0 K) (fun k => sumR (seq 0 B) (fun b => tget occ [0%nat; k; b] * (2 * Re (Cconj (psi ns vol e [0%nat; k; b] x) * psi ns vol c [0%nat; k; b] x)%C)))
  + t * t * rho ns K B vol e occ x.
Proof.
  unfold rho. rewrite <- !sumR_scal, <- !sumR_plus. apply sumR_ext. intros k _. rewrite <- !sumR_scal, <- !sumR_plus. apply sumR_ext. intros b _.
  rewrite psi_add, Cnorm2_line. ring.
Qed.
Lemma fT_line ns G kpts B c e occ t : fT ns G kpts B (mkT (tshape c) (fun i => tget c i + RtoC t * tget e i)%C) occ =
  fT ns G kpts B c occ + t * sumR (seq 0 (length kpts)) (fun k => sumR (seq 0 B) (fun b => tget occ [0%nat; k; b] *
     sumR (indices ns) (fun g => norm2 (vadd (tget G g) (nth k kpts vzero)) * Re (Cconj (tget e ([0%nat; k; b] ++ g)) * tget c ([0%nat; k; b] ++ g))%C)))
  + t * t * fT ns G kpts B e occ.
Proof.
  unfold fT. match goal with |- ?a / 2 = ?b / 2 + t * ?l + t * t * (?c / 2) => assert (Ea : a = b + (2 * t * l + t * t * c)); [|rewrite Ea; field] end.
  rewrite <- !sumR_scal, <- !sumR_plus. apply sumR_ext. intros k _. rewrite <- !sumR_scal, <- !sumR_plus. apply sumR_ext. intros b _.
  unfold ekin. cbn [tget]. rewrite (sumR_ext (indices ns) _ (fun g => norm2 (vadd (tget G g) (nth k kpts vzero)) * Cnorm2 (tget c ([0%nat; k; b] ++ g)) +
    (2 * t * (norm2 (vadd (tget G g) (nth k kpts vzero)) * Re (Cconj (tget e ([0%nat; k; b] ++ g)) * tget c ([0%nat; k; b] ++ g))%C) +
     t * t * (norm2 (vadd (tget G g) (nth k kpts vzero)) * Cnorm2 (tget e ([0%nat; k; b] ++ g)))))).
  - rewrite !sumR_plus, !sumR_scal. ring.
  - intros g _. rewrite Cnorm2_line. ring.
Qed.

Lemma fext_ext ns G pos ch f g : (forall x, inb x ns -> f x = g x) -> fext ns G pos ch f = fext ns G pos ch g.
Proof. intros H. unfold fext. f_equal. f_equal. apply sumC_ext. intros x _. rewrite (fhat_ext ns f g x H). reflexivity. Qed.
Lemma fhar_ext ns G vol f g : (forall x, inb x ns -> f x = g x) -> fhar ns G vol f = fhar ns G vol g.
Proof. intros H. unfold fhar. f_equal. apply sumR_ext. intros x _. rewrite (fhat_ext ns f g x H). reflexivity. Qed.
Lemma fxc_ext ns vol eps f g : (forall x, inb x ns -> f x = g x) -> fxc ns vol eps f = fxc ns vol eps g.
Proof. intros H. unfold fxc. f_equal. apply sumR_ext. intros x Hx. apply in_indices in Hx. rewrite H by exact Hx. reflexivity. Qed.

Lemma derive_line3 a l q : is_derive (fun t : R => a + t * l + t * t * q) 0 l.
Proof. auto_derive; [exact I|ring]. Qed.

Lemma Re_kinetic ns c G q b b' : Re (kinetic_element ns c G q b b') = sumR (indices ns) (fun g => norm2 (vadd (tget G g) q) * Re (Cconj (tget c (b ++ g)) * tget c (b' ++ g))%C) / 2.
Proof.
  unfold kinetic_element. rewrite Re_sumC. unfold Rdiv. rewrite Rmult_comm, <- sumR_scal. apply sumR_ext. intros g _. cbv zeta. unfold norm2. set (z := dot _ _).
  unfold Re, Cconj, Cmult, RtoC, Rdiv. cbn [fst snd]. ring.
Qed.
Lemma Re_potential ns vol V w b b' : Re (potential_element ns vol V w b b') = vol / INR (nprod ns) * sumR (indices ns) (fun x => V x * Re (Cconj (tget w (b ++ x)) * tget w (b' ++ x))%C).
Proof.
  unfold potential_element. rewrite Re_scal_R, Re_sumC. f_equal. apply sumR_ext. intros x _. unfold Re, Cconj, Cmult, RtoC. cbn [fst snd]. ring.
Qed.

Lemma sum_out {X} (l : list X) K B (V : X -> R) (o : nat -> nat -> R) (r : nat -> nat -> X -> R) :
  sumR l (fun x => V x * sumR (seq 0 K) (fun k => sumR (seq 0 B) (fun b => o k b * r k b x))) =
  sumR (seq 0 K) (fun k => sumR (seq 0 B) (fun b => o k b * sumR l (fun x => V x * r k b x))).
Proof.
  rewrite (sumR_ext l _ (fun x => sumR (seq 0 K) (fun k => sumR (seq 0 B) (fun b => o k b * (V x * r k b x))))).
  - rewrite sumR_swap. apply sumR_ext. intros k _. rewrite sumR_swap. apply sumR_ext. intros b _. apply sumR_scal.
  - intros x _. rewrite <- sumR_scal. apply sumR_ext. intros k _. rewrite <- sumR_scal. apply sumR_ext. intros b _. ring.
Qed.

Lemma orbital_derivative lib vg xt A c e pos ch G kpts vol occ d B n1 n2 n3 : let ns := [n1; n2; n3] in let K := length kpts in let ts := split_on "+" xt in
  contains "gga" xt = false -> (forall t b, In t ts -> lib t b <> None) ->
  m3det A <> 0 -> 0 < vol -> g_vectors A ns = Ok G -> length ch = length pos -> tshape c = [1%nat; K; B] ++ ns -> tshape occ = [1%nat; K; B] ->
  density_grid c vol (Some occ) = Ok d ->
  (forall x, inb x ns -> ex_derive (fun r : R => lda_sum_at lib ts [r]) (tget d (0%nat :: x))) ->
  exists M (E : R -> R), hamiltonian_matrix (xc_density lib vg) (stack_bands B c e) pos ch d G kpts vol xt true = Ok M /\
    (forall t, total_energy (xc_density lib vg) (mkT (tshape c) (fun i => tget c i + RtoC t * tget e i)%C) pos ch G kpts vol (Some occ) false xt = Ok (E t)) /\
    is_derive E 0 (sumR (seq 0 K) (fun k => sumR (seq 0 B) (fun b => tget occ [0%nat; k; b] * (2 * Re (tget M [0%nat; k; (B + b)%nat; b]))))).
Proof.
  intros ns K ts Hg Hl HA Hv HG Hp Sc So Hd Hex. destruct (g_vectors_dual A n1 n2 n3 G HA HG) as (SG & _). fold ns in SG.
  destruct (density_eq c vol occ 1 K B n1 n2 n3 Sc So) as (d' & Ed' & Sd & Gd). rewrite Hd in Ed'. injection Ed' as <-. fold ns in Sd, Gd.
  assert (Gd' : forall x, inb x ns -> tget d (0%nat :: x) = rho ns K B vol c occ x) by (intros x Hx; apply Gd; [lia|exact Hx]).
  set (f1 := fun x => sumR (seq 0 K) (fun k => sumR (seq 0 B) (fun b => tget occ [0%nat; k; b] * (2 * Re (Cconj (psi ns vol e [0%nat; k; b] x) * psi ns vol c [0%nat; k; b] x)%C)))).
  destruct (energy_path lib vg xt A pos ch G vol d n1 n2 n3 f1 (rho ns K B vol e occ) Hg Hl HA Hv HG Hp Sd Hex) as (v & Ev & Sv & DP). fold ns ts in DP. cbv zeta in DP.
  pose proof (stack_shape B c e 1 K B ns Sc) as Ss.
  destruct (wave_grid_eq (stack_bands B c e) vol [1%nat; K; (B + B)%nat] ns eq_refl Ss) as (w & Ew & _ & Gw).
  destruct (one_channel (xc_density lib vg) (stack_bands B c e) pos ch d G kpts vol xt true 1 (B + B) n1 n2 n3 v w Ss SG Ev Sv Ew) as (M & HM & _ & VM). fold ns K in VM.
  exists M. eexists. split; [exact HM|]. split.
  { intros t. apply (total_formula lib vg xt A (mkT (tshape c) (fun i => tget c i + RtoC t * tget e i)%C) pos ch G kpts vol occ B n1 n2 n3 Hg Hl HA Hv HG Hp Sc So). }
  fold ns K ts.
  set (l := sumR (seq 0 K) (fun k => sumR (seq 0 B) (fun b => tget occ [0%nat; k; b] *
     sumR (indices ns) (fun g => norm2 (vadd (tget G g) (nth k kpts vzero)) * Re (Cconj (tget e ([0%nat; k; b] ++ g)) * tget c ([0%nat; k; b] ++ g))%C)))).
  pose proof (derive_plus _ _ 0 _ _ (derive_line3 (fT ns G kpts B c occ) l (fT ns G kpts B e occ)) DP) as DT.
  match type of DT with is_derive _ _ ?z => match goal with |- is_derive _ _ ?y => assert (Ez : y = z) end end.
  { unfold f1. rewrite sum_out. unfold l. rewrite <- sumR_scal, <- sumR_plus. apply sumR_ext. intros k Hk. rewrite <- sumR_scal, <- sumR_plus. apply sumR_ext. intros b Hb. apply in_seq in Hk, Hb.
    destruct (VM 0%nat k (B + b)%nat b) as [-> _]; [lia|lia|lia|lia|]. unfold h_element. rewrite Re_plus, Re_kinetic, Re_potential.
    rewrite (sumR_ext (indices ns) (fun g => norm2 _ * _) (fun g => norm2 (vadd (tget G g) (nth k kpts vzero)) * Re (Cconj (tget e ([0%nat; k; b] ++ g)) * tget c ([0%nat; k; b] ++ g))%C))
      by (intros g _; rewrite stack_second, stack_first by lia; reflexivity).
    rewrite (sumR_ext (indices ns) (fun x => Re (tget v (0%nat :: x)) * (2 * _)) (fun x => 2 * (Re (tget v (0%nat :: x)) * Re (Cconj (tget w ([0%nat; k; (B + b)%nat] ++ x)) * tget w ([0%nat; k; b] ++ x))%C))).
    - rewrite sumR_scal. set (iN := vol / INR (nprod ns)). field.
    - intros x _. rewrite !Gw by reflexivity.
      rewrite (psi_same ns vol (stack_bands B c e) e [0%nat; k; (B + b)%nat] [0%nat; k; b] x) by (intros g; apply stack_second).
      rewrite (psi_same ns vol (stack_bands B c e) c [0%nat; k; b] [0%nat; k; b] x) by (intros g; apply stack_first; lia). ring. }
  rewrite Ez. revert DT. apply is_derive_ext. intros t. rewrite fT_line. fold K. fold l.
  assert (Er : forall x, inb x ns -> rho ns K B vol (mkT (tshape c) (fun i => tget c i + RtoC t * tget e i)%C) occ x =
    tget d (0%nat :: x) + t * f1 x + t * t * rho ns K B vol e occ x) by (intros x Hx; rewrite rho_line, Gd' by exact Hx; reflexivity).
  rewrite (fext_ext _ _ _ _ _ _ Er), (fhar_ext _ _ _ _ _ Er), (fxc_ext _ _ _ _ _ Er). match goal with |- ?a = ?b => change (@eq R a b) end. cbv beta. rewrite <- !Rplus_assoc. reflexivity.
Qed.

(** Along a change of the occupation numbers. *)
Lemma rho_occ ns K B vol c o o' t x : rho ns K B vol c (mkT (tshape o) (fun i => tget o i + t * tget o' i)) x = rho ns K B vol c o x + t * rho ns K B vol c o' x + t * t * 0.
Proof.
  unfold rho. rewrite Rmult_0_r, Rplus_0_r, <- sumR_scal, <- sumR_plus. apply sumR_ext. intros k _. rewrite <- sumR_scal, <- sumR_plus. apply sumR_ext. intros b _. cbn [tget]. ring.
Qed.
Lemma fT_occ ns G kpts B c o o' t : fT ns G kpts B c (mkT (tshape o) (fun i => tget o i + t * tget o' i)) = fT ns G kpts B c o + t * fT ns G kpts B c o' + t * t * 0.
Proof.
  unfold fT. match goal with |- ?a / 2 = ?b / 2 + t * (?c / 2) + _ => assert (Ea : a = b + t * c); [|rewrite Ea; field] end.
  rewrite <- sumR_scal, <- sumR_plus. apply sumR_ext. intros k _. rewrite <- sumR_scal, <- sumR_plus. apply sumR_ext. intros b _. cbn [tget]. ring.
Qed.

Lemma occupation_derivative lib vg xt A c pos ch G kpts vol occ (o : tensor R) d B n1 n2 n3 : let ns := [n1; n2; n3] in let K := length kpts in let ts := split_on "+" xt in
  contains "gga" xt = false -> (forall t b, In t ts -> lib t b <> None) ->
  m3det A <> 0 -> 0 < vol -> g_vectors A ns = Ok G -> length ch = length pos -> tshape c = [1%nat; K; B] ++ ns -> tshape occ = [1%nat; K; B] ->
  density_grid c vol (Some occ) = Ok d ->
  (forall x, inb x ns -> ex_derive (fun r : R => lda_sum_at lib ts [r]) (tget d (0%nat :: x))) ->
  exists (M : tensor C) (E : R -> R), hamiltonian_matrix (xc_density lib vg) c pos ch d G kpts vol xt true = Ok M /\
    (forall t, total_energy (xc_density lib vg) c pos ch G kpts vol (Some (mkT (tshape occ) (fun i => tget occ i + t * tget o i))) false xt = Ok (E t)) /\
    is_derive E 0 (sumR (seq 0 K) (fun k => sumR (seq 0 B) (fun b => tget o [0%nat; k; b] * Re (tget M [0%nat; k; b; b])))).
Proof.
  intros ns K ts Hg Hl HA Hv HG Hp Sc So Hd Hex. destruct (g_vectors_dual A n1 n2 n3 G HA HG) as (SG & _). fold ns in SG.
  destruct (density_eq c vol occ 1 K B n1 n2 n3 Sc So) as (d' & Ed' & Sd & Gd). rewrite Hd in Ed'. injection Ed' as <-. fold ns in Sd, Gd.
  assert (Gd' : forall x, inb x ns -> tget d (0%nat :: x) = rho ns K B vol c occ x) by (intros x Hx; apply Gd; [lia|exact Hx]).
  set (f1 := rho ns K B vol c o).
  destruct (energy_path lib vg xt A pos ch G vol d n1 n2 n3 f1 (fun _ => 0) Hg Hl HA Hv HG Hp Sd Hex) as (v & Ev & Sv & DP). fold ns ts in DP. cbv zeta in DP.
  destruct (wave_grid_eq c vol [1%nat; K; B] ns eq_refl Sc) as (w & Ew & _ & Gw).
  destruct (one_channel (xc_density lib vg) c pos ch d G kpts vol xt true 1 B n1 n2 n3 v w Sc SG Ev Sv Ew) as (M & HM & _ & VM). fold ns K in VM.
  exists M. eexists. split; [exact HM|]. split.
  { intros t. apply (total_formula lib vg xt A c pos ch G kpts vol (mkT (tshape occ) (fun i => tget occ i + t * tget o i)) B n1 n2 n3 Hg Hl HA Hv HG Hp Sc So). }
  fold ns K ts.
  pose proof (derive_plus _ _ 0 _ _ (derive_line3 (fT ns G kpts B c occ) (fT ns G kpts B c o) 0) DP) as DT.
  match type of DT with is_derive _ _ ?z => match goal with |- is_derive _ _ ?y => assert (Ez : y = z) end end.
  { unfold f1, rho. rewrite sum_out. unfold fT, Rdiv. rewrite (Rmult_comm _ (/ 2)), <- !sumR_scal, <- sumR_plus. apply sumR_ext. intros k Hk. rewrite <- !sumR_scal, <- sumR_plus. apply sumR_ext. intros b Hb. apply in_seq in Hk, Hb.
    destruct (VM 0%nat k b b) as [-> _]; [lia|lia|lia|lia|]. unfold h_element. rewrite Re_plus, Re_kinetic, Re_potential. unfold ekin.
    rewrite (sumR_ext (indices ns) (fun g => norm2 _ * Re _) (fun g => norm2 (vadd (tget G g) (nth k kpts vzero)) * Cnorm2 (tget c ([0%nat; k; b] ++ g))))
      by (intros g _; rewrite Cconj_mult_self; reflexivity).
    rewrite (sumR_ext (indices ns) (fun x => Re (tget v (0%nat :: x)) * Re _) (fun x => Re (tget v (0%nat :: x)) * Cnorm2 (psi ns vol c [0%nat; k; b] x)))
      by (intros x _; rewrite !Gw by reflexivity; rewrite Cconj_mult_self; reflexivity).
    unfold Rdiv. ring. }
  rewrite Ez. revert DT. apply is_derive_ext. intros t. rewrite fT_occ.
  assert (Er : forall x, inb x ns -> rho ns K B vol c (mkT (tshape occ) (fun i => tget occ i + t * tget o i)) x =
    tget d (0%nat :: x) + t * f1 x + t * t * 0) by (intros x Hx; rewrite rho_occ, Gd' by exact Hx; reflexivity).
  rewrite (fext_ext _ _ _ _ _ _ Er), (fhar_ext _ _ _ _ _ Er), (fxc_ext _ _ _ _ _ Er). match goal with |- ?a = ?b => change (@eq R a b) end. cbv beta. rewrite <- !Rplus_assoc. reflexivity.
Qed.
