(** Proofs about potentials and energies. *)
From Coq Require Import List Arith ZArith Reals Bool Lra Lia ZifyBool Permutation.
From Coquelicot Require Import Complex.
From Verif Require Import Base Sums Tensor DFT GridModel GridProofs Lin3 VecModel VecProofs OccModel OccSpec OccProofs PwModel PwSpec PwProofs BraketModel BraketSpec BraketProofs EnergyModel EnergySpec.
Import ListNotations.
Local Open Scope C_scope.

(** ** reindexing *)
Lemma reindex_perm {X} (l : list X) (h : X -> X) : NoDup l -> (forall x, In x l -> In (h x) l) ->
  (forall x y, In x l -> In y l -> h x = h y -> x = y) -> Permutation (map h l) l.
Proof.
  intros Hn Hin Hinj. apply NoDup_Permutation_bis.
  - apply NoDup_map_inj_in; assumption.
  - rewrite map_length. lia.
  - intros y Hy. apply in_map_iff in Hy. destruct Hy as (x & <- & Hx). apply Hin, Hx.
Qed.
Lemma sumC_reindex {X} (l : list X) (h : X -> X) (F : X -> C) : NoDup l -> (forall x, In x l -> In (h x) l) ->
  (forall x y, In x l -> In y l -> h x = h y -> x = y) -> sumC l (fun x => F (h x)) = sumC l F.
Proof. intros Hn Hin Hinj. rewrite <- (sumC_map h l F). apply sumC_perm, reindex_perm; assumption. Qed.
Lemma sumR_reindex {X} (l : list X) (h : X -> X) (F : X -> R) : NoDup l -> (forall x, In x l -> In (h x) l) ->
  (forall x y, In x l -> In y l -> h x = h y -> x = y) -> sumR l (fun x => F (h x)) = sumR l F.
Proof. intros Hn Hin Hinj. rewrite <- (sumR_map h l F). apply sumR_perm, reindex_perm; assumption. Qed.

Lemma neg_index_inv ns g : inb g ns -> neg_index ns (neg_index ns g) = g.
Proof.
  induction 1 as [|a n g ns Ha H IH]; [reflexivity|]. cbn [neg_index combine map fst snd].
  change (map (fun p : nat * nat => (fst p - snd p) mod fst p) (combine ns g))%nat with (neg_index ns g).
  change (map (fun p : nat * nat => (fst p - snd p) mod fst p) (combine ns (neg_index ns g)))%nat with (neg_index ns (neg_index ns g)).
  rewrite IH. f_equal. destruct (Nat.eq_dec a 0) as [->|Hne].
  - rewrite Nat.sub_0_r, Nat.mod_same by lia. rewrite Nat.sub_0_r. apply Nat.mod_same. lia.
  - rewrite (Nat.mod_small (n - a)) by lia. rewrite Nat.mod_small by lia. lia.
Qed.

Lemma idft_real ns F x : inb x ns -> (forall g, inb g ns -> F (neg_index ns g) = Cconj (F g)) -> Im (idft ns F x) = 0%R.
Proof.
  intros Hx HF.
  assert (E : Cconj (idft ns F x) = idft ns F x).
  { unfold idft. rewrite Cconj_mult, Cconj_R, Cconj_sum. f_equal.
    rewrite <- (sumC_reindex (indices ns) (neg_index ns) (fun g => F g * cis (2 * PI * phase ns (zs g) (zs x)))).
    - apply sumC_ext. intros g Hg. apply in_indices in Hg. rewrite Cconj_mult, HF by exact Hg. f_equal.
      rewrite (cis_phase_congr ns _ _ (zs x) (inb_pos _ _ Hx) (congr_neg ns g Hg)) by (rewrite zs_length; apply (inb_length _ _ Hx)).
      rewrite phase_opp_l, cis_conj. f_equal. ring.
    - apply NoDup_indices.
    - intros g Hg. apply in_indices in Hg. apply in_indices, neg_index_inb, Hg.
    - intros g h Hg Hh E. apply in_indices in Hg, Hh. rewrite <- (neg_index_inv ns g Hg), <- (neg_index_inv ns h Hh), E. reflexivity. }
  apply (f_equal Im) in E. destruct (idft ns F x) as [a b]. unfold Im, Cconj in *. cbn in *. lra.
Qed.

(** ** Hartree *)
Lemma is_origin_spec i : is_origin i = true <-> at_origin i.
Proof.
  unfold is_origin, at_origin. rewrite forallb_forall, Forall_forall. split; intros H x Hx; specialize (H x Hx).
  - apply Nat.eqb_eq in H. auto.
  - apply Nat.eqb_eq. auto.
Qed.
Lemma is_origin_existsb i : is_origin i = negb (existsb (fun k => negb (Nat.eqb k 0)) i).
Proof.
  induction i as [|a i IH]; [reflexivity|]. change (is_origin (a :: i)) with ((0 =? a)%nat && is_origin i).
  cbn [existsb]. rewrite IH, negb_orb, negb_involutive, Nat.eqb_sym. reflexivity.
Qed.

Lemma tsum0_get D s ns x : tshape D = s :: ns -> tget (tsum0 D) x = spin_sum D x.
Proof. intros H. unfold tsum0, spin_sum. rewrite H. reflexivity. Qed.
Lemma tsum0_shape D s ns : tshape D = s :: ns -> tshape (tsum0 D) = ns.
Proof. intros H. unfold tsum0. rewrite H. reflexivity. Qed.

Definition hfac (ks : bool) : R := if ks then (4 * PI)%R else (2 * PI)%R.

Lemma hartree_eq D G ks sp n1 n2 n3 : let ns := [n1; n2; n3] in tshape D = sp :: ns -> tshape G = ns ->
  (forall x, inb x ns -> is_origin x = false -> norm2 (tget G x) <> 0%R) ->
  exists v, hartree_reciprocal D G ks = Ok v /\ tshape v = ns /\
    forall x, inb x ns -> tget v x = if is_origin x then RtoC 0 else RtoC (hfac ks / norm2 (tget G x)) * spin_sum D x.
Proof.
  intros ns SD SG Hnz. unfold hartree_reciprocal, ndim. rewrite SD, SG. cbn [length ns Nat.eqb negb].
  match goal with |- context [tzip ?f ?a ?b] => destruct (tzip_same f a b) as (t & -> & St & Gt); [rewrite (tsum0_shape D sp ns SD); reflexivity|] end.
  cbn [bind]. eexists. split; [reflexivity|]. rewrite (tsum0_shape D sp ns SD) in St, Gt. split; [exact St|].
  intros x Hx. cbn [tget]. destruct (is_origin x) eqn:E.
  - destruct ks; unfold Cdiv; ring.
  - rewrite Gt by exact Hx. cbn [tget]. rewrite E, (tsum0_get D sp ns x SD).
    change (dot (tget G x) (tget G x)) with (norm2 (tget G x)). pose proof (Hnz x Hx E) as HN.
    unfold Cdiv. rewrite <- !RtoC_inv by (auto; lra).
    destruct ks; cbn [hfac].
    + replace (4 * PI / norm2 (tget G x))%R with (/ norm2 (tget G x) * (4 * PI))%R by (field; exact HN). rewrite !RtoC_mult. ring.
    + replace (2 * PI / norm2 (tget G x))%R with (/ norm2 (tget G x) * 4 * PI * / 2)%R by (field; exact HN). rewrite !RtoC_mult. ring.
Qed.

Lemma braket_lead1 v D vol sp n1 n2 n3 : let ns := [n1; n2; n3] in tshape v = ns -> tshape D = sp :: ns ->
  reciprocal_braket (expand0 v) D vol =
  Ok (vol / (INR (nprod ns) * INR (nprod ns)) * Re (sumC (indices ns) (fun x => (Cconj (tget v x) * spin_sum D x)%C)))%R.
Proof.
  intros ns Sv SD. unfold reciprocal_braket.
  assert (Se : tshape (expand0 v) = [1; n1; n2; n3]%nat) by (cbn; rewrite Sv; reflexivity).
  rewrite (grid3_app (expand0 v) [1%nat] ns eq_refl Se), (grid3_app D [sp] ns eq_refl SD).
  destruct (list_eq_dec _ _ _) as [_|N]; [|contradiction].
  destruct (tzip_lead1 (fun a b => Cconj a * b) (expand0 v) D sp n1 n2 n3 Se SD) as (t & -> & St & Gt). cbn [bind].
  f_equal. rewrite Re_scal_r, Se. replace (nprod [1; n1; n2; n3]%nat) with (nprod ns) by (cbn [nprod ns]; lia). f_equal.
  - unfold Rdiv. rewrite Rinv_mult. ring.
  - f_equal. unfold tsum_all. rewrite St. change [sp; n1; n2; n3] with (sp :: ns). rewrite sumC_indices_cons.
    rewrite sumC_swap. apply sumC_ext. intros x Hx. unfold spin_sum. rewrite SD. cbn [hd]. rewrite <- sumC_scal. apply sumC_ext. intros s Hs.
    apply in_seq in Hs. apply in_indices in Hx. rewrite Gt by (try exact Hx; lia). reflexivity.
Qed.

Lemma coulomb_sum_alt ns G D : coulomb_sum ns G D = sumR (indices ns) (fun x => if is_origin x then 0 else Cnorm2 (spin_sum D x) / norm2 (tget G x))%R.
Proof.
  unfold coulomb_sum. rewrite sumR_filter. apply sumR_ext. intros x _. rewrite is_origin_existsb. destruct (existsb _ x); reflexivity.
Qed.

Lemma e_hartree_eq D G vol ks sp n1 n2 n3 : let ns := [n1; n2; n3] in tshape D = sp :: ns -> tshape G = ns ->
  (forall x, inb x ns -> is_origin x = false -> norm2 (tget G x) <> 0%R) ->
  e_hartree D G vol ks = Ok (hfac ks * vol / (INR (nprod ns) * INR (nprod ns)) * coulomb_sum ns G D)%R.
Proof.
  intros ns SD SG Hnz. unfold e_hartree, ndim. rewrite SD. cbn [length ns Nat.eqb negb].
  destruct (hartree_eq D G ks sp n1 n2 n3 SD SG Hnz) as (v & -> & Sv & Gv). cbn [bind].
  rewrite (braket_lead1 v D vol sp n1 n2 n3 Sv SD). f_equal. fold ns. rewrite Re_sumC, coulomb_sum_alt.
  rewrite (sumR_ext _ _ (fun x => hfac ks * (if is_origin x then 0 else Cnorm2 (spin_sum D x) / norm2 (tget G x)))%R).
  - rewrite sumR_scal. unfold Rdiv. ring.
  - intros x Hx. apply in_indices in Hx. rewrite Gv by exact Hx. destruct (is_origin x).
    + unfold Re, Cconj, Cmult, RtoC. simpl. ring.
    + unfold Re, Cconj, Cmult, RtoC, Cnorm2, Rdiv. simpl. ring.
Qed.

(** ** reciprocal vectors of a cell *)
Lemma origin3 n1 n2 n3 x : inb x [n1; n2; n3] -> is_origin x = true -> x = [0; 0; 0]%nat.
Proof.
  intros Hx H. apply is_origin_spec in H. unfold at_origin in H. destruct (inb3 _ _ _ _ Hx) as (a & b & c & -> & _).
  inversion H as [|? ? Ea Q1]; subst. inversion Q1 as [|? ? Eb Q2]; subst. inversion Q2 as [|? ? Ec Q3]; subst. reflexivity.
Qed.
Lemma inb_origin x ns : inb x ns -> forall n1 n2 n3, ns = [n1; n2; n3] -> inb [0; 0; 0]%nat [n1; n2; n3].
Proof. intros H n1 n2 n3 ->. pose proof (inb_pos _ _ H) as P. inversion P as [|? ? P1 Q1]; subst. inversion Q1 as [|? ? P2 Q2]; subst.
  inversion Q2 as [|? ? P3 Q3]; subst. repeat constructor; lia. Qed.
Lemma g_nonzero A n1 n2 n3 G x : m3det A <> 0%R -> g_vectors A [n1; n2; n3] = Ok G -> inb x [n1; n2; n3] -> is_origin x = false ->
  norm2 (tget G x) <> 0%R.
Proof.
  intros HA HG Hx Ho E. apply norm2_zero in E. destruct (g_vectors_dual A n1 n2 n3 G HA HG) as (_ & H0 & Hinj & _).
  rewrite <- H0 in E. apply Hinj in E; [|exact Hx|exact (inb_origin _ _ Hx _ _ _ eq_refl)]. subst x. discriminate.
Qed.
Lemma norm2_ge0 v : (0 <= norm2 v)%R.
Proof. unfold norm2. apply dot_self_nonneg. Qed.
Lemma norm2_gt0 v : norm2 v <> 0%R -> (0 < norm2 v)%R.
Proof. intros H. pose proof (norm2_ge0 v). lra. Qed.

Lemma is_origin_nz (x : list nat) : ~ at_origin x -> is_origin x = false.
Proof. intros H. destruct (is_origin x) eqn:E; [|reflexivity]. apply is_origin_spec in E. contradiction. Qed.

(** C39 *)
Lemma poisson A n1 n2 n3 G D sp ks : let ns := [n1; n2; n3] in
  m3det A <> 0%R -> g_vectors A ns = Ok G -> tshape D = sp :: ns ->
  exists v, hartree_reciprocal D G ks = Ok v /\ tshape v = ns /\
    tget v [0; 0; 0]%nat = RtoC 0 /\
    (forall x, inb x ns -> ~ at_origin x -> RtoC (norm2 (tget G x)) * tget v x = RtoC (if ks then 4 * PI else 2 * PI) * spin_sum D x).
Proof.
  intros ns HA HG SD. destruct (g_vectors_dual A n1 n2 n3 G HA HG) as (SG & _).
  assert (Hnz := fun x => g_nonzero A n1 n2 n3 G x HA HG).
  destruct (hartree_eq D G ks sp n1 n2 n3 SD SG Hnz) as (v & E & Sv & Gv). exists v. repeat split; auto.
  - assert (Hp : inb [0; 0; 0]%nat ns) by (destruct (proj1 (g_vectors_ok A n1 n2 n3) (ex_intro _ G HG)) as (?&?&?); repeat constructor; lia).
    rewrite Gv by exact Hp. reflexivity.
  - intros x Hx Hn. rewrite Gv by exact Hx. rewrite (is_origin_nz x Hn).
    rewrite Cmult_assoc, <- RtoC_mult. f_equal. f_equal. unfold hfac. destruct ks; field; apply (Hnz x Hx (is_origin_nz x Hn)).
Qed.

(** C40 *)
Lemma coulomb_nonneg ns G D : (forall x, inb x ns -> is_origin x = false -> norm2 (tget G x) <> 0%R) -> (0 <= coulomb_sum ns G D)%R.
Proof.
  intros H. rewrite coulomb_sum_alt. apply sumR_nonneg. intros x Hx. apply in_indices in Hx. destruct (is_origin x) eqn:E; [lra|].
  pose proof (norm2_gt0 _ (H x Hx E)). apply Rmult_le_pos; [apply Cnorm2_nonneg|]. left. apply Rinv_0_lt_compat. assumption.
Qed.
Lemma coulomb_zero ns G D : (forall x, inb x ns -> is_origin x = false -> norm2 (tget G x) <> 0%R) ->
  (coulomb_sum ns G D = 0%R <-> forall x, inb x ns -> ~ at_origin x -> spin_sum D x = RtoC 0).
Proof.
  intros H. rewrite coulomb_sum_alt. split.
  - intros E x Hx Hn. pose proof (is_origin_nz x Hn) as Ho.
    assert (Z := sumR_nonneg_zero _ _ (fun y Hy => ltac:(apply in_indices in Hy; destruct (is_origin y) eqn:Ey; [lra|
      pose proof (norm2_gt0 _ (H y Hy Ey)); apply Rmult_le_pos; [apply Cnorm2_nonneg|left; apply Rinv_0_lt_compat; assumption]]) : (0 <= (if is_origin y then 0 else Cnorm2 (spin_sum D y) / norm2 (tget G y)))%R) E x (proj2 (in_indices ns x) Hx)).
    cbn beta in Z. rewrite Ho in Z. apply Cnorm2_zero. pose proof (norm2_gt0 _ (H x Hx Ho)).
    apply Rmult_integral in Z. destruct Z as [Z|Z]; [exact Z|]. exfalso. revert Z. apply Rinv_neq_0_compat. lra.
  - intros E. apply sumR_zero. intros x Hx. apply in_indices in Hx. destruct (is_origin x) eqn:Eo; [reflexivity|].
    rewrite E; [|exact Hx|intros Q; apply is_origin_spec in Q; congruence]. unfold Cnorm2, RtoC. cbn. unfold Rdiv. ring.
Qed.
Lemma coulomb_ext ns G D D' : (forall x, inb x ns -> ~ at_origin x -> spin_sum D x = spin_sum D' x) -> coulomb_sum ns G D = coulomb_sum ns G D'.
Proof.
  intros H. rewrite !coulomb_sum_alt. apply sumR_ext. intros x Hx. apply in_indices in Hx. destruct (is_origin x) eqn:E; [reflexivity|].
  rewrite H; [reflexivity|exact Hx|intros Q; apply is_origin_spec in Q; congruence].
Qed.
Lemma coulomb_scale ns G D D' a : (forall x, inb x ns -> spin_sum D' x = RtoC a * spin_sum D x) ->
  coulomb_sum ns G D' = (a * a * coulomb_sum ns G D)%R.
Proof.
  intros H. rewrite !coulomb_sum_alt, <- sumR_scal. apply sumR_ext. intros x Hx. apply in_indices in Hx. destruct (is_origin x) eqn:E; [ring|].
  rewrite H by exact Hx. rewrite Cnorm2_mult. unfold Cnorm2 at 1, RtoC. cbn. unfold Rdiv. ring.
Qed.

Lemma hartree_energy A n1 n2 n3 G D sp vol ks : let ns := [n1; n2; n3] in let N := INR (nprod ns) in
  m3det A <> 0%R -> g_vectors A ns = Ok G -> tshape D = sp :: ns -> (0 < vol)%R ->
  e_hartree D G vol ks = Ok ((if ks then 4 * PI else 2 * PI) * vol / (N * N) * coulomb_sum ns G D)%R /\
  (0 <= coulomb_sum ns G D)%R /\
  (coulomb_sum ns G D = 0%R <-> forall x, inb x ns -> ~ at_origin x -> spin_sum D x = RtoC 0).
Proof.
  intros ns N HA HG SD Hv. destruct (g_vectors_dual A n1 n2 n3 G HA HG) as (SG & _).
  assert (Hnz := fun x => g_nonzero A n1 n2 n3 G x HA HG). split; [apply (e_hartree_eq D G vol ks sp n1 n2 n3 SD SG Hnz)|].
  split; [apply coulomb_nonneg, Hnz|apply coulomb_zero, Hnz].
Qed.

Lemma hartree_energy_facts A n1 n2 n3 G D sp vol : let ns := [n1; n2; n3] in
  m3det A <> 0%R -> g_vectors A ns = Ok G -> tshape D = sp :: ns -> (0 < vol)%R ->
  exists e, e_hartree D G vol false = Ok e /\ (0 <= e)%R /\ e_hartree D G vol true = Ok (2 * e)%R /\
    (e = 0%R <-> forall x, inb x ns -> ~ at_origin x -> spin_sum D x = RtoC 0) /\
    (forall D' sp' a, tshape D' = sp' :: ns -> (forall x, inb x ns -> ~ at_origin x -> spin_sum D' x = RtoC a * spin_sum D x) ->
       e_hartree D' G vol false = Ok (a * a * e)%R).
Proof.
  intros ns HA HG SD Hv.
  assert (HN : (0 < INR (nprod ns))%R).
  { destruct (proj1 (g_vectors_ok A n1 n2 n3) (ex_intro _ G HG)) as (?&?&?). apply lt_0_INR, nprod_pos. repeat constructor; lia. }
  destruct (hartree_energy A n1 n2 n3 G D sp vol false HA HG SD Hv) as (E & P & Z).
  destruct (hartree_energy A n1 n2 n3 G D sp vol true HA HG SD Hv) as (E2 & _ & _). fold ns in E, P, Z, E2.
  eexists. split; [exact E|]. pose proof PI_RGT_0.
  assert (Hc : (0 < 2 * PI * vol / (INR (nprod ns) * INR (nprod ns)))%R) by (apply Rdiv_lt_0_compat; nra).
  split; [nra|]. split; [rewrite E2; f_equal; field; lra|]. split.
  - rewrite <- Z. split; intros Q; [|rewrite Q; ring]. apply Rmult_integral in Q. destruct Q; lra.
  - intros D' sp' a SD' H'. destruct (hartree_energy A n1 n2 n3 G D' sp' vol false HA HG SD' Hv) as (E' & _ & _). fold ns in E'. rewrite E'. f_equal.
    rewrite (coulomb_ext ns G D' (mkT (1%nat :: ns) (fun i => RtoC a * spin_sum D (tl i)))).
    + rewrite (coulomb_scale ns G D _ a); [ring|]. intros x _. unfold spin_sum at 1. cbn [tshape hd seq sumC tget tl]. ring.
    + intros x Hx Hn. rewrite H' by assumption. unfold spin_sum at 2. cbn [tshape hd seq sumC tget tl]. ring.
Qed.

(** C41, algebraic part *)
Lemma hartree_expand A n1 n2 n3 G D E sp vol t : let ns := [n1; n2; n3] in
  m3det A <> 0%R -> g_vectors A ns = Ok G -> tshape D = sp :: ns -> tshape E = sp :: ns -> (0 < vol)%R ->
  exists v e b e', hartree_reciprocal D G true = Ok v /\ e_hartree D G vol false = Ok e /\ reciprocal_braket (expand0 v) E vol = Ok b /\
    e_hartree E G vol false = Ok e' /\
    e_hartree (mkT (sp :: ns) (fun i => tget D i + RtoC t * tget E i)) G vol false = Ok (e + t * b + t * t * e')%R.
Proof.
  intros ns HA HG SD SE Hv. destruct (g_vectors_dual A n1 n2 n3 G HA HG) as (SG & _).
  assert (Hnz := fun x => g_nonzero A n1 n2 n3 G x HA HG).
  destruct (hartree_eq D G true sp n1 n2 n3 SD SG Hnz) as (v & Ev & Sv & Gv).
  exists v. do 3 eexists. split; [exact Ev|]. split; [apply (e_hartree_eq D G vol false sp n1 n2 n3 SD SG Hnz)|].
  split; [apply (braket_lead1 v E vol sp n1 n2 n3 Sv SE)|]. split; [apply (e_hartree_eq E G vol false sp n1 n2 n3 SE SG Hnz)|].
  rewrite (e_hartree_eq (mkT (sp :: ns) _) G vol false sp n1 n2 n3 eq_refl SG Hnz). f_equal. fold ns.
  rewrite !coulomb_sum_alt, Re_sumC. cbn [hfac].
  set (N := INR (nprod ns)).
  replace (sumR (indices ns) (fun x => Re (Cconj (tget v x) * spin_sum E x)))
    with (4 * PI * sumR (indices ns) (fun x => if is_origin x then 0 else Re (Cconj (spin_sum D x) * spin_sum E x)%C / norm2 (tget G x)))%R.
  - rewrite (sumR_ext (indices ns) _ (fun x => (if is_origin x then 0 else Cnorm2 (spin_sum D x) / norm2 (tget G x)) +
      (2 * t * (if is_origin x then 0 else Re (Cconj (spin_sum D x) * spin_sum E x)%C / norm2 (tget G x)) +
       t * t * (if is_origin x then 0 else Cnorm2 (spin_sum E x) / norm2 (tget G x))))%R).
    + rewrite !sumR_plus, !sumR_scal. unfold Rdiv. ring.
    + intros x Hx. destruct (is_origin x); [ring|].
      assert (Es : spin_sum (mkT (sp :: ns) (fun i => tget D i + RtoC t * tget E i)) x = spin_sum D x + RtoC t * spin_sum E x).
      { unfold spin_sum. cbn [tshape hd tget]. rewrite SD, SE. cbn [hd]. rewrite sumC_plus, sumC_scal. reflexivity. }
      rewrite Es. unfold Cnorm2, Re, Cconj, Cplus, Cmult, RtoC, Rdiv. cbn. ring.
  - rewrite <- sumR_scal. apply sumR_ext. intros x Hx. apply in_indices in Hx. rewrite Gv by exact Hx. destruct (is_origin x).
    + unfold Re, Cconj, Cmult, RtoC. cbn. ring.
    + unfold hfac, Re, Cconj, Cmult, RtoC, Rdiv. cbn. ring.
Qed.

(** C42 *)
Lemma hartree_real_raises D G ks : hartree_real D G ks = Err AssertionErr.
Proof.
  unfold hartree_real, ndim. destruct (tshape D) as [|a [|b [|c [|d [|e l]]]]] eqn:E; cbn [length Nat.eqb negb]; try reflexivity.
  unfold hartree_reciprocal, ndim, tsum0. rewrite E. reflexivity.
Qed.
