(** Proofs about the nonlocal pseudopotential operator. *)
From Coq Require Import List Arith ZArith Reals Bool Lra Lia Permutation Sorted.
From Coquelicot Require Import Complex.
From Verif Require Import Base Sums Tensor DFT GridModel GridProofs Lin3 VecModel VecProofs PwModel PwSpec PwProofs BraketModel BraketSpec BraketProofs EnergyModel EnergySpec EnergyProofs ExtProofs SbtModel LocModel LocProofs NlocModel NlocSpec.
From Coq Require Import List.
Import ListNotations.
Local Open Scope C_scope.

(** *** lists *)
Lemma fold_left_max l a : fold_left Nat.max l a = Nat.max a (list_max l).
Proof. revert a. induction l as [|b l IH]; intros a; cbn [fold_left list_max fold_right]; [lia|]. rewrite IH. unfold list_max. lia. Qed.
Lemma l_max_ok ls : concat ls <> [] -> l_max_of ls = Ok (list_max (concat ls)).
Proof. unfold l_max_of. destruct (concat ls) as [|a l]; [contradiction|]. intros _. rewrite fold_left_max. reflexivity. Qed.
Lemma sum_locate sizes (F : nat -> nat -> C) :
  sumC (seq 0 (fold_right Nat.add 0%nat sizes)) (fun b => let '(a, b') := locate sizes b in F a b') = sumC (seq 0 (length sizes)) (fun a => sumC (seq 0 (nth a sizes 0%nat)) (F a)).
Proof.
  revert F. induction sizes as [|n sizes IH]; intros F; [reflexivity|]. cbn [fold_right length seq sumC nth].
  rewrite seq_app, sumC_app. f_equal.
  - apply sumC_ext. intros b Hb. apply in_seq in Hb. cbn [locate]. destruct (Nat.ltb_spec b n); [reflexivity|lia].
  - rewrite <- seq_shift, sumC_map. transitivity (sumC (seq 0 (length sizes)) (fun a => sumC (seq 0 (nth a sizes 0%nat)) (F (S a)))); [|reflexivity]. rewrite <- (IH (fun a => F (S a))).
    replace (seq (0 + n) (fold_right Nat.add 0%nat sizes)) with (map (fun i => (n + i)%nat) (seq 0 (fold_right Nat.add 0%nat sizes))).
    + rewrite sumC_map. apply sumC_ext. intros b _. cbn [locate]. destruct (Nat.ltb_spec (n + b) n); [lia|]. replace (n + b - n)%nat with b by lia. destruct (locate sizes b). reflexivity.
    + cbn [Nat.add]. generalize (fold_right Nat.add 0%nat sizes). intros m. clear. revert n. induction m as [|m IH]; intros n; [reflexivity|]. cbn [seq map]. f_equal; [lia|]. rewrite <- (IH (S n)), <- seq_shift, map_map. apply map_ext. intros; lia.
Qed.

(** *** numbers *)
Lemma Cconj_csqrt x : Cconj (csqrt x) * csqrt x = RtoC (Rabs x).
Proof.
  unfold csqrt. destruct (Rle_dec 0 x) as [H|H].
  - rewrite Cconj_R, <- RtoC_mult, sqrt_sqrt by exact H. rewrite Rabs_right by lra. reflexivity.
  - unfold Cconj, Cmult, RtoC. cbn [fst snd]. rewrite Rabs_left by lra. assert (S : (sqrt (- x) * sqrt (- x) = - x)%R) by (apply sqrt_sqrt; lra). f_equal; [|ring].
    replace (0 * 0 - - sqrt (- x) * sqrt (- x))%R with (sqrt (- x) * sqrt (- x))%R by ring. exact S.
Qed.
Lemma Cconj_ipow n : Cconj (ipow n) * ipow n = RtoC 1.
Proof.
  induction n as [|n IH]; cbn [ipow]; [rewrite Cconj_R; ring|]. rewrite Cconj_mult. replace (Cconj Ci * Cconj (ipow n) * (Ci * ipow n)) with (Cconj Ci * Ci * (Cconj (ipow n) * ipow n)) by ring.
  rewrite IH. unfold Ci, Cconj, Cmult, RtoC. cbn [fst snd]. f_equal; ring.
Qed.
Lemma cis_unit a : Cconj (cis a) * cis a = RtoC 1.
Proof. rewrite cis_conj, <- cis_plus. replace (- a + a)%R with 0%R by ring. unfold cis. rewrite cos_0, sin_0. reflexivity. Qed.

Section N.
Variable jn : Z -> R -> R.
Variable spline : list R -> list R -> R -> R.
Variable Y : Z -> Z -> R -> R -> C.
Variable eigh : list (list R) -> list R * list (list R).
Definition psi1 (G : tensor v3) (kpts : list v3) (lmax : nat) (a : proj_atom) : res (tensor C) := get_psi Y eigh G kpts lmax (p_pos a) (p_l a) (p_D a) (p_beta a).
Definition psiT (G : tensor v3) (kpts : list v3) (lmax : nat) (a : proj_atom) : tensor C :=
  let nb := length (p_l a) in
  mkT ([length kpts; nb; 2 * lmax + 1]%nat ++ tshape G) (fun i =>
      let k := nth 0 i 0%nat in let b1 := nth 1 i 0%nat in let m := nth 2 i 0%nat in let x := skipn 3 i in
      let q := tget (gk G kpts) (k :: x) in
      (sumC (seq 0 nb) (fun b2 => (RtoC (mat (snd (eigh (p_D a))) b1 b2) * csqrt (nth b2 (fst (eigh (p_D a))) 0%R)) * y_lm Y lmax q (nth b2 (p_l a) 0%nat) m * RtoC (tget (p_beta a) (k :: b2 :: x)))
       * cis (- dot q (p_pos a)) * ipow (nth b1 (p_l a) 0%nat) * RtoC (4 * PI))%C).
Lemma psi1_ok G kpts lmax a : (exists t, psi1 G kpts lmax a = Ok t) <-> fits G kpts a.
Proof.
  unfold psi1, get_psi, fits, square_matrix. split.
  - intros (t & H). destruct (negb _) eqn:E; [discriminate|]. apply negb_false_iff, andb_true_iff in E. destruct E as [E1 E2]. apply Nat.eqb_eq in E1.
    split; [exact E1|]. split; [|destruct (list_eq_dec _ _ _); [assumption|discriminate]].
    apply Forall_forall. intros row Hr. rewrite forallb_forall in E2. apply Nat.eqb_eq. apply E2, Hr.
  - intros (H1 & H2 & H3). rewrite H1, Nat.eqb_refl. cbn [andb].
    replace (forallb _ (p_D a)) with true.
    + cbn [negb]. destruct (list_eq_dec _ _ _) as [_|N]; [|contradiction]. destruct (eigh (p_D a)). eexists. reflexivity.
    + symmetry. apply forallb_forall. intros row Hr. rewrite Forall_forall in H2. apply Nat.eqb_eq. apply H2, Hr.
Qed.
Lemma psi1_eq G kpts lmax a : fits G kpts a -> psi1 G kpts lmax a = Ok (psiT G kpts lmax a).
Proof.
  intros H. destruct (proj2 (psi1_ok G kpts lmax a) H) as (t & E). rewrite E. unfold psi1, get_psi in E. unfold psiT. destruct (negb _); [discriminate|]. destruct (list_eq_dec _ _ _); [|discriminate].
  destruct (eigh (p_D a)) as [ev vec]. cbn [fst snd]. symmetry. exact E.
Qed.
Definition a0 : proj_atom := mkProj vzero [] [] (mkT [] (fun _ => 0%R)).
Lemma list_body atoms G kpts rs betas m : length betas = length atoms -> m <> NlOther -> ndim G = 3%nat -> concat (map p_l atoms) <> [] ->
  nonlocal_psi_list jn spline Y eigh (map p_pos atoms) G kpts rs betas (map p_l atoms) (map p_D atoms) (Some (map p_beta atoms)) m = mapM (psi1 G kpts (max_l atoms)) atoms.
Proof.
  intros H1 H2 H3 H4. unfold nonlocal_psi_list. rewrite map_length, H1, Nat.eqb_refl, H3. cbn [negb Nat.eqb bind]. rewrite (l_max_ok _ H4). cbn [bind]. fold (max_l atoms).
  assert (K : mapM (fun i => match nth_error (map p_l atoms) i, nth_error (map p_D atoms) i, nth_error (map p_beta atoms) i with
      | Some l, Some D, Some b => get_psi Y eigh G kpts (max_l atoms) (nth i (map p_pos atoms) vzero) l D b
      | _, _, _ => Err IndexErr end) (seq 0 (length (map p_pos atoms))) = mapM (psi1 G kpts (max_l atoms)) atoms).
  { transitivity (mapM (psi1 G kpts (max_l atoms)) (map (fun i => nth i atoms a0) (seq 0 (length atoms)))); [|rewrite map_nth_seq; reflexivity].
    rewrite mapM_map, map_length. apply mapM_ext_in. intros i Hi. apply in_seq in Hi.
    rewrite (nth_error_nth' (map p_l atoms) (p_l a0)), (nth_error_nth' (map p_D atoms) (p_D a0)), (nth_error_nth' (map p_beta atoms) (p_beta a0)) by (rewrite map_length; lia).
    change vzero with (p_pos a0). rewrite !map_nth. reflexivity. }
  destruct m; try exact K. contradiction.
Qed.
Lemma psi_of_raises_early atoms G kpts rs betas m p : psi_of jn spline Y eigh atoms G kpts rs betas m = Ok p -> length betas = length atoms /\ m <> NlOther /\ ndim G = 3%nat /\ concat (map p_l atoms) <> [].
Proof.
  unfold psi_of, nonlocal_psi, nonlocal_psi_list. rewrite map_length. destruct (Nat.eqb_spec (length betas) (length atoms)) as [E|]; [|discriminate]. cbn [negb].
  intros H. split; [exact E|]. assert (Hm : m <> NlOther) by (intros ->; discriminate). split; [exact Hm|].
  assert (H' : (do l <- (if negb (ndim G =? 3)%nat then Err ValueErr else do l_max <- l_max_of (map p_l atoms);
    mapM (fun i => match nth_error (map p_l atoms) i, nth_error (map p_D atoms) i, nth_error (map p_beta atoms) i with
      | Some l, Some D, Some b => get_psi Y eigh G kpts l_max (nth i (map p_pos atoms) vzero) l D b
      | _, _, _ => Err IndexErr end) (seq 0 (length (map p_pos atoms)))); concat1 l) = Ok p) by (destruct m; try exact H; contradiction).
  clear H. destruct (Nat.eqb_spec (ndim G) 3) as [E3|]; [|discriminate]. split; [exact E3|]. cbn [negb] in H'. intros E0. unfold l_max_of in H'. rewrite E0 in H'. discriminate.
Qed.
Definition total_beta (atoms : list proj_atom) : nat := fold_right Nat.add 0%nat (map (fun a => length (p_l a)) atoms).
Lemma concat_ok atoms G kpts lmax : atoms <> [] ->
  exists p, concat1 (map (psiT G kpts lmax) atoms) = Ok p /\ tshape p = [length kpts; total_beta atoms; 2 * lmax + 1]%nat ++ tshape G /\
    forall i, tget p i = let '(a, b) := locate (map (fun a => length (p_l a)) atoms) (nth 1 i 0%nat) in tget (nth a (map (psiT G kpts lmax) atoms) (psiT G kpts lmax (hd a0 atoms))) (hd 0%nat i :: b :: skipn 2 i).
Proof.
  destruct atoms as [|a l]; [contradiction|]. intros _. unfold concat1. cbn [map].
  replace (forallb _ _) with true.
  - eexists. split; [reflexivity|]. split; [cbn [tshape hd skipn psiT app]; unfold total_beta; cbn [map fold_right nth tshape psiT app]; rewrite map_map; reflexivity|].
    intros i. cbn [tget nth tshape psiT app hd]. rewrite map_map. cbn [tshape psiT nth app]. reflexivity.
  - symmetry. apply forallb_forall. intros t Ht. change (psiT G kpts lmax a :: map (psiT G kpts lmax) l) with (map (psiT G kpts lmax) (a :: l)) in Ht. apply in_map_iff in Ht. destruct Ht as (b & <- & _).
    cbn [tshape psiT hd skipn app]. destruct (list_eq_dec _ _ _) as [_|N]; [reflexivity|contradiction].
Qed.
Lemma concat_nil_atoms atoms : concat (map p_l atoms) <> [] -> atoms <> [].
Proof. intros H ->. apply H. reflexivity. Qed.
Lemma psi_of_eq atoms G kpts rs betas m : length betas = length atoms -> m <> NlOther -> ndim G = 3%nat -> concat (map p_l atoms) <> [] -> Forall (fits G kpts) atoms ->
  psi_of jn spline Y eigh atoms G kpts rs betas m = concat1 (map (psiT G kpts (max_l atoms)) atoms).
Proof.
  intros H1 H2 H3 H4 H5. unfold psi_of, nonlocal_psi. rewrite (list_body atoms G kpts rs betas m H1 H2 H3 H4).
  rewrite (mapM_all_ok' _ (psiT G kpts (max_l atoms))); [reflexivity|]. intros a Ha. apply psi1_eq. rewrite Forall_forall in H5. apply H5, Ha.
Qed.
Lemma psi_of_returns atoms G kpts rs betas m : (exists p, psi_of jn spline Y eigh atoms G kpts rs betas m = Ok p) <->
  length betas = length atoms /\ m <> NlOther /\ ndim G = 3%nat /\ concat (map p_l atoms) <> [] /\ Forall (fits G kpts) atoms.
Proof.
  split.
  - intros (p & H). destruct (psi_of_raises_early _ _ _ _ _ _ _ H) as (H1 & H2 & H3 & H4). repeat (split; [assumption|]).
    unfold psi_of, nonlocal_psi in H. rewrite (list_body atoms G kpts rs betas m H1 H2 H3 H4) in H. destruct (mapM _ atoms) as [l|] eqn:E; [|discriminate]. apply mapM_ok in E.
    clear -E. remember (max_l atoms) as lm. clear Heqlm. induction E; constructor; [|assumption]. apply (psi1_ok G kpts lm). eexists; eassumption.
  - intros (H1 & H2 & H3 & H4 & H5). rewrite (psi_of_eq atoms G kpts rs betas m H1 H2 H3 H4 H5). destruct (concat_ok atoms G kpts (max_l atoms) (concat_nil_atoms _ H4)) as (p & E & _). exists p. exact E.
Qed.

(** *** The matrix *)
Lemma nonlocal_eq c psi vol sp K B nb nm n1 n2 n3 : let ns := [n1; n2; n3] in tshape c = [sp; K; B] ++ ns -> tshape psi = [K; nb; nm] ++ ns ->
  exists H, hamiltonian_nonlocal c psi vol = Ok H /\ tshape H = [sp; K; B; B] /\
    forall s k b1 b2, tget H [s; k; b1; b2] = RtoC (/ vol) * sumC (seq 0 nb) (fun be => sumC (seq 0 nm) (fun m =>
      Cconj (sumC (indices ns) (fun g => tget c ([s; k; b1] ++ g) * tget psi ([k; be; m] ++ g))) * sumC (indices ns) (fun g => tget c ([s; k; b2] ++ g) * tget psi ([k; be; m] ++ g)))).
Proof.
  intros ns Hc Hp. unfold hamiltonian_nonlocal. rewrite Hc, Hp. cbn [app ns]. destruct (list_eq_dec _ _ _) as [_|N]; [|contradiction].
  eexists. split; [reflexivity|]. split; [reflexivity|]. intros s k b1 b2. cbn [tget nth]. fold ns. apply Cmult_comm.
Qed.
Lemma F_atom c G kpts lmax a b k b1 m n1 n2 n3 : let ns := [n1; n2; n3] in tshape G = ns -> length b = 3%nat ->
  sumC (indices ns) (fun g => tget c (b ++ g) * tget (psiT G kpts lmax a) (k :: b1 :: m :: g)) =
  RtoC (4 * PI) * ipow (nth b1 (p_l a) 0%nat) * sumC (seq 0 (length (p_l a))) (fun j => RtoC (mat (snd (eigh (p_D a))) b1 j) * csqrt (nth j (fst (eigh (p_D a))) 0%R) * projection (-1) Y G kpts a c b k j m).
Proof.
  intros ns SG Hb. unfold projection, harmonic. cbn zeta. rewrite SG.
  rewrite (sumC_ext (seq 0 (length (p_l a))) _ (fun j => sumC (indices ns) (fun x => RtoC (mat (snd (eigh (p_D a))) b1 j) * csqrt (nth j (fst (eigh (p_D a))) 0%R) *
     (tget c (b ++ x) * (RtoC (tget (p_beta a) (k :: j :: x)) * y_lm Y (nth j (p_l a) 0%nat) (vadd (nth k kpts vzero) (tget G x)) (nth j (p_l a) 0%nat) m * cis (-1 * dot (vadd (nth k kpts vzero) (tget G x)) (p_pos a))))))) by (intros j _; symmetry; apply sumC_scal).
  fold ns. rewrite sumC_swap, <- sumC_scal. apply sumC_ext. intros x _. cbn [psiT tget nth skipn gk hd tl].
  replace (-1 * dot (vadd (nth k kpts vzero) (tget G x)) (p_pos a))%R with (- dot (vadd (nth k kpts vzero) (tget G x)) (p_pos a))%R by ring.
  set (q := vadd (nth k kpts vzero) (tget G x)). set (e := cis _). set (f := RtoC (4 * PI)). set (i := ipow _).
  transitivity (f * i * (tget c (b ++ x) * e * sumC (seq 0 (length (p_l a))) (fun b2 => RtoC (mat (snd (eigh (p_D a))) b1 b2) * csqrt (nth b2 (fst (eigh (p_D a))) 0%R) * y_lm Y lmax q (nth b2 (p_l a) 0%nat) m * RtoC (tget (p_beta a) (k :: b2 :: x))))); [ring|].
  rewrite <- sumC_scal. f_equal. apply sumC_ext. intros j _. unfold y_lm, SphModel.compute_spherical_harmonics. ring.
Qed.
(** sum over b1 of conj(sum_j M_j P_j) (sum_j' M_j' Q_j') with orthonormal columns *)
Lemma columns_collapse n V (w : nat -> C) (ph : nat -> C) (P Q : nat -> C) : orthogonal_columns n V -> (forall b, Cconj (ph b) * ph b = RtoC 1) ->
  sumC (seq 0 n) (fun b => Cconj (ph b * sumC (seq 0 n) (fun j => RtoC (mat V b j) * w j * P j)) * (ph b * sumC (seq 0 n) (fun j => RtoC (mat V b j) * w j * Q j))) =
  sumC (seq 0 n) (fun j => Cconj (w j) * w j * (Cconj (P j) * Q j)).
Proof.
  intros HV Hp.
  rewrite (sumC_ext _ _ (fun b => sumC (seq 0 n) (fun j => sumC (seq 0 n) (fun j' => RtoC (mat V b j * mat V b j') * (Cconj (w j) * w j' * (Cconj (P j) * Q j')))))).
  - rewrite sumC_swap. apply sumC_ext. intros j Hj. rewrite sumC_swap. apply in_seq in Hj.
    rewrite (sumC_ext _ _ (fun j' => RtoC (if (j =? j')%nat then 1 else 0) * (Cconj (w j) * w j' * (Cconj (P j) * Q j')))).
    + rewrite (sumC_single _ j); [|apply seq_NoDup|apply in_seq; lia|].
      * rewrite Nat.eqb_refl. ring.
      * intros j' _ N. apply not_eq_sym, Nat.eqb_neq in N. rewrite N. ring.
    + intros j' Hj'. apply in_seq in Hj'. rewrite <- (HV j j') by lia. rewrite <- sumC_RtoC, <- sumC_scal_r. apply sumC_ext. reflexivity.
  - intros b _. rewrite Cconj_mult, Cconj_sum.
    replace (Cconj (ph b) * sumC (seq 0 n) (fun x => Cconj (RtoC (mat V b x) * w x * P x)) * (ph b * sumC (seq 0 n) (fun j => RtoC (mat V b j) * w j * Q j)))
      with (Cconj (ph b) * ph b * (sumC (seq 0 n) (fun x => Cconj (RtoC (mat V b x) * w x * P x)) * sumC (seq 0 n) (fun j => RtoC (mat V b j) * w j * Q j))) by ring.
    rewrite Hp, Cmult_1_l, <- sumC_scal_r. apply sumC_ext. intros j _. rewrite <- sumC_scal. apply sumC_ext. intros j' _. rewrite !Cconj_mult, Cconj_R, RtoC_mult. ring.
Qed.
Lemma nonlocal_value atoms G kpts rs betas m c vol sp B n1 n2 n3 : let ns := [n1; n2; n3] in let K := length kpts in let lm := max_l atoms in
  tshape G = ns -> tshape c = [sp; K; B] ++ ns -> length betas = length atoms -> m <> NlOther -> concat (map p_l atoms) <> [] -> Forall (fits G kpts) atoms ->
  Forall (fun a => orthogonal_columns (length (p_l a)) (snd (eigh (p_D a)))) atoms ->
  exists psi H, psi_of jn spline Y eigh atoms G kpts rs betas m = Ok psi /\ tshape psi = [K; total_beta atoms; 2 * lm + 1]%nat ++ ns /\ hamiltonian_nonlocal c psi vol = Ok H /\ tshape H = [sp; K; B; B] /\
    forall s k b1 b2, tget H [s; k; b1; b2] = RtoC ((4 * PI) ^ 2 / vol) * sumC atoms (fun a => sumC (seq 0 (length (p_l a))) (fun j =>
      RtoC (Rabs (nth j (fst (eigh (p_D a))) 0%R)) * sumC (seq 0 (2 * lm + 1)) (fun mm =>
        Cconj (projection (-1) Y G kpts a c [s; k; b1] k j mm) * projection (-1) Y G kpts a c [s; k; b2] k j mm))).
Proof.
  intros ns K lm SG Sc Hl Hm Hc Hf HV. destruct (concat_ok atoms G kpts lm (concat_nil_atoms _ Hc)) as (psi & Ep & Sp & Gp).
  assert (Ep' : psi_of jn spline Y eigh atoms G kpts rs betas m = Ok psi) by (rewrite psi_of_eq; try assumption; unfold ndim; rewrite SG; reflexivity). clear Ep.
  rewrite SG in Sp. fold K ns in Sp. destruct (nonlocal_eq c psi vol sp K B (total_beta atoms) (2 * lm + 1) n1 n2 n3 Sc Sp) as (H & EH & SH & GH).
  exists psi, H. repeat (split; [assumption|]). intros s k b1 b2. rewrite GH. fold ns.
  set (P a j mm := projection (-1) Y G kpts a c [s; k; b1] k j mm). set (Q a j mm := projection (-1) Y G kpts a c [s; k; b2] k j mm).
  replace (RtoC ((4 * PI) ^ 2 / vol)) with (RtoC (/ vol) * (RtoC (4 * PI) * RtoC (4 * PI))) by (rewrite <- !RtoC_mult; f_equal; unfold Rdiv; ring).
  rewrite <- Cmult_assoc. f_equal.
  set (T b a be mm := sumC (indices ns) (fun g => tget c (b ++ g) * tget (psiT G kpts lm a) (k :: be :: mm :: g))).
  transitivity (sumC (seq 0 (total_beta atoms)) (fun be => let '(ai, be') := locate (map (fun a => length (p_l a)) atoms) be in
    sumC (seq 0 (2 * lm + 1)) (fun mm => Cconj (T [s; k; b1] (nth ai atoms (hd a0 atoms)) be' mm) * T [s; k; b2] (nth ai atoms (hd a0 atoms)) be' mm))).
  { apply sumC_ext. intros be _. destruct (locate _ be) as [ai be'] eqn:E. apply sumC_ext. intros mm _.
    assert (X : forall b, sumC (indices ns) (fun g => tget c (b ++ g) * tget psi ([k; be; mm] ++ g)) = T b (nth ai atoms (hd a0 atoms)) be' mm).
    { intros b. unfold T. apply sumC_ext. intros g _. f_equal. rewrite Gp. cbn [nth app hd skipn]. rewrite E. rewrite map_nth. reflexivity. }
    rewrite !X. reflexivity. }
  unfold total_beta. rewrite (sum_locate _ (fun ai be' => sumC (seq 0 (2 * lm + 1)) (fun mm => Cconj (T [s; k; b1] (nth ai atoms (hd a0 atoms)) be' mm) * T [s; k; b2] (nth ai atoms (hd a0 atoms)) be' mm))).
  rewrite map_length. rewrite <- (sumC_nth atoms (hd a0 atoms)), <- sumC_scal. apply sumC_ext. intros ai Hai. apply in_seq in Hai.
  rewrite (nth_indep _ 0%nat (length (p_l (hd a0 atoms)))) by (rewrite map_length; lia). rewrite (map_nth (fun a => length (p_l a))).
  assert (Hin : In (nth ai atoms (hd a0 atoms)) atoms) by (apply nth_In; lia). set (a := nth ai atoms (hd a0 atoms)) in *. clearbody a.
  rewrite Forall_forall in HV. specialize (HV a Hin). rewrite sumC_swap.
  transitivity (RtoC (4 * PI) * RtoC (4 * PI) * sumC (seq 0 (length (p_l a))) (fun j => sumC (seq 0 (2 * lm + 1)) (fun mm => RtoC (Rabs (nth j (fst (eigh (p_D a))) 0%R)) * (Cconj (P a j mm) * Q a j mm))));
    [|f_equal; apply sumC_ext; intros j _; apply sumC_scal].
  rewrite (sumC_swap (seq 0 (length (p_l a)))), <- sumC_scal. apply sumC_ext. intros mm _.
  rewrite (sumC_ext _ _ (fun be => RtoC (4 * PI) * RtoC (4 * PI) * (Cconj (ipow (nth be (p_l a) 0%nat) * sumC (seq 0 (length (p_l a))) (fun j => RtoC (mat (snd (eigh (p_D a))) be j) * csqrt (nth j (fst (eigh (p_D a))) 0%R) * P a j mm))
      * (ipow (nth be (p_l a) 0%nat) * sumC (seq 0 (length (p_l a))) (fun j => RtoC (mat (snd (eigh (p_D a))) be j) * csqrt (nth j (fst (eigh (p_D a))) 0%R) * Q a j mm))))).
  - rewrite sumC_scal. f_equal. rewrite (columns_collapse _ _ (fun j => csqrt (nth j (fst (eigh (p_D a))) 0%R)) (fun be => ipow (nth be (p_l a) 0%nat)) (fun j => P a j mm) (fun j => Q a j mm) HV) by (intros; apply Cconj_ipow).
    apply sumC_ext. intros j _. rewrite Cconj_csqrt. reflexivity.
  - intros be _.
    assert (FT : forall b, length b = 3%nat -> T b a be mm = RtoC (4 * PI) * ipow (nth be (p_l a) 0%nat) * sumC (seq 0 (length (p_l a))) (fun j => RtoC (mat (snd (eigh (p_D a))) be j) * csqrt (nth j (fst (eigh (p_D a))) 0%R) * projection (-1) Y G kpts a c b k j mm))
      by (intros b Hb; apply F_atom; assumption).
    rewrite !FT by reflexivity. unfold P, Q. rewrite !Cconj_mult, !Cconj_R. ring.
Qed.
End N.
