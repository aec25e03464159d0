(** Proofs about the local pseudopotential. *)
From Coq Require Import List Arith ZArith Reals Bool Lra Lia Permutation.
From Coquelicot Require Import Complex.
From Verif Require Import Base Sums Tensor DFT GridModel GridProofs Lin3 VecModel VecProofs PwModel PwSpec PwProofs BraketModel BraketSpec BraketProofs EnergyModel EnergySpec EnergyProofs ExtProofs TotalProofs SymProofs ShiftProofs EwaldModel SbtModel SbtSpec SbtProofs SbtProofs2 LocModel LocSpec.
From Coq Require Import List.
Import ListNotations.
Local Open Scope C_scope.

Lemma sumC_nth {X} (l : list X) d (f : X -> C) : sumC (seq 0 (length l)) (fun i => f (nth i l d)) = sumC l f.
Proof.
  induction l as [|a l IH]; [reflexivity|]. cbn [length seq sumC nth]. f_equal. rewrite <- IH, <- seq_shift, sumC_map. reflexivity.
Qed.
Lemma mapM_ext_in {A B} (f g : A -> res B) l : (forall a, In a l -> f a = g a) -> mapM f l = mapM g l.
Proof. induction l as [|a l IH]; intros H; [reflexivity|]. cbn [mapM]. rewrite H by (left; reflexivity). rewrite IH by (intros; apply H; right; assumption). reflexivity. Qed.
Lemma mapM_map {A B D} (h : A -> B) (f : B -> res D) l : mapM f (map h l) = mapM (fun a => f (h a)) l.
Proof. induction l as [|a l IH]; [reflexivity|]. cbn [mapM map]. rewrite IH. reflexivity. Qed.
Lemma map_nth_seq {X} (l : list X) d : map (fun i => nth i l d) (seq 0 (length l)) = l.
Proof. induction l as [|a l IH]; [reflexivity|]. cbn [length seq map nth]. f_equal. rewrite <- seq_shift, map_map. exact IH. Qed.
Lemma Forall2_nth_lt {A B} (P : A -> B -> Prop) l m a b : Forall2 P l m -> forall i, (i < length l)%nat -> P (nth i l a) (nth i m b).
Proof. induction 1 as [|x y l m H F IH]; intros i Hi; [cbn in Hi; lia|]. destruct i as [|i]; [exact H|]. apply IH. cbn in Hi. lia. Qed.

Lemma Forall2_len {A B} (P : A -> B -> Prop) l m : Forall2 P l m -> length l = length m.
Proof. induction 1; cbn; congruence. Qed.

Lemma mapM_all_ok' {A B} (f : A -> res B) (g : A -> B) l : (forall a, In a l -> f a = Ok (g a)) -> mapM f l = Ok (map g l).
Proof. induction l as [|a l IH]; intros H; [reflexivity|]. cbn [mapM map]. rewrite H by (left; reflexivity). cbn [bind]. rewrite IH by (intros; apply H; right; assumption). reflexivity. Qed.

Section L.
Variable jn : Z -> R -> R.
Variable spline : list R -> list R -> R -> R.
Variable m : ft_method.
Definition a0 : atom := mkAtom vzero [] [] 0%R.
Definition noT : tensor C := mkT [] (fun _ => RtoC 0).
Definition getT (r : res (tensor C)) : tensor C := match r with Ok t => t | Err _ => noT end.
Definition sr (G rv : tensor v3) (a : atom) : res (tensor C) := short_range jn spline m G rv (a_r a) (a_v a) (a_z a).
Definition factor (G rv : tensor v3) (a : atom) (x : list nat) : C :=
  if is_origin x then RtoC 0 else tget (getT (sr G rv a)) x - RtoC (a_z a / tget (grid_vector_radius G) x ^ 2 * (4 * PI)).
Definition total (G rv : tensor v3) (vol : R) (atoms : list atom) (x : list nat) : C :=
  sumC atoms (fun a => factor G rv a x * cis (- dot (tget G x) (a_pos a))) * RtoC (INR (nprod (tshape G)) / vol).

Lemma clip_hd n a : (a < n)%nat -> hd 0%nat (clip1 [n] [a]) = a.
Proof. intros H. rewrite clip1_inb by (repeat constructor; exact H). reflexivity. Qed.
Lemma map_body G rv (atoms : list atom) :
  mapM (fun i => match nth_error (map a_v atoms) i, map a_z atoms with
        | Some v, _ :: _ => short_range jn spline m G rv (nth i (map a_r atoms) []) v (nth (Nat.min i (length (map a_z atoms) - 1)) (map a_z atoms) 0%R)
        | _, _ => Err IndexErr end) (seq 0 (length (map a_r atoms))) = mapM (sr G rv) atoms.
Proof.
  transitivity (mapM (sr G rv) (map (fun i => nth i atoms a0) (seq 0 (length atoms)))); [|rewrite map_nth_seq; reflexivity].
  rewrite mapM_map, !map_length. apply mapM_ext_in. intros i Hi. apply in_seq in Hi.
  rewrite (nth_error_nth' _ []) by (rewrite map_length; lia). destruct (map a_z atoms) eqn:E; [destruct atoms; [cbn in Hi; lia|discriminate]|]. rewrite <- E. clear E.
  unfold sr. rewrite Nat.min_l by lia. change (@nil R) with (a_r a0) at 1. change (@nil R) with (a_v a0). change 0%R with (a_z a0). rewrite !map_nth. reflexivity.
Qed.
Lemma local_body G rv vol atoms : ndim G = 3%nat -> g2r_vector_grid G None = Ok rv -> m <> OtherMethod ->
  local_of jn spline atoms G vol m = (do v1 <- mapM (sr G rv) atoms;
    if (length v1 =? 0)%nat then Err ValueErr else
    match bshape [length v1] [length (map a_z atoms)] with
    | Some [n1] => match bshape [n1] [length (map a_pos atoms)] with
      | Some [n] => Ok (mkT (tshape G) (fun x => sumC (seq 0 n) (fun a =>
          (if is_origin x then RtoC 0 else tget (nth (hd 0%nat (clip1 [length v1] [hd 0%nat (clip1 [n1] [a])])) v1 noT) x
             - RtoC (nth (hd 0%nat (clip1 [length (map a_z atoms)] [hd 0%nat (clip1 [n1] [a])])) (map a_z atoms) 0%R / tget (grid_vector_radius G) x ^ 2 * (4 * PI)))
          * cis (- dot (tget G x) (nth (hd 0%nat (clip1 [length (map a_pos atoms)] [a])) (map a_pos atoms) vzero))) * RtoC (INR (nprod (tshape G)) / vol)))
      | _ => Err ValueErr end
    | _ => Err ValueErr end).
Proof.
  intros H3 Hr Hm. unfold local_of, potential_local_reciprocal. rewrite H3. cbn [Nat.eqb negb]. rewrite Hr. cbn [bind]. rewrite map_body.
  destruct m; [reflexivity|reflexivity|contradiction].
Qed.
Lemma local_ok G vol atoms V : local_of jn spline atoms G vol m = Ok V ->
  exists rv, ndim G = 3%nat /\ g2r_vector_grid G None = Ok rv /\ m <> OtherMethod /\ atoms <> [] /\
    Forall (fun a => exists t, sr G rv a = Ok t) atoms /\ tshape V = tshape G /\ forall x, tget V x = total G rv vol atoms x.
Proof.
  intros H. assert (H3 : ndim G = 3%nat).
  { unfold local_of, potential_local_reciprocal in H. destruct (Nat.eqb_spec (ndim G) 3); [assumption|discriminate]. }
  assert (Hr : exists rv, g2r_vector_grid G None = Ok rv).
  { unfold local_of, potential_local_reciprocal in H. rewrite H3 in H. cbn [Nat.eqb negb] in H. destruct (g2r_vector_grid G None) as [rv|]; [exists rv; reflexivity|discriminate]. }
  destruct Hr as (rv & Hr). assert (Hm : m <> OtherMethod).
  { unfold local_of, potential_local_reciprocal in H. rewrite H3 in H. cbn [Nat.eqb negb] in H. rewrite Hr in H. cbn [bind] in H. intros ->. discriminate. }
  rewrite (local_body G rv vol atoms H3 Hr Hm) in H. destruct (mapM (sr G rv) atoms) as [v1|] eqn:E; [|discriminate]. cbn [bind] in H. apply mapM_ok in E.
  pose proof (Forall2_len _ _ _ E) as L. destruct (Nat.eqb_spec (length v1) 0) as [|N]; [discriminate|].
  rewrite !map_length, <- L, bshape_refl, bshape_refl in H.
  exists rv. split; [exact H3|]. split; [exact Hr|]. split; [exact Hm|]. split; [intros ->; cbn in L; lia|]. split.
  { clear -E. induction E; constructor; [eexists; eassumption|assumption]. }
  assert (HV := f_equal (fun r => match r with Ok t => t | Err _ => noT end) H). cbn beta iota in HV. subst V. cbn [tshape tget]. split; [reflexivity|].
  intros x. unfold total. f_equal. rewrite <- (sumC_nth atoms a0). apply sumC_ext. intros i Hi. apply in_seq in Hi.
  rewrite !(clip_hd (length atoms) i) by lia. rewrite (nth_indep (map a_pos atoms) vzero (a_pos a0)), (nth_indep (map a_z atoms) 0%R (a_z a0)) by (rewrite map_length; lia). rewrite !map_nth.
  f_equal. unfold factor. destruct (is_origin x); [reflexivity|]. f_equal. f_equal.
  pose proof (Forall2_nth_lt _ _ _ a0 noT E i ltac:(lia)) as Ei. cbv beta in Ei. rewrite Ei. reflexivity.
Qed.
Lemma local_returns G rv vol atoms : ndim G = 3%nat -> g2r_vector_grid G None = Ok rv -> m <> OtherMethod -> atoms <> [] ->
  Forall (fun a => exists t, sr G rv a = Ok t) atoms -> exists V, local_of jn spline atoms G vol m = Ok V.
Proof.
  intros H3 Hr Hm Ha HF. rewrite (local_body G rv vol atoms H3 Hr Hm).
  rewrite (mapM_all_ok' (sr G rv) (fun a => getT (sr G rv a)) atoms).
  - cbn [bind]. rewrite !map_length. destruct atoms as [|a l]; [contradiction|]. cbn [length Nat.eqb]. rewrite !bshape_refl. eexists. reflexivity.
  - intros a Hin. rewrite Forall_forall in HF. destruct (HF a Hin) as (t & ->). reflexivity.
Qed.
Lemma g2r_ok A n1 n2 n3 G : g_vectors A [n1; n2; n3] = Ok G -> tshape G = [n1; n2; n3] /\ exists rv, g2r_vector_grid G None = Ok rv /\ tshape rv = [n1; n2; n3].
Proof.
  intros HG. pose proof (grid_shape _ _ _ _ HG) as S. split; [exact S|]. unfold g2r_vector_grid, g2cell_vectors. rewrite S.
  destruct (proj1 (g_vectors_ok A n1 n2 n3) (ex_intro _ G HG)) as (H1 & H2 & H3).
  destruct (vector_grid_ok (reciprocal_vectors m3id) n1 n2 n3 false H1 H2 H3) as [g Eg]. unfold g_vectors. rewrite Eg. cbn [bind].
  unfold r_vectors. destruct (vector_grid_ok (m3inv (m3mul (m3inv (at_b (rows g) (rows g))) (at_b (rows g) (rows G)))) n1 n2 n3 true H1 H2 H3) as [rv Er].
  exists rv. split; [exact Er|]. exact (grid_shape _ _ _ _ Er).
Qed.
Lemma sr_ok A n1 n2 n3 G rv a : g_vectors A [n1; n2; n3] = Ok G -> tshape rv = [n1; n2; n3] -> m <> OtherMethod ->
  ((exists t, sr G rv a = Ok t) <-> length (a_v a) = length (a_r a)).
Proof.
  intros HG Sr Hm. pose proof (grid_shape _ _ _ _ HG) as S. unfold sr, short_range. destruct (Nat.eqb_spec (length (a_v a)) (length (a_r a))) as [E|N]; [|split; [intros [t H]; discriminate|contradiction]].
  split; [intros _; exact E|intros _]. destruct m; [| |contradiction].
  - rewrite S. destruct (proj1 (g_vectors_ok A n1 n2 n3) (ex_intro _ G HG)) as (H1 & H2 & H3). destruct (indices_hd n1 n2 n3 H1 H2 H3) as (l & ->). cbn [map Rmaxl bind].
    match goal with |- context [sbt_numerical ?a ?b ?c ?d ?e ?f] => destruct (sbt_numerical a b c d e f) as [t|e'] eqn:Es end; [cbn [bind]; eexists; reflexivity|].
    exfalso. assert (R : raises (Err e' : res (list R * list (list R)))) by (exists e'; reflexivity). rewrite <- Es in R. apply sbt_raises in R.
    destruct R as [R|[R|[(ls & R & _)|[R|(d & R & _)]]]]; try discriminate. apply Exists_exists in R. destruct R as (row & Hin & Hl). cbn in Hin. destruct Hin as [<-|[]].
    apply Hl. rewrite map_length, combine_length. lia.
  - destruct (fftn3_eq (tmap (fun s => RtoC (spline (a_r a) (map (fun p => (snd p + a_z a / fst p)%R) (combine (a_r a) (a_v a))) s)) (grid_vector_radius rv)) [] [n1; n2; n3] eq_refl) as (u & -> & _); [exact Sr|]. cbn [bind]. eexists. reflexivity.
Qed.
Lemma local_returns_iff A n1 n2 n3 G vol atoms : g_vectors A [n1; n2; n3] = Ok G ->
  ((exists V, local_of jn spline atoms G vol m = Ok V) <-> m <> OtherMethod /\ atoms <> [] /\ Forall (fun a => length (a_v a) = length (a_r a)) atoms).
Proof.
  intros HG. destruct (g2r_ok A n1 n2 n3 G HG) as (S & rv & Hr & Sr). split.
  - intros [V H]. apply local_ok in H. destruct H as (rv' & _ & Hr' & Hm & Ha & HF & _). rewrite Hr in Hr'. injection Hr' as <-.
    split; [exact Hm|]. split; [exact Ha|]. eapply Forall_impl; [|exact HF]. intros a Ht. apply (sr_ok A n1 n2 n3 G rv a HG Sr Hm). exact Ht.
  - intros (Hm & Ha & HF). apply (local_returns G rv); [unfold ndim; rewrite S; reflexivity|exact Hr|exact Hm|exact Ha|].
    eapply Forall_impl; [|exact HF]. intros a Ht. apply (sr_ok A n1 n2 n3 G rv a HG Sr Hm). exact Ht.
Qed.

(** *** Structure *)
Lemma local_origin G vol atoms V x : local_of jn spline atoms G vol m = Ok V -> at_origin x -> tget V x = RtoC 0.
Proof.
  intros H Hx. apply local_ok in H. destruct H as (rv & _ & _ & _ & _ & _ & _ & HV). rewrite HV. unfold total.
  assert (E : is_origin x = true) by (unfold is_origin; apply forallb_forall; unfold at_origin in Hx; rewrite Forall_forall in Hx; intros k Hk; rewrite (Hx k Hk); reflexivity).
  rewrite sumC_zero; [ring|]. intros a _. unfold factor. rewrite E. ring.
Qed.
Lemma local_perm G vol atoms atoms' V : local_of jn spline atoms G vol m = Ok V -> Permutation atoms atoms' ->
  exists V', local_of jn spline atoms' G vol m = Ok V' /\ teq V V'.
Proof.
  intros H HP. apply local_ok in H. destruct H as (rv & H3 & Hr & Hm & Ha & HF & S & HV).
  destruct (local_returns G rv vol atoms' H3 Hr Hm) as [V' H'].
  - intros ->. apply Ha. apply Permutation_sym, Permutation_nil in HP. exact HP.
  - eapply Permutation_Forall; eassumption.
  - exists V'. split; [exact H'|]. apply local_ok in H'. destruct H' as (rv' & _ & Hr' & _ & _ & _ & S' & HV'). rewrite Hr in Hr'. injection Hr' as <-.
    split; [congruence|]. intros x _. rewrite HV, HV'. unfold total. f_equal. apply sumC_perm, HP.
Qed.
Lemma local_app G vol l1 l2 V1 V2 : local_of jn spline l1 G vol m = Ok V1 -> local_of jn spline l2 G vol m = Ok V2 ->
  exists V, local_of jn spline (l1 ++ l2) G vol m = Ok V /\ tshape V = tshape G /\ forall x, tget V x = tget V1 x + tget V2 x.
Proof.
  intros H1 H2. apply local_ok in H1. apply local_ok in H2. destruct H1 as (rv & H3 & Hr & Hm & Ha & HF & S & HV). destruct H2 as (rv2 & _ & Hr2 & _ & Ha2 & HF2 & S2 & HV2).
  rewrite Hr in Hr2. injection Hr2 as <-. destruct (local_returns G rv vol (l1 ++ l2) H3 Hr Hm) as [V H].
  - intros E. apply app_eq_nil in E. apply Ha, E.
  - apply Forall_app. split; assumption.
  - exists V. split; [exact H|]. apply local_ok in H. destruct H as (rv' & _ & Hr' & _ & _ & _ & S' & HV'). rewrite Hr in Hr'. injection Hr' as <-. split; [exact S'|].
    intros x. rewrite HV, HV2, HV'. unfold total. rewrite sumC_app. ring.
Qed.
Lemma factor_moved G rv a t x : factor G rv (moved a t) x = factor G rv a x.
Proof. reflexivity. Qed.
Lemma local_shift G vol atoms t V : local_of jn spline atoms G vol m = Ok V ->
  exists V', local_of jn spline (map (fun a => moved a t) atoms) G vol m = Ok V' /\ tshape V' = tshape V /\ forall x, tget V' x = cis (- dot (tget G x) t) * tget V x.
Proof.
  intros H. apply local_ok in H. destruct H as (rv & H3 & Hr & Hm & Ha & HF & S & HV).
  destruct (local_returns G rv vol (map (fun a => moved a t) atoms) H3 Hr Hm) as [V' H'].
  - intros E. apply map_eq_nil in E. contradiction.
  - apply Forall_map. exact HF.
  - exists V'. split; [exact H'|]. apply local_ok in H'. destruct H' as (rv' & _ & Hr' & _ & _ & _ & S' & HV'). rewrite Hr in Hr'. injection Hr' as <-.
    split; [congruence|]. intros x. rewrite HV, HV'. unfold total. rewrite sumC_map. rewrite Cmult_assoc. f_equal. rewrite <- sumC_scal. apply sumC_ext. intros a _.
    rewrite factor_moved. unfold moved. cbn [a_pos]. rewrite dot_add_r. replace (- (dot (tget G x) (a_pos a) + dot (tget G x) t))%R with (- dot (tget G x) t + - dot (tget G x) (a_pos a))%R by ring.
    rewrite cis_plus. ring.
Qed.
Lemma local_lattice A n1 n2 n3 G vol atoms shifts V : m3det A <> 0%R -> g_vectors A [n1; n2; n3] = Ok G -> length shifts = length atoms -> Forall (in_lattice A) shifts ->
  local_of jn spline atoms G vol m = Ok V ->
  exists V', local_of jn spline (map (fun p => moved (fst p) (snd p)) (combine atoms shifts)) G vol m = Ok V' /\ teq V V'.
Proof.
  intros HA HG HL HS H. apply local_ok in H. destruct H as (rv & H3 & Hr & Hm & Ha & HF & S & HV).
  destruct (local_returns G rv vol (map (fun p => moved (fst p) (snd p)) (combine atoms shifts)) H3 Hr Hm) as [V' H'].
  - intros E. apply map_eq_nil in E. destruct atoms, shifts; try discriminate. contradiction.
  - apply Forall_map. apply Forall_forall. intros [a s] Hin. apply in_combine_l in Hin. rewrite Forall_forall in HF. apply (HF a Hin).
  - exists V'. split; [exact H'|]. apply local_ok in H'. destruct H' as (rv' & _ & Hr' & _ & _ & _ & S' & HV'). rewrite Hr in Hr'. injection Hr' as <-.
    split; [congruence|]. intros x Hx. rewrite S, (grid_shape _ _ _ _ HG) in Hx. rewrite HV, HV'. unfold total. rewrite sumC_map. f_equal.
    clear V V' S S' HV HV' Ha HF. revert shifts HL HS. induction atoms as [|a l IH]; intros [|s shifts] HL HS; try discriminate; [reflexivity|].
    inversion HS as [|? ? Hs HS']; subst. cbn [combine sumC fst snd]. rewrite (IH shifts) by (assumption || (injection HL as HL; exact HL)). f_equal.
    rewrite factor_moved. unfold moved. cbn [a_pos]. rewrite (g_lattice_cis A n1 n2 n3 G x s (a_pos a) HA HG Hx Hs). reflexivity.
Qed.
(** *** Conjugation symmetry on odd grids *)
Lemma radius_neg A n1 n2 n3 G x : g_vectors A [n1; n2; n3] = Ok G -> Nat.odd n1 = true -> Nat.odd n2 = true -> Nat.odd n3 = true ->
  inb x [n1; n2; n3] -> tget (grid_vector_radius G) (neg_index [n1; n2; n3] x) = tget (grid_vector_radius G) x.
Proof.
  intros HG H1 H2 H3 Hx. cbn [grid_vector_radius tmap tget]. rewrite (g_neg A n1 n2 n3 G x HG H1 H2 H3 Hx). f_equal. unfold vneg. cbn [vx vy vz]. ring.
Qed.
Lemma sr_neg A n1 n2 n3 G rv a t x : g_vectors A [n1; n2; n3] = Ok G -> tshape rv = [n1; n2; n3] -> Nat.odd n1 = true -> Nat.odd n2 = true -> Nat.odd n3 = true ->
  inb x [n1; n2; n3] -> sr G rv a = Ok t -> tget t (neg_index [n1; n2; n3] x) = Cconj (tget t x).
Proof.
  intros HG Sr H1 H2 H3 Hx Ht. unfold sr, short_range in Ht. destruct (length (a_v a) =? length (a_r a))%nat; [|discriminate]. destruct m; [| |discriminate].
  - destruct (Rmaxl _) as [k|]; [|discriminate]. cbn [bind] in Ht. destruct (sbt_numerical _ _ _ _ _ _) as [u|]; [|discriminate]. cbn [bind] in Ht.
    assert (E := f_equal getT Ht). cbn [getT] in E. subst t. cbn [tmap tget]. rewrite Cconj_R. do 3 f_equal.
    exact (radius_neg A n1 n2 n3 G x HG H1 H2 H3 Hx).
  - match goal with H : context [fftn3 ?u] |- _ => set (w := u) in * end.
    destruct (fftn3_eq w [] [n1; n2; n3] eq_refl) as (f & Ef & Sf & Gf); [exact Sr|]. rewrite Ef in Ht. cbn [bind] in Ht.
    assert (E := f_equal getT Ht). cbn [getT] in E. subst t. cbn [tmap tget].
    rewrite (Gf [] x eq_refl : tget f x = _), (Gf [] (neg_index [n1; n2; n3] x) eq_refl : tget f (neg_index _ x) = _). cbn [app].
    rewrite !Cconj_mult, !Cconj_R. do 2 f_equal. unfold w. cbn [tmap tget]. apply dft_real_sym. exact Hx.
Qed.
Lemma local_conj A n1 n2 n3 G vol atoms V : g_vectors A [n1; n2; n3] = Ok G -> Nat.odd n1 = true -> Nat.odd n2 = true -> Nat.odd n3 = true ->
  local_of jn spline atoms G vol m = Ok V -> forall x, inb x [n1; n2; n3] -> tget V (neg_index [n1; n2; n3] x) = Cconj (tget V x).
Proof.
  intros HG H1 H2 H3 H x Hx. destruct (g2r_ok A n1 n2 n3 G HG) as (S & rv & Hr & Sr). apply local_ok in H. destruct H as (rv' & _ & Hr' & _ & _ & HF & _ & HV).
  rewrite Hr in Hr'. injection Hr' as <-. rewrite !HV. unfold total. rewrite Cconj_mult, Cconj_R, Cconj_sum. f_equal. apply sumC_ext. intros a Hin.
  rewrite Cconj_mult, cis_conj. rewrite (g_neg A n1 n2 n3 G x HG H1 H2 H3 Hx), dot_neg_l. f_equal.
  unfold factor. rewrite (origin_neg [n1; n2; n3] x Hx : is_origin (neg_index [n1; n2; n3] x) = is_origin x). destruct (is_origin x); [rewrite Cconj_R; reflexivity|].
  rewrite Forall_forall in HF. destruct (HF a Hin) as (t & Et). rewrite Et. cbn [getT].
  rewrite (sr_neg A n1 n2 n3 G rv a t x HG Sr H1 H2 H3 Hx Et), (radius_neg A n1 n2 n3 G x HG H1 H2 H3 Hx), Cconj_minus, Cconj_R. reflexivity.
Qed.
Lemma local_real A n1 n2 n3 G vol atoms V : g_vectors A [n1; n2; n3] = Ok G -> Nat.odd n1 = true -> Nat.odd n2 = true -> Nat.odd n3 = true ->
  local_of jn spline atoms G vol m = Ok V -> exists v, ifftn3 V = Ok v /\ tshape v = [n1; n2; n3] /\ real_valued v.
Proof.
  intros HG H1 H2 H3 H. assert (SV : tshape V = [n1; n2; n3]) by (pose proof (local_ok _ _ _ _ H) as (rv & _ & _ & _ & _ & _ & S & _); rewrite S; exact (grid_shape _ _ _ _ HG)).
  destruct (ifftn3_eq V [] [n1; n2; n3] eq_refl SV) as (v & Ev & Sv & Gv). exists v. split; [exact Ev|]. split; [exact Sv|].
  intros x Hx. rewrite Sv in Hx. cbn [app] in Hx. rewrite (Gv [] x eq_refl : tget v x = _). apply idft_real; [exact Hx|]. cbn [app].
  apply (local_conj A n1 n2 n3 G vol atoms V); assumption.
Qed.
Lemma local_hermitian A n1 n2 n3 G vol atoms V wave sp K B : g_vectors A [n1; n2; n3] = Ok G -> Nat.odd n1 = true -> Nat.odd n2 = true -> Nat.odd n3 = true ->
  local_of jn spline atoms G vol m = Ok V -> tshape wave = [sp; K; B] ++ [n1; n2; n3] ->
  exists H, hamiltonian_local wave V vol = Ok H /\ tshape H = [sp; K; B; B] /\
    forall s k i j, (s < sp)%nat -> (k < K)%nat -> (i < B)%nat -> (j < B)%nat -> tget H [s; k; i; j] = Cconj (tget H [s; k; j; i]).
Proof.
  intros HG H1 H2 H3 HV Sw. destruct (local_real A n1 n2 n3 G vol atoms V HG H1 H2 H3 HV) as (v & Ev & Sv & Rv). unfold hamiltonian_local. rewrite Ev. cbn [bind].
  destruct (expectation_full wave wave v vol RealMode sp K B B n1 n2 n3) as (E & HE & SE & _); [discriminate|exact Sw|exact Sw|left; exact Sv|].
  exists E. split; [exact HE|]. split; [exact SE|]. apply (expectation_hermitian wave v vol RealMode sp K B n1 n2 n3 E); [discriminate|exact Sw|left; exact Sv| |exact HE].
  intros i Hi. apply Rv, Hi.
Qed.
End L.

(** *** The formula *)
Lemma radius_norm G x : tget (grid_vector_radius G) x = norm (tget G x).
Proof. cbn [grid_vector_radius tmap tget]. unfold norm, norm2, dot. f_equal. ring. Qed.
Lemma local_formula jn spline A n1 n2 n3 G vol atoms V : let ns := [n1; n2; n3] in g_vectors A ns = Ok G ->
  local_of jn spline atoms G vol SbtMethod = Ok V ->
  exists kmax, (exists x, inb x ns /\ kmax = norm (tget G x)) /\ (forall x, inb x ns -> (norm (tget G x) <= kmax)%R) /\ tshape V = ns /\
    forall x, inb x ns -> ~ at_origin x -> tget V x = RtoC (INR (nprod ns) / vol) * sumC atoms (fun a =>
      let ks := linspace (/ 10000) kmax (2 * length (a_r a)) in
      RtoC (4 * PI * (spline ks (map (radial_sum jn (a_r a) (screened a)) ks) (norm (tget G x)) - a_z a / norm2 (tget G x)))
      * cis (- dot (tget G x) (a_pos a))).
Proof.
  intros ns HG H. destruct (g2r_ok A n1 n2 n3 G HG) as (S & rv & Hr & Sr). apply local_ok in H. destruct H as (rv' & _ & Hr' & _ & Ha & HF & SV & HV).
  rewrite Hr in Hr'. injection Hr' as <-. 
  destruct (proj1 (g_vectors_ok A n1 n2 n3) (ex_intro _ G HG)) as (H1 & H2 & H3). destruct (indices_hd n1 n2 n3 H1 H2 H3) as (l & El). fold ns in El, S.
  assert (Hk : exists kmax, Rmaxl (map (tget (grid_vector_radius G)) (indices (tshape G))) = Ok kmax) by (rewrite S, El; cbn [map Rmaxl]; eexists; reflexivity).
  destruct Hk as (kmax & Hk). exists kmax. pose proof (Rmaxl_spec _ _ Hk) as [Kin Kub]. rewrite S in Kin, Kub.
  split; [|split; [|split]].
  - apply in_map_iff in Kin. destruct Kin as (x & E & Hx). exists x. apply in_indices in Hx. split; [exact Hx|]. rewrite <- E. apply radius_norm.
  - intros x Hx. rewrite <- radius_norm. apply Kub. apply in_map. apply in_indices. exact Hx.
  - rewrite SV. exact S.
  - intros x Hx Hox. rewrite HV. unfold total. rewrite S. fold ns. rewrite Cmult_comm. f_equal. apply sumC_ext. intros a Hin. cbv zeta. f_equal. unfold factor.
    assert (Eo : is_origin x = false).
    { destruct (is_origin x) eqn:E; [|reflexivity]. exfalso. apply Hox. unfold at_origin. apply Forall_forall. unfold is_origin in E. rewrite forallb_forall in E. intros k Hk'. specialize (E k Hk'). apply Nat.eqb_eq in E. symmetry. exact E. }
    rewrite Eo. rewrite Forall_forall in HF. destruct (HF a Hin) as (t & Et). rewrite Et. cbn [getT]. unfold sr, short_range in Et.
    destruct (Nat.eqb_spec (length (a_v a)) (length (a_r a))) as [El'|]; [|discriminate]. rewrite Hk in Et. cbn [bind] in Et. fold (screened a) in Et.
    destruct (sbt_numerical jn (a_r a) (F2 [screened a]) (LInt 0) (Some kmax) None) as [[g rows]|] eqn:Es; [|discriminate]. cbn [bind fst snd] in Et.
    assert (E := f_equal getT Et). cbn [getT] in E. subst t. cbn [tmap tget]. rewrite <- norm_sq.
    change (sqrt (vx (tget G x) ^ 2 + vy (tget G x) ^ 2 + vz (tget G x) ^ 2)%R) with (tget (grid_vector_radius G) x). rewrite !radius_norm.
    apply sbt_int in Es. cbv zeta in Es. destruct Es as (_ & _ & Es). apply pair_equal_spec in Es. destruct Es as [-> ->]. cbn [rows_of map nth].
    rewrite (map_ext (quad jn (a_r a) (spacing (a_r a)) (screened a) 0) (radial_sum jn (a_r a) (screened a))) by (intros g; apply quad_default).
    rewrite <- RtoC_minus. f_equal. unfold Rdiv. ring.
Qed.
