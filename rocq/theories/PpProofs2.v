(** Proofs about runs on pseudopotential files: the potentials built from the data. *)
From Coq Require Import Reals Lra Lia.
From Coquelicot Require Import Complex.
From Coq Require Import Ascii String List Arith ZArith Bool.
From Verif Require Import Base Sums Tensor Lin3 GridProofs VecModel CalcModel DrvModel DrvSpec UpfModel SbtModel LocModel LocSpec LocProofs NlocModel NlocSpec NlocProofs NlocProofs2 NlocProofs5 DrvProofs2 PpModel PpSpec PpProofs.
Import ListNotations.
Local Open Scope R_scope.

Lemma map_fst_combine {A B} (l : list A) : forall l' : list B, length l' = length l -> map fst (combine l l') = l.
Proof. induction l as [|a l IH]; intros [|b l'] H; try discriminate; [reflexivity|]. cbn. f_equal. apply IH. injection H as H. exact H. Qed.
Lemma map_snd_combine {A B} (l : list A) : forall l' : list B, length l' = length l -> map snd (combine l l') = l'.
Proof. induction l as [|a l IH]; intros [|b l'] H; try discriminate; [reflexivity|]. cbn. f_equal. apply IH. injection H as H. exact H. Qed.
Lemma map_via {A B C} (f : A -> B) (g : B -> C) l l' : map f l = l' -> map (fun x => g (f x)) l = map g l'.
Proof. intros <-. rewrite map_map. reflexivity. Qed.
Lemma bind_ok {A B} (r : res A) (f : A -> res B) b : bind r f = Ok b <-> exists a, r = Ok a /\ f a = Ok b.
Proof. destruct r; cbn; split; intros H; eauto; [destruct H as (? & E & H); injection E as <-; exact H|discriminate|destruct H as (? & ? & _); discriminate]. Qed.

Lemma mapM_returns {A B} (f : A -> res B) l : (forall x, In x l -> exists y, f x = Ok y) -> exists r, mapM f l = Ok r.
Proof.
  induction l as [|a l IH]; intros H; [eexists; reflexivity|]. destruct (H a (or_introl eq_refl)) as (y & Hy). destruct IH as (r & Hr); [intros x Hx; apply H; right; exact Hx|].
  exists (y :: r). cbn [mapM]. rewrite Hy. cbn [bind]. rewrite Hr. reflexivity.
Qed.

Definition natural (pp : list nc_atom) : Prop := Forall (fun b => Forall (fun l => (0 <= l)%Z) (c_l b)) pp.
Lemma momenta_iff pp : natural pp <-> momenta pp = Ok (map (fun a => map Z.to_nat (c_l a)) pp).
Proof.
  unfold momenta, natural. destruct (forallb _ pp) eqn:E.
  - rewrite forallb_forall in E. split; [reflexivity|]. intros _. apply Forall_forall. intros b Hb. apply Forall_forall. intros l Hl. specialize (E b Hb). cbv beta in E. rewrite forallb_forall in E. apply Z.leb_le, E, Hl.
  - split; [|discriminate]. intros F. exfalso. apply Bool.not_true_iff_false in E. apply E. apply forallb_forall. intros b Hb. apply forallb_forall. intros l Hl. rewrite Forall_forall in F. specialize (F b Hb). rewrite Forall_forall in F. apply Z.leb_le, F, Hl.
Qed.
Lemma momenta_inv pp ls : momenta pp = Ok ls -> natural pp /\ ls = map (fun a => map Z.to_nat (c_l a)) pp.
Proof.
  intros H. assert (E : ls = map (fun a => map Z.to_nat (c_l a)) pp) by (unfold momenta in H; destruct (forallb _ pp); [congruence|discriminate]). split; [|exact E]. apply momenta_iff. congruence.
Qed.

Section P.
Variable jn : Z -> R -> R.
Variables spline spline' : list R -> list R -> R -> R.
Variable Y : Z -> Z -> R -> R -> C.
Variable eigh : list (list R) -> list R * list (list R).
Variable cpus : nat.
Notation pre_calc := (pre_calc jn spline' cpus).
Notation file_local := (file_local jn spline).
Notation file_nonlocal := (file_nonlocal jn spline' Y eigh cpus).
Notation file_path := (file_path jn spline' Y eigh cpus).

Lemma file_local_of pp cr G vol : length (cr_positions cr) = length pp -> file_local pp cr G vol = local_of jn spline (loc_atoms cr pp) G vol SbtMethod.
Proof.
  intros L. unfold PpModel.file_local, local_of, loc_atoms, valences. rewrite !map_map. cbn [a_pos a_r a_v a_z].
  rewrite (map_ext (fun x : v3 * nc_atom => fst x) fst) by reflexivity. rewrite (map_fst_combine (cr_positions cr) pp) by lia.
  rewrite (map_via snd c_r _ pp), (map_via snd c_local _ pp), (map_via snd (fun b => IZR (c_valence b)) _ pp) by (apply map_snd_combine; lia). reflexivity.
Qed.
Lemma file_local_shape pp cr G vol V : file_local pp cr G vol = Ok V -> tshape V = tshape G.
Proof.
  unfold PpModel.file_local, potential_local_reciprocal. destruct (negb _); [discriminate|]. intros H. apply bind_ok in H. destruct H as (rv & _ & H). apply bind_ok in H. destruct H as (v1 & _ & H).
  destruct (length v1 =? 0)%nat; [discriminate|]. destruct (bshape _ _) as [[|n1 [|? ?]]|]; try discriminate. destruct (bshape _ _) as [[|n [|? ?]]|]; try discriminate. injection H as <-. reflexivity.
Qed.
Lemma get_psi_shape G kpts lm p l D b t : get_psi Y eigh G kpts lm p l D b = Ok t -> tshape t = [length kpts; length l; 2 * lm + 1]%nat ++ tshape G.
Proof. unfold get_psi. destruct (negb _); [discriminate|]. destruct (list_eq_dec _ _ _); [|discriminate]. destruct (eigh D). intros H. injection H as <-. reflexivity. Qed.
Lemma nl_shape pos G kpts rs betas ls Ds bg m psi : nonlocal_psi jn spline' Y eigh pos G kpts rs betas ls Ds bg m = Ok psi -> exists nb nm, tshape psi = [length kpts; nb; nm] ++ tshape G.
Proof.
  unfold nonlocal_psi. intros H. apply bind_ok in H. destruct H as (l & Hl & H).
  assert (E : exists lm, Forall (fun t => exists nb, tshape t = [length kpts; nb; 2 * lm + 1]%nat ++ tshape G) l).
  { unfold nonlocal_psi_list in Hl. destruct (negb _); [discriminate|]. destruct m; try discriminate; (destruct (negb _); [discriminate|]; apply bind_ok in Hl; destruct Hl as (bgk & _ & Hl); apply bind_ok in Hl; destruct Hl as (lm & _ & Hl);
    exists lm; apply mapM_ok in Hl; clear H; induction Hl as [|i t li lt Ht _ IH]; constructor; [|exact IH];
    destruct (nth_error ls i) as [li0|]; [|discriminate]; destruct (nth_error Ds i); [|discriminate]; destruct (nth_error bgk i); [|discriminate]; exists (length li0); eapply get_psi_shape, Ht). }
  destruct E as (lm & F). unfold concat1 in H. destruct l as [|t0 l]; [discriminate|]. destruct (forallb _ _); [|discriminate]. inversion F as [|? ? (nb & E) _]; subst.
  injection H as <-. cbn [tshape]. rewrite E. cbn [hd app skipn]. eauto.
Qed.
Lemma file_nonlocal_shape pp cr G kpts psi : file_nonlocal pp cr G kpts = Ok psi -> exists nb nm, tshape psi = [length kpts; nb; nm] ++ tshape G.
Proof. unfold PpModel.file_nonlocal. intros H. apply bind_ok in H. destruct H as (ls & _ & H). apply bind_ok in H. destruct H as (bg & _ & H). eapply nl_shape, H. Qed.
Lemma file_on_grid : on_grid file_local file_nonlocal.
Proof. split; [apply file_local_shape|apply file_nonlocal_shape]. Qed.
Lemma file_path_shape pp cr G path k psi : file_path pp cr G path k = Ok psi -> exists nb nm, tshape psi = [1; nb; nm]%nat ++ tshape G.
Proof. unfold PpModel.file_path. intros H. apply bind_ok in H. destruct H as (ls & _ & H). apply bind_ok in H. destruct H as (bg & _ & H). destruct (nl_shape _ _ _ _ _ _ _ _ _ _ H) as (nb & nm & E). exists nb, nm. exact E. Qed.

(** *** The radial parts *)
Lemma pre_calc_inv pp G kpts betas : pre_calc pp G kpts = Ok betas -> (2 <= cpus)%nat /\ length betas = length pp /\
  forall a b, nth_error pp a = Some b -> exists t, nth_error betas a = Some t /\ beta_sbt_single_atom jn spline' (c_r b) (c_beta b) (c_l b) G (Some kpts) = Ok t.
Proof using jn spline' cpus. clear spline Y eigh.
  unfold PpModel.pre_calc. destruct (Nat.eqb_spec (cpus / 2) 0) as [|Hc]; [discriminate|]. intros H.
  assert (2 <= cpus)%nat. { destruct (le_lt_dec 2 cpus) as [|L]; [assumption|]. exfalso. apply Hc. apply Nat.div_small. exact L. }
  split; [assumption|]. apply grid_rows in H. rewrite !map_length in H. destruct H as [L H]. split; [lia|]. intros a b Hb.
  assert (La : (a < length pp)%nat) by (apply nth_error_Some; congruence). exists (nth a betas (mkT [] (fun _ => 0))). split; [apply nth_error_nth'; lia|].
  specialize (H a ltac:(lia)).
  rewrite (nth_error_nth (map c_r pp) a [] (map_nth_error c_r _ _ Hb)), (nth_error_nth (map c_beta pp) a [] (map_nth_error c_beta _ _ Hb)), (nth_error_nth (map c_l pp) a [] (map_nth_error c_l _ _ Hb)) in H. exact H.
Qed.
Lemma pre_calc_radial pp G kpts betas : pre_calc pp G kpts = Ok betas -> forall kmax, NlocSpec.largest G kpts kmax -> radial_parts jn spline' pp G kpts kmax betas.
Proof using jn spline' cpus. clear spline Y eigh.
  intros H kmax Hm. apply pre_calc_inv in H. destruct H as (_ & L & H). split; [exact L|]. intros a b Hb. destruct (H a b Hb) as (t & Ht & Et). exists t. split; [exact Ht|].
  apply single_ok in Et. destruct Et as (_ & _ & _ & k' & Hk & _ & S & V). cbn [ks_of] in *. rewrite (largest_unique _ _ _ _ Hm Hk). split; [exact S|]. exact V.
Qed.
Definition enough (G : tensor v3) (kpts : list v3) : Prop := exists k x, (k < length kpts)%nat /\ inb x (tshape G) /\ / 10000 < norm (vadd (nth k kpts vzero) (tget G x)).
Lemma pre_calc_returns pp G kpts : Forall good pp -> ((exists betas, pre_calc pp G kpts = Ok betas) <-> (2 <= cpus)%nat /\ (pp <> [] -> Forall (fun b => c_r b <> []) pp /\ enough G kpts)).
Proof using jn spline' cpus. clear spline Y eigh.
  intros Hg. rewrite Forall_forall in Hg. split.
  - intros (betas & H). apply pre_calc_inv in H. destruct H as (Hc & L & H). split; [exact Hc|]. intros Hne.
    assert (K : forall b, In b pp -> c_r b <> [] /\ enough G kpts).
    { intros b Hb. destruct (In_nth_error _ _ Hb) as (a & Ha). destruct (H a b Ha) as (t & _ & Et). destruct (proj1 (single_returns _ _ _ _ _ _ _) (ex_intro _ t Et)) as (_ & _ & Hu & He).
      split; [|exact He]. intros E. rewrite E in Hu. cbn in Hu. lia. }
    split; [apply Forall_forall; intros b Hb; apply K, Hb|]. destruct pp as [|b pp]; [contradiction|]. apply (K b). left; reflexivity.
  - intros (Hc & H). unfold PpModel.pre_calc. destruct (Nat.eqb_spec (cpus / 2) 0) as [E|_]; [exfalso; pose proof (Nat.div_le_mono 2 cpus 2 ltac:(lia) Hc) as D; rewrite E in D; cbn in D; lia|].
    unfold beta_sbt_grid. apply mapM_returns. intros [[r be] l] Hx. destruct pp as [|b0 pp]; [destruct Hx|]. destruct (H ltac:(discriminate)) as [Hr He]. clear H. set (q := b0 :: pp) in *. clearbody q.
    assert (Hb : exists b, In b q /\ r = c_r b /\ be = c_beta b /\ l = c_l b).
    { clear -Hx. induction q as [|b q IH]; [destruct Hx|]. cbn [map combine In] in Hx. destruct Hx as [E|Hx]; [injection E as <- <- <-; exists b; repeat split; left; reflexivity|]. destruct (IH Hx) as (b' & Hb & E). exists b'. split; [right; exact Hb|exact E]. }
    destruct Hb as (b & Hb & -> & -> & ->). destruct (Hg b Hb) as (G1 & G2 & _ & _ & _ & G6). cbn [fst snd]. apply single_returns. split; [exact G1|]. split; [exact G2|]. rewrite Forall_forall in Hr. specialize (Hr b Hb). split; [|exact He].
    rewrite used_positive by exact G6. destruct (c_r b); [contradiction|cbn; lia].
Qed.

(** *** The nonlocal potential *)
Lemma combine3 (pos : list v3) (pp : list nc_atom) (betas : list (tensor R)) : length pos = length pp -> length betas = length pp ->
  map p_pos (map (fun x : v3 * nc_atom * tensor R => mkProj (fst (fst x)) (map Z.to_nat (c_l (snd (fst x)))) (c_d (snd (fst x))) (snd x)) (combine (combine pos pp) betas)) = pos /\
  map p_l (map (fun x : v3 * nc_atom * tensor R => mkProj (fst (fst x)) (map Z.to_nat (c_l (snd (fst x)))) (c_d (snd (fst x))) (snd x)) (combine (combine pos pp) betas)) = map (fun a => map Z.to_nat (c_l a)) pp /\
  map p_D (map (fun x : v3 * nc_atom * tensor R => mkProj (fst (fst x)) (map Z.to_nat (c_l (snd (fst x)))) (c_d (snd (fst x))) (snd x)) (combine (combine pos pp) betas)) = map c_d pp /\
  map p_beta (map (fun x : v3 * nc_atom * tensor R => mkProj (fst (fst x)) (map Z.to_nat (c_l (snd (fst x)))) (c_d (snd (fst x))) (snd x)) (combine (combine pos pp) betas)) = betas.
Proof.
  revert pp betas. induction pos as [|p pos IH]; intros [|b pp] [|t betas] L1 L2; try discriminate; [repeat split|]. injection L1 as L1. injection L2 as L2. destruct (IH pp betas L1 L2) as (E1 & E2 & E3 & E4).
  cbn [combine map fst snd p_pos p_l p_D p_beta]. rewrite E1, E2, E3, E4. repeat split.
Qed.
Lemma file_nonlocal_of pp cr G kpts betas : length (cr_positions cr) = length pp -> natural pp -> pre_calc pp G kpts = Ok betas ->
  file_nonlocal pp cr G kpts = psi_of jn spline' Y eigh (nl_atoms cr pp betas) G kpts (map c_r pp) (map c_beta pp) NlSbt.
Proof.
  intros L Hn Hb. unfold PpModel.file_nonlocal. rewrite (proj1 (momenta_iff pp) Hn). cbn [bind]. rewrite Hb. cbn [bind]. apply pre_calc_inv in Hb. destruct Hb as (_ & Lb & _).
  unfold psi_of, nl_atoms. destruct (combine3 (cr_positions cr) pp betas L Lb) as (-> & -> & -> & ->). reflexivity.
Qed.
Lemma nl_fits pp cr G kpts betas : length (cr_positions cr) = length pp -> Forall good pp -> pre_calc pp G kpts = Ok betas -> Forall (fits G kpts) (nl_atoms cr pp betas).
Proof.
  intros L Hg Hb. apply pre_calc_inv in Hb. destruct Hb as (_ & Lb & Hb). unfold nl_atoms. apply Forall_map, Forall_forall. intros [[p b] t] Hx.
  destruct (In_nth_error _ _ Hx) as (a & Ha).
  assert (K : nth_error pp a = Some b /\ nth_error betas a = Some t).
  { clear -Ha. revert Ha. generalize (cr_positions cr). intros pos. revert pos pp betas. induction a as [|a IH]; intros [|q pos] [|b' pp] [|t' betas] Ha; cbn in Ha; try discriminate; [injection Ha as -> -> ->; split; reflexivity|]. cbn. apply (IH pos). exact Ha. }
  destruct K as [K1 K2]. destruct (Hb a b K1) as (t' & Ht & Et). rewrite K2 in Ht. injection Ht as <-. rewrite Forall_forall in Hg. destruct (Hg b (nth_error_In _ _ K1)) as (G1 & _ & G3 & G4 & _).
  unfold fits. cbn [p_D p_l p_beta fst snd]. rewrite !map_length. split; [exact G3|]. split; [exact G4|]. apply single_ok in Et. destruct Et as (_ & _ & _ & km & _ & _ & S & _). cbn [ks_of] in S. rewrite S, G1. reflexivity.
Qed.
Lemma concat_map_nat pp : concat (map (fun a => map Z.to_nat (c_l a)) pp) = [] <-> concat (map c_l pp) = [].
Proof. induction pp as [|b pp IH]; [split; reflexivity|]. cbn [map concat]. destruct (c_l b); cbn [map app]; [exact IH|split; discriminate]. Qed.
Lemma nonlocal_exists pp cr G kpts : length (cr_positions cr) = length pp -> Forall good pp -> ndim G = 3%nat ->
  ((exists psi, file_nonlocal pp cr G kpts = Ok psi) <-> (2 <= cpus)%nat /\ natural pp /\ concat (map c_l pp) <> [] /\ Forall (fun b => c_r b <> []) pp /\ enough G kpts).
Proof.
  intros L Hg H3. split.
  - intros (psi & H). pose proof H as H0. unfold PpModel.file_nonlocal in H0. apply bind_ok in H0. destruct H0 as (ls & Hls & H0). apply bind_ok in H0. destruct H0 as (betas & Hb & _). apply momenta_inv in Hls. destruct Hls as [Hn _].
    rewrite (file_nonlocal_of pp cr G kpts betas L Hn Hb) in H. destruct (proj1 (psi_of_returns _ _ _ _ _ _ _ _ _ _) (ex_intro _ psi H)) as (_ & _ & _ & Hne & _).
    assert (Hc : concat (map c_l pp) <> []). { intros E. apply Hne. unfold nl_atoms. destruct (combine3 (cr_positions cr) pp betas L) as (_ & -> & _ & _); [apply pre_calc_inv in Hb; apply Hb|]. apply concat_map_nat, E. }
    destruct (proj1 (pre_calc_returns pp G kpts Hg) (ex_intro _ betas Hb)) as (H2 & He). destruct He as [He1 He2]; [intros ->; apply Hc; reflexivity|]. auto.
  - intros (H2 & Hn & Hc & Hr & He). destruct (proj2 (pre_calc_returns pp G kpts Hg)) as (betas & Hb); [split; [exact H2|intros _; split; assumption]|].
    rewrite (file_nonlocal_of pp cr G kpts betas L Hn Hb). apply psi_of_returns. assert (Lb : length betas = length pp) by (apply pre_calc_inv in Hb; apply Hb). destruct (combine3 (cr_positions cr) pp betas L Lb) as (_ & El & _ & Eb).
    split; [unfold nl_atoms; rewrite !map_length, !combine_length; lia|]. split; [discriminate|]. split; [exact H3|]. split; [|apply nl_fits; assumption].
    unfold nl_atoms. rewrite El. intros E. apply Hc. apply concat_map_nat, E.
Qed.
Lemma local_exists A n1 n2 n3 pp cr G vol : length (cr_positions cr) = length pp -> Forall good pp -> g_vectors A [n1; n2; n3] = Ok G -> ((exists V, file_local pp cr G vol = Ok V) <-> pp <> []).
Proof.
  intros L Hg HG. rewrite file_local_of by exact L. rewrite (local_returns_iff jn spline SbtMethod A n1 n2 n3 G vol _ HG). split.
  - intros (_ & H & _) ->. apply H. unfold loc_atoms. destruct (cr_positions cr); reflexivity.
  - intros H. split; [discriminate|]. split.
    + destruct pp as [|b pp]; [contradiction|]. unfold loc_atoms. destruct (cr_positions cr); [discriminate|]. discriminate.
    + unfold loc_atoms. apply Forall_map, Forall_forall. intros [p b] Hx. cbn [a_v a_r snd]. apply in_combine_r in Hx. rewrite Forall_forall in Hg. apply (Hg b Hx).
Qed.
End P.
