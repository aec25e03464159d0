(** Proofs about the transforms of the beta functions. *)
From Coq Require Import List Arith ZArith Reals Bool Lra Lia.
From Coquelicot Require Import Complex.
From Verif Require Import Base Sums Tensor DFT GridModel GridProofs Lin3 VecModel VecProofs SbtModel SbtProofs SbtProofs2 LocProofs NlocModel NlocSpec NlocProofs.
From Coq Require Import List.
Import ListNotations.
Local Open Scope R_scope.

Section B.
Variable jn : Z -> R -> R.
Variable spline : list R -> list R -> R -> R.
Definition radii (G : tensor v3) (kpts : list v3) : list R := map (tget (tmap norm (gk G kpts))) (indices (tshape (tmap norm (gk G kpts)))).
Lemma in_radii G kpts y : In y (radii G kpts) <-> exists k x, (k < length kpts)%nat /\ inb x (tshape G) /\ y = norm (vadd (nth k kpts vzero) (tget G x)).
Proof.
  unfold radii. rewrite in_map_iff. split.
  - intros (i & <- & Hi). apply in_indices in Hi. cbn [tmap gk tshape] in Hi. inversion Hi as [|k n x sh Hk Hx]; subst. exists k, x. split; [exact Hk|]. split; [exact Hx|]. reflexivity.
  - intros (k & x & Hk & Hx & ->). exists (k :: x). split; [reflexivity|]. apply in_indices. constructor; assumption.
Qed.
Lemma largest_max G kpts kmax : Rmaxl (radii G kpts) = Ok kmax -> largest G kpts kmax.
Proof.
  intros E. apply Rmaxl_spec in E. destruct E as [E1 E2]. split; [apply in_radii, E1|]. intros k x Hk Hx. apply E2, in_radii. exists k, x. auto.
Qed.
Lemma largest_unique G kpts a b : largest G kpts a -> largest G kpts b -> a = b.
Proof. intros ((k & x & Hk & Hx & ->) & Ha) ((k' & x' & Hk' & Hx' & ->) & Hb). apply Rle_antisym; [apply Hb|apply Ha]; assumption. Qed.
Lemma transform_drop l r f g : radial_transform jn l (0 :: r) f g = radial_transform jn l r (tl f) g.
Proof.
  unfold radial_transform. cbn [length]. destruct r as [|r1 r]; [reflexivity|]. cbn [length]. replace (S (S (length r)) - 1)%nat with (S (length r)) by lia. replace (S (length r) - 1)%nat with (length r) by lia.
  cbn [seq]. change (sumR (0%nat :: ?t) ?h) with (h 0%nat + sumR t h). cbv beta. rewrite <- seq_shift, sumR_map. cbn [nth].
  rewrite (sumR_ext _ _ (fun i => nth i (tl f) 0 * nth i (r1 :: r) 0 ^ 2 * jn l (g * nth i (r1 :: r) 0) * (nth (S i) (r1 :: r) 0 - nth i (r1 :: r) 0))); [cbn [nth]; ring|].
  intros i _. destruct f; [destruct i; reflexivity|reflexivity].
Qed.
Lemma single_ok r beta l G kpts t : beta_sbt_single_atom jn spline r beta l G kpts = Ok t ->
  length l = length beta /\ Forall (fun row => length row = length r) beta /\ (0 < used_points r)%nat /\
  exists kmax, largest G (ks_of kpts) kmax /\ / 10000 < kmax /\ tshape t = length (ks_of kpts) :: length beta :: tshape G /\
   forall k j x, (k < length (ks_of kpts))%nat -> (j < length beta)%nat -> tget t (k :: j :: x) =
    spline (knots kmax r) (map (radial_transform jn (nth j l 0%Z) r (nth j beta [])) (knots kmax r)) (norm (vadd (nth k (ks_of kpts) vzero) (tget G x))).
Proof.
  unfold beta_sbt_single_atom. destruct (Nat.eqb_spec (length l) (length beta)) as [El|]; [|discriminate]. cbn [negb].
  destruct (forallb _ beta) eqn:Fb; [|discriminate]. cbn [negb]. rewrite forallb_forall in Fb. assert (Hb : Forall (fun row => length row = length r) beta) by (apply Forall_forall; intros row Hr; apply Nat.eqb_eq, Fb, Hr).
  destruct r as [|r0 r']; [discriminate|]. fold (ks_of kpts).
  set (rr := if Req_EM_T r0 0 then r' else r0 :: r'). set (bb := if Req_EM_T r0 0 then map (@tl R) beta else beta).
  replace (if Req_EM_T r0 0 then (r', map (@tl R) beta) else (r0 :: r', beta)) with (rr, bb) by (unfold rr, bb; destruct (Req_EM_T r0 0); reflexivity).
  cbv zeta beta iota. fold (radii G (ks_of kpts)). destruct (Rmaxl _) as [kmax|] eqn:Ek; [|discriminate]. cbn [bind].
  destruct (sbt_numerical jn rr (F2 bb) (LList l) (Some kmax) None) as [[g rows]|] eqn:Es; [|discriminate]. cbn [bind fst snd].
  destruct (Nat.eqb_spec (length rr) 0) as [|Hr]; [discriminate|]. destruct (Rle_dec kmax (/ 10000)) as [|Hk]; [discriminate|].
  intros E. assert (Et : t = mkT (hd 0%nat (tshape (gk G (ks_of kpts))) :: length bb :: tshape G) (fun i => spline g (nth (nth 1 i 0%nat) rows []) (tget (tmap norm (gk G (ks_of kpts))) (hd 0%nat i :: skipn 2 i)))) by congruence.
  assert (Lb : length bb = length beta) by (unfold bb; destruct (Req_EM_T r0 0); [apply map_length|reflexivity]).
  assert (U : used_points (r0 :: r') = length rr) by (unfold used_points, rr; destruct (Req_EM_T r0 0); reflexivity).
  split; [exact El|]. split; [exact Hb|]. split; [rewrite U; lia|]. exists kmax. split; [apply largest_max, Ek|]. split; [lra|]. split; [rewrite Et; cbn [tshape gk hd]; rewrite Lb; reflexivity|].
  intros k j x Hkk Hj. rewrite Et. cbn [tget nth hd skipn tmap gk tl]. apply sbt_list in Es. cbv zeta in Es. destruct Es as (fs & Ef & Lf & Ff & Ld & Eo). injection Ef as <-. apply pair_equal_spec in Eo. destruct Eo as [-> ->].
  unfold knots. rewrite U. f_equal. rewrite (nth_map_lt' _ _ j [] ([], 0%Z)) by (rewrite combine_length; lia). rewrite combine_nth by lia. cbn [fst snd]. apply map_ext. intros g0. rewrite quad_default.
  change (radial_transform jn (nth j l 0%Z) rr (nth j bb []) g0 = radial_transform jn (nth j l 0%Z) (r0 :: r') (nth j beta []) g0).
  unfold rr, bb. destruct (Req_EM_T r0 0) as [->|]; [|reflexivity]. rewrite transform_drop. f_equal. rewrite (nth_map_lt' (@tl R) beta j [] []) by exact Hj. reflexivity.
Qed.
Lemma single_returns r beta l G kpts : (exists t, beta_sbt_single_atom jn spline r beta l G kpts = Ok t) <->
  length l = length beta /\ Forall (fun row => length row = length r) beta /\ (0 < used_points r)%nat /\ exists k x, (k < length (ks_of kpts))%nat /\ inb x (tshape G) /\ / 10000 < norm (vadd (nth k (ks_of kpts) vzero) (tget G x)).
Proof.
  split.
  - intros (t & E). destruct (single_ok _ _ _ _ _ _ E) as (H1 & H2 & H3 & kmax & ((k & x & Hk & Hx & ->) & _) & Hm & _). repeat (split; [assumption|]). exists k, x. auto.
  - intros (H1 & H2 & H3 & k & x & Hk & Hx & Hm). unfold beta_sbt_single_atom. rewrite H1, Nat.eqb_refl. cbn [negb].
    replace (forallb _ beta) with true by (symmetry; apply forallb_forall; intros row Hr; rewrite Forall_forall in H2; apply Nat.eqb_eq, H2, Hr). cbn [negb].
    destruct r as [|r0 r']; [cbn in H3; lia|]. fold (ks_of kpts).
    set (rr := if Req_EM_T r0 0 then r' else r0 :: r'). set (bb := if Req_EM_T r0 0 then map (@tl R) beta else beta).
    replace (if Req_EM_T r0 0 then (r', map (@tl R) beta) else (r0 :: r', beta)) with (rr, bb) by (unfold rr, bb; destruct (Req_EM_T r0 0); reflexivity).
    cbv zeta beta iota. fold (radii G (ks_of kpts)). destruct (Rmaxl (radii G (ks_of kpts))) as [kmax|e] eqn:Ek.
    + cbn [bind]. destruct (largest_max _ _ _ Ek) as (_ & Hle). specialize (Hle k x Hk Hx).
      destruct (sbt_numerical jn rr (F2 bb) (LList l) (Some kmax) None) as [tt|e] eqn:Es.
      * cbn [bind]. assert (U : used_points (r0 :: r') = length rr) by (unfold used_points, rr; destruct (Req_EM_T r0 0); reflexivity).
        destruct (Nat.eqb_spec (length rr) 0); [lia|]. destruct (Rle_dec kmax (/ 10000)); [lra|]. eexists. reflexivity.
      * exfalso. assert (Hx' : raises (sbt_numerical jn rr (F2 bb) (LList l) (Some kmax) None)) by (exists e; exact Es). apply sbt_raises in Hx'.
        assert (Lb : length bb = length beta) by (unfold bb; destruct (Req_EM_T r0 0); [apply map_length|reflexivity]).
        destruct Hx' as [X|[X|[(ls & X & N)|[X|(d & X & _)]]]]; try discriminate.
        -- injection X as <-. apply (N bb eq_refl). lia.
        -- apply Exists_exists in X. destruct X as (row & Hr & N). apply N. cbn [rows_of] in Hr. unfold bb, rr in *. rewrite Forall_forall in H2. destruct (Req_EM_T r0 0).
           ++ apply in_map_iff in Hr. destruct Hr as (row' & <- & Hr'). specialize (H2 row' Hr'). destruct row'; [discriminate|]. cbn in *. lia.
           ++ apply H2, Hr.
    + exfalso. assert (X : In (norm (vadd (nth k (ks_of kpts) vzero) (tget G x))) (radii G (ks_of kpts))) by (apply in_radii; exists k, x; auto). destruct (radii G (ks_of kpts)); [contradiction|discriminate].
Qed.
Lemma single_radial r beta l G kpts t : beta_sbt_single_atom jn spline r beta l G kpts = Ok t -> forall k k' j x x', (k < length (ks_of kpts))%nat -> (k' < length (ks_of kpts))%nat -> (j < length beta)%nat ->
  norm (vadd (nth k (ks_of kpts) vzero) (tget G x)) = norm (vadd (nth k' (ks_of kpts) vzero) (tget G x')) -> tget t (k :: j :: x) = tget t (k' :: j :: x').
Proof.
  intros E k k' j x x' Hk Hk' Hj Hn. destruct (single_ok _ _ _ _ _ _ E) as (_ & _ & _ & kmax & _ & _ & _ & V). rewrite !V by assumption. rewrite Hn. reflexivity.
Qed.
Lemma grid_rows rs betas ls G kpts out : beta_sbt_grid jn spline rs betas ls G kpts = Ok out <->
  length out = Nat.min (Nat.min (length rs) (length betas)) (length ls) /\
  forall a, (a < length out)%nat -> beta_sbt_single_atom jn spline (nth a rs []) (nth a betas []) (nth a ls []) G kpts = Ok (nth a out (mkT [] (fun _ => 0))).
Proof.
  unfold beta_sbt_grid. rewrite mapM_ok. split.
  - intros F. pose proof (Forall2_len _ _ _ F) as L. rewrite !combine_length in L. split; [lia|]. intros a Ha.
    assert (Hc : forall (a : nat), (a < length (combine (combine rs betas) ls))%nat -> nth a (combine (combine rs betas) ls) (([], []), []) = ((nth a rs [], nth a betas []), nth a ls [])).
    { clear. intros a Ha. rewrite !combine_length in Ha. revert betas ls a Ha. induction rs as [|r rs IH]; intros [|b betas] [|l ls] [|a] Ha; cbn in *; try lia; try reflexivity. apply IH. lia. }
    pose proof (Forall2_nth_lt _ _ _ (([], []), []) (mkT [] (fun _ => 0)) F a ltac:(rewrite !combine_length; lia)) as Q. cbv beta in Q. rewrite Hc in Q by (rewrite !combine_length; lia). exact Q.
  - intros (L & H). revert betas ls out L H. induction rs as [|r rs IH]; intros [|b betas] [|l ls] [|o out] L H; cbn in L; try lia; try constructor.
    + apply (H 0%nat). cbn. lia.
    + apply IH; [lia|]. intros a Ha. apply (H (S a)). cbn. lia.
Qed.
End B.
Section M.
Variable jn : Z -> R -> R.
Variable spline : list R -> list R -> R -> R.
Variable Y : Z -> Z -> R -> R -> C.
Variable eigh : list (list R) -> list R * list (list R).
Lemma default_projectors pos G kpts rs betas ls Ds m : m <> NlOther -> ndim G = 3%nat -> length betas = length ls ->
  nonlocal_psi jn spline Y eigh pos G kpts rs betas ls Ds None m =
  (do b <- beta_sbt_grid jn spline rs betas (map (map Z.of_nat) ls) G (Some kpts); nonlocal_psi jn spline Y eigh pos G kpts rs betas ls Ds (Some b) m).
Proof.
  intros Hm Hn Hl. unfold nonlocal_psi, nonlocal_psi_list. rewrite Hl, Nat.eqb_refl, Hn. cbn [negb Nat.eqb bind].
  destruct m; try contradiction; destruct (beta_sbt_grid _ _ _ _ _ _ _) as [b|e]; reflexivity.
Qed.
Lemma method_irrelevant pos G kpts rs betas ls Ds bg m m' : m <> NlOther -> m' <> NlOther ->
  nonlocal_psi jn spline Y eigh pos G kpts rs betas ls Ds bg m = nonlocal_psi jn spline Y eigh pos G kpts rs betas ls Ds bg m'.
Proof. intros Hm Hm'. unfold nonlocal_psi, nonlocal_psi_list. destruct m, m'; try contradiction; reflexivity. Qed.
End M.
