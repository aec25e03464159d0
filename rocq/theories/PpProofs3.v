(** Proofs about runs on pseudopotential files: the points of a band path. *)
From Coq Require Import Reals Lra Lia.
From Coquelicot Require Import Complex.
From Coq Require Import Ascii String List Arith ZArith Bool.
From Verif Require Import Base Sums Tensor Lin3 GridProofs VecModel CalcModel DrvModel DrvSpec UpfModel SbtModel NlocModel NlocSpec NlocProofs NlocProofs5 PpModel PpSpec PpProofs PpProofs2.
Import ListNotations.
Local Open Scope R_scope.

Definition slice {A} (i : nat) (t t' : tensor A) : Prop := tshape t' = 1%nat :: tl (tshape t) /\ forall j, tget t' (0%nat :: j) = tget t (i :: j).
Lemma mapM_rel {A B} (f f' : A -> res B) (P : B -> B -> Prop) l : forall ts, mapM f l = Ok ts -> (forall x t, In x l -> f x = Ok t -> exists t', f' x = Ok t' /\ P t t') -> exists ts', mapM f' l = Ok ts' /\ Forall2 P ts ts'.
Proof.
  induction l as [|a l IH]; intros ts E H; [injection E as <-; exists []; split; [reflexivity|constructor]|]. cbn [mapM] in E. apply bind_ok in E. destruct E as (t & Et & E). apply bind_ok in E. destruct E as (r & Er & E). injection E as <-.
  destruct (H a t (or_introl eq_refl) Et) as (t' & Et' & Hp). destruct (IH r Er) as (r' & Er' & Hr); [intros x u Hx; apply H; right; exact Hx|]. exists (t' :: r'). cbn [mapM]. rewrite Et'. cbn [bind]. rewrite Er'. split; [reflexivity|constructor; assumption].
Qed.
Lemma point_index_nth path k i : (i < length path)%nat -> nth i path vzero = k -> (point_index path k < length path)%nat /\ nth (point_index path k) path vzero = k.
Proof.
  revert i. induction path as [|q path IH]; intros i Hi E; [cbn in Hi; lia|]. cbn [point_index]. destruct (v3_eq_dec q k) as [->|N]; [cbn; split; [lia|reflexivity]|]. destruct i as [|i]; [cbn in E; contradiction|].
  cbn in Hi, E. destruct (IH i ltac:(lia) E) as [H1 H2]. cbn. split; [lia|exact H2].
Qed.
Lemma Forall2_slice_nth i ts : forall ts' d d', Forall2 (slice (A := C) i) ts ts' -> slice i d d' -> forall a, slice i (nth a ts d) (nth a ts' d').
Proof. intros ts' d d' F Hd. induction F as [|t t' l l' H F IH]; intros [|a]; cbn; try assumption. apply IH. Qed.
Lemma concat1_slice i ts ts' p : Forall2 (slice (A := C) i) ts ts' -> Forall (fun t => exists s0 s1 r, tshape t = s0 :: s1 :: r) ts -> concat1 ts = Ok p -> exists p', concat1 ts' = Ok p' /\ slice i p p'.
Proof.
  intros F Hs. unfold concat1. destruct F as [|t t' l l' Ht F]; [discriminate|]. destruct (forallb _ (t :: l)) eqn:E; [|discriminate]. intros H.
  assert (Ez : map (fun t => nth 1 (tshape t) 0%nat) (t' :: l') = map (fun t => nth 1 (tshape t) 0%nat) (t :: l)).
  { assert (F' : Forall2 (slice i) (t :: l) (t' :: l')) by (constructor; assumption). clear -F' Hs. induction F' as [|u u' m m' [Hu _] F IH]; [reflexivity|]. inversion Hs as [|? ? (s0 & s1 & r & E) Hs']; subst. cbn [map]. rewrite (IH Hs'). rewrite Hu, E. reflexivity. }
  assert (Eo : forallb (fun u => if list_eq_dec Nat.eq_dec (hd 0%nat (tshape u) :: skipn 2 (tshape u)) (hd 0%nat (tshape t') :: skipn 2 (tshape t')) then true else false) (t' :: l') = true).
  { apply forallb_forall. intros u' Hu'. rewrite forallb_forall in E. assert (F' : Forall2 (slice i) (t :: l) (t' :: l')) by (constructor; assumption).
    assert (K : exists u, In u (t :: l) /\ slice i u u'). { clear -F' Hu'. induction F' as [|a b m m' H F IH]; [destruct Hu'|]. destruct Hu' as [<-|Hu']; [exists a; split; [left; reflexivity|exact H]|]. destruct (IH Hu') as (u & H1 & H2). exists u. split; [right; exact H1|exact H2]. }
    destruct K as (u & Hu & [Hs1 _]). specialize (E u Hu). destruct Ht as [Ht _]. rewrite Forall_forall in Hs. destruct (Hs u Hu) as (a0 & a1 & ar & Ea). destruct (Hs t (or_introl eq_refl)) as (b0 & b1 & br & Eb).
    rewrite Hs1, Ht. cbv beta in E. rewrite Ea, Eb in *. cbn [hd tl skipn] in *. destruct (list_eq_dec Nat.eq_dec (a0 :: ar) (b0 :: br)) as [Eq|]; [|discriminate]. injection Eq as _ ->. destruct (list_eq_dec Nat.eq_dec _ _) as [_|N]; [reflexivity|contradiction]. }
  rewrite Eo. eexists. split; [reflexivity|]. rewrite Ez. match type of H with Ok ?x = Ok _ => assert (Hp : p = x) by congruence; clear H; subst p end. destruct (Ht) as [Ht0 _]. rewrite Forall_forall in Hs. destruct (Hs t (or_introl eq_refl)) as (b0 & b1 & br & Eb). split.
  - cbn [tshape map fold_right]. rewrite Ht0, Eb. reflexivity.
  - intros j. cbn [tget]. generalize (map (fun t : tensor C => nth 1 (tshape t) 0%nat) (t :: l)). intros sizes. change (nth 1 (?a :: j) 0%nat) with (nth 0 j 0%nat). destruct (locate sizes (nth 0 j 0%nat)) as [a b].
    assert (F' : Forall2 (slice i) (t :: l) (t' :: l')) by (constructor; assumption). destruct (Forall2_slice_nth i _ _ t t' F' Ht a) as [_ Hn]. apply (Hn (b :: skipn 1 j)).
Qed.

Section P.
Variable jn : Z -> R -> R.
Variable spline' : list R -> list R -> R -> R.
Variable Y : Z -> Z -> R -> R -> C.
Variable eigh : list (list R) -> list R * list (list R).
Variable cpus : nat.
Notation pre_calc := (pre_calc jn spline' cpus).
Notation file_nonlocal := (file_nonlocal jn spline' Y eigh cpus).
Notation file_path := (file_path jn spline' Y eigh cpus).

Lemma path_selects pp cr G path psi i : Forall good pp -> file_nonlocal pp cr G path = Ok psi -> (i < length path)%nat ->
  exists nl, file_path pp cr G path (nth i path vzero) = Ok nl /\ slice i psi nl.
Proof.
  intros Hg H Hi. set (k := nth i path vzero). unfold PpModel.file_nonlocal in H. apply bind_ok in H. destruct H as (ls & Hls & H). apply bind_ok in H. destruct H as (bg & Hb & H).
  unfold PpModel.file_path. rewrite Hls. cbn [bind]. rewrite Hb. cbn [bind]. destruct (point_index_nth path k i Hi eq_refl) as [Hx Ex]. set (idx := point_index path k) in *. apply momenta_inv in Hls. destruct Hls as [_ ->].
  apply pre_calc_inv in Hb. destruct Hb as (_ & Lb & Hb). unfold nonlocal_psi in H |- *. apply bind_ok in H. destruct H as (ts & Hts & H).
  unfold nonlocal_psi_list in Hts |- *. destruct (negb _); [discriminate|]. destruct (negb (ndim G =? 3)%nat); [discriminate|]. cbn [bind] in Hts |- *. apply bind_ok in Hts. destruct Hts as (lm & El & Hts). rewrite El. cbn [bind].
  assert (Hsh : Forall (fun t => exists s0 s1 r, tshape t = s0 :: s1 :: r) ts).
  { pose proof Hts as F. apply mapM_ok in F. clear -F. induction F as [|a t la lt Ht F IH]; constructor; [|exact IH]. destruct (nth_error _ a); [|discriminate]. destruct (nth_error _ a); [|discriminate]. destruct (nth_error bg a); [|discriminate]. rewrite (get_psi_shape _ _ _ _ _ _ _ _ _ _ Ht). cbn [app]. eauto. }
  destruct (mapM_rel _ (fun a => match nth_error (map (fun a => map Z.to_nat (c_l a)) pp) a, nth_error (map c_d pp) a, nth_error (select_beta_gk bg idx) a with
      | Some l, Some D, Some b => get_psi Y eigh G [k] lm (nth a (cr_positions cr) vzero) l D b
      | _, _, _ => Err IndexErr end) (slice i) _ _ Hts) as (ts' & Hts' & F).
  - intros a t _ Ht. destruct (nth_error (map (fun a => map Z.to_nat (c_l a)) pp) a) as [l|] eqn:E1; [|discriminate]. destruct (nth_error (map c_d pp) a) as [D|] eqn:E2; [|discriminate]. destruct (nth_error bg a) as [b|] eqn:E3; [|discriminate].
      unfold select_beta_gk. rewrite (map_nth_error _ _ _ E3). rewrite nth_error_map in E1. destruct (nth_error pp a) as [at_|] eqn:Ea; [|discriminate]. injection E1 as <-.
      destruct (Hb a at_ Ea) as (b' & E3' & Es). rewrite E3 in E3'. injection E3' as <-. pose proof (single_ok _ _ _ _ _ _ _ _ Es) as (Lc & _ & _ & km & _ & _ & Sb & _). cbn [ks_of] in Sb.
      assert (Hr : forall b2 x, (b2 < length (c_l at_))%nat -> tget b (idx :: b2 :: x) = tget b (i :: b2 :: x)).
      { intros b2 x Hb2. apply (single_radial _ _ _ _ _ _ _ _ Es idx i b2 x x); cbn [ks_of]; [exact Hx|exact Hi|lia|]. rewrite Ex. reflexivity. }
      unfold get_psi in Ht |- *. destruct (negb _); [discriminate|]. destruct (list_eq_dec Nat.eq_dec (tshape b) _) as [Eb|]; [|discriminate]. cbn [tshape]. rewrite map_length, Sb. cbn [tl length]. rewrite Lc.
      destruct (list_eq_dec Nat.eq_dec _ _) as [_|N]; [|contradiction]. destruct (eigh D) as [ev vec]. injection Ht as <-. eexists. split; [reflexivity|]. split; [cbn [tshape tl app]; rewrite map_length, Lc; reflexivity|].
      intros j. cbn [tget nth skipn gk hd tl]. rewrite map_length, <- Lc.
      rewrite (sumC_ext (seq 0 (length (c_l at_))) _ (fun b2 => ((RtoC (mat vec (nth 0 j 0%nat) b2) * csqrt (nth b2 ev 0) * y_lm Y lm (vadd k (tget G (skipn 2 j))) (nth b2 (map Z.to_nat (c_l at_)) 0%nat) (nth 1 j 0%nat) * RtoC (tget b (i :: b2 :: skipn 2 j)))%C))); [reflexivity|].
      intros b2 Hb2. apply in_seq in Hb2. rewrite Hr by lia. reflexivity.
  - destruct (concat1_slice i ts ts' psi F Hsh H) as (p' & Hp & Hs). exists p'. split; [|exact Hs]. rewrite Hts'. exact Hp.
Qed.
Lemma path_returns pp cr G path psi : Forall good pp -> file_nonlocal pp cr G path = Ok psi -> forall k, exists nl nb nm, file_path pp cr G path k = Ok nl /\ tshape nl = [1; nb; nm]%nat ++ tshape G.
Proof.
  intros Hg H k. assert (K : exists nl, file_path pp cr G path k = Ok nl).
  { unfold PpModel.file_nonlocal in H. apply bind_ok in H. destruct H as (ls & Hls & H). apply bind_ok in H. destruct H as (bg & Hb & H).
    unfold PpModel.file_path. rewrite Hls. cbn [bind]. rewrite Hb. cbn [bind]. set (idx := point_index path k). unfold nonlocal_psi in H |- *. apply bind_ok in H. destruct H as (ts & Hts & H).
    unfold nonlocal_psi_list in Hts |- *. destruct (negb _); [discriminate|]. destruct (negb (ndim G =? 3)%nat); [discriminate|]. cbn [bind] in Hts |- *. apply bind_ok in Hts. destruct Hts as (lm & El & Hts). rewrite El. cbn [bind].
    pose proof Hts as F0. apply mapM_ok in F0. 
    destruct (mapM_rel _ (fun a => match nth_error ls a, nth_error (map c_d pp) a, nth_error (select_beta_gk bg idx) a with
      | Some l, Some D, Some b => get_psi Y eigh G [k] lm (nth a (cr_positions cr) vzero) l D b
      | _, _, _ => Err IndexErr end) (fun t t' => tshape t' = 1%nat :: tl (tshape t) /\ exists s1 s2, tshape t = [length path; s1; s2] ++ tshape G /\ s2 = (2 * lm + 1)%nat) _ _ Hts) as (ts' & Hts' & F).
    { intros a t _ Ht. destruct (nth_error ls a) as [l|]; [|discriminate]. destruct (nth_error (map c_d pp) a) as [D|]; [|discriminate]. destruct (nth_error bg a) as [b|] eqn:E3; [|discriminate].
      unfold select_beta_gk. rewrite (map_nth_error _ _ _ E3). pose proof (get_psi_shape _ _ _ _ _ _ _ _ _ _ Ht) as St. unfold get_psi in Ht |- *. destruct (negb _); [discriminate|]. destruct (list_eq_dec Nat.eq_dec (tshape b) _) as [Eb|]; [|discriminate].
      cbn [tshape]. rewrite Eb. cbn [tl length]. destruct (list_eq_dec Nat.eq_dec _ _) as [_|N]; [|contradiction]. destruct (eigh D) as [ev vec]. eexists. split; [reflexivity|]. rewrite St. cbn [tshape app tl]. split; [reflexivity|eauto]. }
    rewrite Hts'. cbn [bind]. unfold concat1 in H |- *. destruct F as [|t t' l l' (Ht & s1 & s2 & St & E2) F]; [discriminate|]. replace (forallb _ (t' :: l')) with true; [eexists; reflexivity|].
    symmetry. apply forallb_forall. intros u' Hu'. assert (K : exists r, tshape u' = 1%nat :: r :: (2 * lm + 1)%nat :: tshape G).
    { destruct Hu' as [<-|Hu']; [rewrite Ht, St, E2; cbn; eauto|]. clear -F Hu'. induction F as [|a b m m' (H1 & s1 & s2 & H2 & H3) F IH]; [destruct Hu'|]. destruct Hu' as [<-|Hu']; [rewrite H1, H2, H3; cbn; eauto|]. apply IH, Hu'. }
    destruct K as (r & ->). rewrite Ht, St, E2. cbn [hd tl skipn app]. destruct (list_eq_dec Nat.eq_dec _ _) as [_|N]; [reflexivity|contradiction]. }
  destruct K as (nl & E). destruct (file_path_shape _ _ _ _ _ _ _ _ _ _ _ E) as (nb & nm & S). exists nl, nb, nm. auto.
Qed.
End P.
