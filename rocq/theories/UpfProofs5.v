(** When the ultrasoft augmentation of a file can be read. *)
From Coq Require Import Reals Lra Lia.
From Coq Require Import Ascii String List Arith ZArith Bool.
From Verif Require Import Base Tensor GridProofs UpfModel UpfSpec UpfProofs UpfProofs2 UpfProofs3.
Import ListNotations.
Local Open Scope nat_scope.

Lemma concat_rows {A} m : forall n (l : list A), length l = n * m -> concat (rows n m l) = l.
Proof.
  induction n as [|n IH]; intros l H; [destruct l; [reflexivity|discriminate]|]. cbn [rows concat]. rewrite IH; [apply firstn_skipn|]. rewrite skipn_length. cbn in H. lia.
Qed.
Lemma rows_concat {A} m : forall (q : list (list A)), Forall (fun row => length row = m) q -> rows (length q) m (concat q) = q.
Proof.
  induction q as [|r q IH]; intros H; [reflexivity|]. inversion H as [|? ? Hr Hq]; subst. cbn [length rows concat].
  rewrite firstn_app, Nat.sub_diag, firstn_O, firstn_all, app_nil_r. f_equal. rewrite skipn_app, Nat.sub_diag, skipn_all. cbn [skipn app]. apply IH, Hq.
Qed.
Lemma concat_length_rows {A} m : forall (q : list (list A)), Forall (fun row => length row = m) q -> length (concat q) = length q * m.
Proof. induction q as [|r q IH]; intros H; [reflexivity|]. inversion H; subst. cbn. rewrite app_length, IH by assumption. reflexivity. Qed.
Lemma divide_returns junk v w mask : (exists o, divide_where junk v w mask = Ok o) <-> length v = length w \/ length v = 1.
Proof.
  unfold divide_where. destruct (Nat.eqb_spec (length v) 1) as [E|E].
  - rewrite repeat_length, Nat.eqb_refl. split; [right; exact E|intros _; eexists; reflexivity].
  - destruct (Nat.eqb_spec (length v) (length w)) as [E2|E2]; split; intros H; [left; exact E2|eexists; reflexivity|destruct H; discriminate|destruct H; contradiction].
Qed.

Section Us.
Variable pi : string -> option Z.
Lemma write_returns junk r wl nq nl t ie : (exists t', us_write pi junk r wl nq nl t ie = Ok t') <-> entry_readable pi wl nq nl (length r) (snd ie).
Proof.
  destruct ie as [i e]. unfold us_write, entry_readable, addresses. cbn [snd]. split.
  - intros [t' H]. apply bind_ok in H. destruct H as (a & Ha & H). apply bind_ok in H. destruct H as (b & Hb & H). apply bind_ok in H. destruct H as (c & Hc & H).
    apply bind_ok in H. destruct H as (v & Hv & H). apply bind_ok in H. destruct H as (m & Hm & H). apply bind_ok in H. destruct H as (n & Hn & H). apply bind_ok in H. destruct H as (l & Hl & H).
    apply pyindex_ok in Hm, Hn, Hl. split.
    + exists m, n, l, a, b, c. split; [exact Ha|]. split; [exact Hb|]. split; [destruct wl; [exact Hc|injection Hc; auto]|]. split; [exact Hl|left; auto].
    + assert (K : exists o, divide_where (junk i) (q_values e) (map (fun x => (x ^ 2)%R) r) (map pos r) = Ok o) by (eexists; exact Hv).
      apply divide_returns in K. rewrite map_length in K. exact K.
  - intros [(m & n & l & a & b & c & Ha & Hb & Hc & Hl & Hmn) Hv]. rewrite Ha, Hb. cbn [bind].
    assert (Hc' : (if wl then opt_text pi (q_l e) else Ok 0%Z) = Ok c) by (destruct wl; [exact Hc|rewrite Hc; reflexivity]). rewrite Hc'. cbn [bind].
    assert (K : exists o, divide_where (junk i) (q_values e) (map (fun x => (x ^ 2)%R) r) (map pos r) = Ok o) by (apply divide_returns; rewrite map_length; exact Hv).
    destruct K as [o ->]. cbn [bind].
    assert (M : exists m' n', pyindex nq (a - 1) = Ok m' /\ pyindex nq (b - 1) = Ok n').
    { destruct Hmn as [[H1 H2]|[H1 H2]]; [exists m, n|exists n, m]; split; apply pyindex_ok; assumption. }
    destruct M as (m' & n' & -> & ->). cbn [bind]. apply pyindex_ok in Hl. rewrite Hl. cbn [bind]. eexists. reflexivity.
Qed.
Lemma fold_returns junk r wl nq nl : forall l t, (exists t', fold_left (fun acc ie => do t <- acc; us_write pi junk r wl nq nl t ie) l (Ok t) = Ok t') <->
  Forall (fun ie => entry_readable pi wl nq nl (length r) (snd ie)) l.
Proof.
  induction l as [|ie l IH]; intros t; [split; [constructor|intros _; eexists; reflexivity]|]. cbn [fold_left bind]. split.
  - intros H. destruct (us_write pi junk r wl nq nl t ie) as [t1|x] eqn:E.
    + constructor; [|apply (IH t1), H]. apply (write_returns junk _ _ _ _ t). eexists. exact E.
    + exfalso. destruct H as [t' H]. rewrite (fold_err (fun t ie => us_write pi junk r wl nq nl t ie)) in H. discriminate.
  - intros H. inversion H as [|? ? H1 H2]; subst. apply (write_returns junk _ _ _ _ t) in H1. destruct H1 as [t1 ->]. apply IH, H2.
Qed.
Lemma entries_snd (P : qij_entry -> Prop) qs : forall s, Forall (fun ie => P (snd ie)) (combine (seq s (length qs)) qs) <-> Forall P qs.
Proof.
  induction qs as [|e qs IH]; intros s; [split; constructor|]. cbn [length seq combine]. split; intros H; inversion H; subst; constructor; try assumption; apply (IH (S s)); assumption.
Qed.
Lemma us_returns junk eigmax pp : (exists o, us_create_atom pi junk eigmax pp = Ok o) <-> forall a, n_aug (u_nonlocal pp) = Some a -> aug_readable pi eigmax pp a.
Proof.
  unfold us_create_atom. destruct (n_aug (u_nonlocal pp)) as [a|]; [|split; [intros _ a Ha; discriminate|intros _; eexists; reflexivity]]. cbv zeta. split.
  - intros [o H] a' Ea. injection Ea as <-. apply bind_ok in H. destruct H as (q & Hq & H). destruct (a_q a) as [q'|] eqn:Eq; [|discriminate]. injection Hq as ->.
    apply bind_ok in H. destruct H as (qm & Hqm & H). unfold reshape_square in Hqm. destruct (Nat.eqb_spec (length q) (Nat.sqrt (length q) * Nat.sqrt (length q))) as [E|]; [|discriminate]. injection Hqm as <-.
    destruct (rows_shape _ _ _ E) as [R1 R2]. pose proof (concat_rows _ _ _ E) as R3.
    apply bind_ok in H. destruct H as (x & Hx & H). destruct (Rle_dec _ _) as [Hle|]; [|discriminate]. apply bind_ok in H. destruct H as (nl & Hnl & H).
    apply bind_ok in H. destruct H as (qs & Hqs & H). destruct (a_qij a) as [qs'|] eqn:Eqs; [|discriminate]. injection Hqs as ->.
    apply bind_ok in H. destruct H as (t & Ht & _). exists (rows (Nat.sqrt (length q)) (Nat.sqrt (length q)) q), nl, qs. rewrite R1, R3. split; [exact Eq|]. split; [exact R2|]. split; [exact Hle|]. split; [exact Eqs|].
    split; [intros W; rewrite W in Hnl; injection Hnl; auto|]. split.
    + intros W. rewrite W in Hnl. unfold required in Hnl. destruct (u_header pp "l_max_rho") as [tx|]; [|discriminate]. cbn [bind] in Hnl. unfold of_text in Hnl.
      destruct (pi tx) as [z|] eqn:Ez; [|discriminate]. cbn [rmap bind] in Hnl. exists tx, z. split; [reflexivity|]. split; [exact Ez|]. injection Hnl. auto.
    + apply (entries_snd _ _ 0). eapply fold_returns. eexists. exact Ht.
  - intros H. destruct (H a eq_refl) as (q & nl & qs & Hq & Hr & He & Hqs & Hw0 & Hw1 & Hes). rewrite Hq. cbn [bind].
    pose proof (concat_length_rows _ _ Hr) as L. assert (Sq : Nat.sqrt (length (concat q)) = length q) by (rewrite L; apply Nat.sqrt_square). rewrite Sq.
    unfold reshape_square. rewrite L, Nat.eqb_refl. cbn [bind]. rewrite (rows_concat _ _ Hr). destruct (Rle_dec _ _) as [_|]; [|contradiction]. cbn [bind].
    assert (Hnl : (if a_with_l a then bind (required (u_header pp) "l_max_rho") (fun t => rmap (fun z => Z.to_nat (z + 1)) (of_text pi t)) else Ok 1) = Ok nl).
    { destruct (a_with_l a); [|rewrite (Hw0 eq_refl); reflexivity]. destruct (Hw1 eq_refl) as (tx & z & Ht & Hz & ->). unfold required. rewrite Ht. cbn [bind]. unfold of_text. rewrite Hz. reflexivity. }
    rewrite Hnl. cbn [bind]. rewrite Hqs. cbn [bind].
    assert (K : exists t', fold_left (fun acc ie => do t <- acc; us_write pi junk (u_r pp) (a_with_l a) (length q) nl t ie) (combine (seq 0 (length qs)) qs) (Ok (mkT [length q; length q; nl; length (u_r pp)] (fun _ => 0%R))) = Ok t').
    { apply fold_returns. apply (entries_snd (entry_readable pi (a_with_l a) (length q) nl (length (u_r pp))) qs 0). exact Hes. }
    destruct K as [t' ->]. cbn [bind]. eexists. reflexivity.
Qed.
End Us.

Section Nc.
Variable pi : string -> option Z.
Variable pf : string -> option R.
Lemma header_returns {A} (f : string -> option A) h key : (exists z, bind (required h key) (of_text f) = Ok z) <-> exists t z, h key = Some t /\ f t = Some z.
Proof.
  unfold required, of_text. split.
  - intros [z H]. destruct (h key) as [t|]; [|discriminate]. cbn [bind] in H. exists t. destruct (f t) as [x|] eqn:E; [|discriminate]. exists x. auto.
  - intros (t & z & -> & E). cbn [bind]. rewrite E. eexists. reflexivity.
Qed.
Lemma mask_returns {A} (a : list A) mask : (exists o, mask_index a mask = Ok o) <-> length a = length mask.
Proof. unfold mask_index. destruct (Nat.eqb_spec (length a) (length mask)) as [E|E]; split; intros H; [exact E|eexists; reflexivity|destruct H; discriminate|contradiction]. Qed.
Lemma divide_length junk v w mask o : divide_where junk v w mask = Ok o -> length mask = length w -> length o = length w.
Proof.
  unfold divide_where. cbv zeta. set (v' := if (length v =? 1) then _ else v). destruct (Nat.eqb_spec (length v') (length w)) as [E|]; [|discriminate]. intros H Hm. injection H as <-.
  rewrite map_length, combine_length, seq_length, combine_length, combine_length. lia.
Qed.
Lemma mapM_returns {A B} (f : A -> res B) l : (exists r, mapM f l = Ok r) <-> Forall (fun a => exists b, f a = Ok b) l.
Proof.
  induction l as [|a l IH]; [split; [constructor|intros _; eexists; reflexivity]|]. cbn [mapM]. split.
  - intros [r H]. apply bind_ok in H. destruct H as (b & Hb & H). apply bind_ok in H. destruct H as (r' & Hr & _). constructor; [exists b; exact Hb|apply IH; exists r'; exact Hr].
  - intros H. inversion H as [|? ? [b Hb] H2]; subst. apply IH in H2. destruct H2 as [r Hr]. rewrite Hb. cbn [bind]. rewrite Hr. cbn [bind]. eexists. reflexivity.
Qed.
Lemma Forall_snd {B} (P : B -> Prop) (qs : list B) : forall s, Forall (fun ie : nat * B => P (snd ie)) (combine (seq s (length qs)) qs) <-> Forall P qs.
Proof. induction qs as [|e qs IH]; intros s; [split; constructor|]. cbn [length seq combine]. split; intros H; inversion H; subst; constructor; try assumption; apply (IH (S s)); assumption. Qed.
Lemma nc_returns junk u : (exists b, nc_create_atom pi pf junk u = Ok b) <-> nc_readable pi pf u.
Proof.
  unfold nc_create_atom, nc_readable. cbv zeta. split.
  - intros [b H]. apply bind_ok in H. destruct H as (zt & Hz & H). apply bind_ok in H. destruct H as (z & Hz2 & H).
    apply bind_ok in H. destruct H as (rg & Hr & H). apply bind_ok in H. destruct H as (rab & Hrab & H). apply bind_ok in H. destruct H as (lm & Hlm & H). apply bind_ok in H. destruct H as (lr & Hlr & H).
    apply bind_ok in H. destruct H as (loc & Hloc & H).
    split. { apply header_returns. exists z. rewrite Hz. exact Hz2. }
    split. { assert (K : exists o, mask_index (u_rab u) (map pos (u_r u)) = Ok o) by (eexists; exact Hrab). apply mask_returns in K. rewrite map_length in K. exact K. }
    split. { destruct (mask_index (u_local u) (map pos (u_r u))) as [o|] eqn:E; [|discriminate]. assert (K : exists o, mask_index (u_local u) (map pos (u_r u)) = Ok o) by (eexists; exact E). apply mask_returns in K. rewrite map_length in K. exact K. }
    split. { apply header_returns. exists lm. exact Hlm. }
    split. { intros t Et. rewrite Et in Hlr. unfold of_text in Hlr. destruct (pi t); discriminate. }
    intros betas Eb. rewrite Eb in H. apply bind_ok in H. destruct H as (bl & Hbl & H). apply bind_ok in H. destruct H as (beta & Hbeta & H). apply bind_ok in H. destruct H as (dij & Hd & H). apply bind_ok in H. destruct H as (d & Hd2 & H).
    split.
    + apply (Forall_snd _ betas 0). pose proof (proj1 (mapM_returns _ _) (ex_intro _ bl Hbl)) as K. eapply Forall_impl; [|exact K]. cbv beta. intros ib [o Ho].
      apply bind_ok in Ho. destruct Ho as (v & Hv & Ho). apply bind_ok in Ho. destruct Ho as (l & Hl & _). split.
      * apply (proj1 (divide_returns (junk (fst ib)) (b_values (snd ib)) (u_r u) (map pos (u_r u)))). exists v. exact Hv.
      * unfold opt_text, of_text in Hl. destruct (b_l (snd ib)) as [t|]; [|discriminate]. destruct (pi t) as [x|] eqn:E; [|discriminate]. exists t, x. auto.
    + destruct (n_dij (u_nonlocal u)) as [d'|]; [|discriminate]. injection Hd as ->. exists dij. split; [reflexivity|]. unfold reshape_square in Hd2. destruct (Nat.eqb_spec (length dij) (length betas * length betas)); [assumption|discriminate].
  - intros (Hz & Hrab & Hloc & Hlm & Hlr & Hb). apply header_returns in Hz. destruct Hz as [z Hz]. apply header_returns in Hlm. destruct Hlm as [lm Hlm].
    apply bind_ok in Hz. destruct Hz as (zt & Hz1 & Hz2). rewrite Hz1. cbn [bind]. rewrite Hz2. cbn [bind].
    unfold mask_index at 1 2 3. rewrite map_length, Nat.eqb_refl, Hrab, Nat.eqb_refl, Hloc, Nat.eqb_refl. cbn [bind rmap]. rewrite Hlm. cbn [bind].
    assert (L : exists lr, match u_header u "l_max_rho" with Some t => rmap Some (of_text pi t) | None => Ok None end = Ok lr).
    { destruct (u_header u "l_max_rho") as [t|]; [|eexists; reflexivity]. unfold of_text. destruct (pi t) eqn:E; [eexists; reflexivity|]. exfalso. exact (Hlr t eq_refl E). }
    destruct L as [lr ->]. cbn [bind]. destruct (n_beta (u_nonlocal u)) as [betas|] eqn:Eb; [|eexists; reflexivity].
    destruct (Hb betas eq_refl) as [Hbs (d & Hd & Ld)].
    assert (K : exists bl, mapM (fun ib : nat * beta_entry => do v <- divide_where (junk (fst ib)) (b_values (snd ib)) (u_r u) (map pos (u_r u)); do l <- opt_text pi (b_l (snd ib)); Ok (v, l)) (combine (seq 0 (length betas)) betas) = Ok bl).
    { apply mapM_returns. apply (Forall_snd _ betas 0) in Hbs. eapply Forall_impl; [|exact Hbs]. cbv beta. intros ib [Hv (t & x & Ht & Hx)].
      apply (divide_returns (junk (fst ib)) (b_values (snd ib)) (u_r u) (map pos (u_r u))) in Hv. destruct Hv as [v ->]. cbn [bind]. rewrite Ht. unfold opt_text, of_text. rewrite Hx. cbn [bind]. eexists. reflexivity. }
    destruct K as [bl Hbl]. rewrite Hbl. cbn [bind].
    assert (M : exists beta, mapM (fun b => mask_index b (map pos (u_r u))) (map fst bl) = Ok beta).
    { apply mapM_returns. apply Forall_forall. intros v Hv. apply in_map_iff in Hv. destruct Hv as ([v' l] & <- & Hin). apply mask_returns. rewrite map_length.
      apply GridProofs.mapM_ok in Hbl. clear -Hbl Hin. induction Hbl as [|ib vl l1 l2 H1 H2 IH]; [destruct Hin|]. destruct Hin as [->|Hin]; [|exact (IH Hin)].
      apply bind_ok in H1. destruct H1 as (w & Hw & H1). apply bind_ok in H1. destruct H1 as (x & _ & H1). injection H1 as <- _. cbn [fst]. apply (divide_length _ _ _ _ _ Hw). apply map_length. }
    destruct M as [beta ->]. cbn [bind]. rewrite Hd. cbn [bind]. unfold reshape_square. rewrite Ld, Nat.eqb_refl. cbn [bind]. eexists. reflexivity.
Qed.
End Nc.
