From Coq Require Import Reals Lra Lia Ascii String List Arith ZArith Bool Permutation.
From Verif Require Import Base Tensor UpfModel UpfSpec UpfProofs.
Import ListNotations.
Local Open Scope nat_scope.

(** ** Selection by r > 0 *)
Lemma select_gen {A} (d : A) (p : nat -> bool) (a : list A) : forall s,
  select (map p (seq s (length a))) a = map (fun i => nth (i - s) a d) (filter p (seq s (length a))).
Proof.
  induction a as [|x a IH]; intros s; [reflexivity|]. cbn [length seq map select filter].
  rewrite IH. assert (E : map (fun i => nth (i - S s) a d) (filter p (seq (S s) (length a))) =
    map (fun i => nth (i - s) (x :: a) d) (filter p (seq (S s) (length a)))).
  { apply map_ext_in. intros i Hi. apply filter_In in Hi. destruct Hi as [Hi _]. apply in_seq in Hi.
    replace (i - s) with (S (i - S s)) by lia. reflexivity. }
  rewrite E. destruct (p s); [|reflexivity]. cbn [map]. rewrite Nat.sub_diag. reflexivity.
Qed.
Definition posn (r : list R) (i : nat) : bool := if Rlt_dec 0 (nth i r 0%R) then true else false.
Lemma mask_seq r : map pos r = map (posn r) (seq 0 (length r)).
Proof.
  apply nth_ext with (d := pos 0%R) (d' := posn r (length r)).
  - rewrite !map_length, seq_length. reflexivity.
  - rewrite map_length. intros i Hi. rewrite map_nth. rewrite (nth_indep _ _ (posn r 0)) by (rewrite map_length, seq_length; exact Hi).
    rewrite map_nth, seq_nth by exact Hi. reflexivity.
Qed.
Lemma select_kept {A} (d : A) r (a : list A) : length a = length r -> select (map pos r) a = map (fun i => nth i a d) (kept r).
Proof.
  intros H. rewrite mask_seq, <- H, (select_gen d). unfold kept. rewrite H. apply map_ext. intros i. rewrite Nat.sub_0_r. reflexivity.
Qed.
Lemma mask_ok {A} (d : A) r (a b : list A) : mask_index a (map pos r) = Ok b <-> length a = length r /\ b = map (fun i => nth i a d) (kept r).
Proof.
  unfold mask_index. rewrite map_length. destruct (Nat.eqb_spec (length a) (length r)) as [E|N].
  - rewrite (select_kept d) by exact E. split; [intros H; injection H as <-; auto|intros [_ ->]; reflexivity].
  - split; [discriminate|intros [H _]; contradiction].
Qed.
Lemma kept_in r i : In i (kept r) <-> i < length r /\ (0 < nth i r 0)%R.
Proof.
  unfold kept. rewrite filter_In, in_seq. destruct (Rlt_dec 0 (nth i r 0%R)) as [p|n]; split.
  - intros [H _]. split; [lia|exact p].
  - intros [H _]. split; [lia|reflexivity].
  - intros [_ H]. discriminate.
  - intros [_ H]. contradiction.
Qed.

(** ** np.divide(..., where=...) *)
Lemma combine_nth_lt {A B} (l : list A) (l' : list B) i x y : i < length l -> i < length l' -> nth i (combine l l') (x, y) = (nth i l x, nth i l' y).
Proof.
  revert l' i. induction l as [|a l IH]; intros [|b l'] [|i] H H'; cbn in *; try lia; [reflexivity|]. apply IH; lia.
Qed.
Lemma nth_map_lt {A B} (f : A -> B) l i d d' : i < length l -> nth i (map f l) d = f (nth i l d').
Proof. intros H. rewrite (nth_indep _ d (f d')) by (rewrite map_length; exact H). apply map_nth. Qed.
Lemma nth_repeat_in {A} (a d : A) n i : i < n -> nth i (repeat a n) d = a.
Proof. revert i. induction n as [|n IH]; intros [|i] H; cbn; try lia; [reflexivity|]. apply IH. lia. Qed.
Lemma divide_ok junk v r out : divide_where junk v r (map pos r) = Ok out ->
  (length v = 1 \/ length v = length r) /\ length out = length r /\
  forall i, In i (kept r) -> nth i out 0%R = (sample v i / nth i r 0)%R.
Proof.
  unfold divide_where. set (v' := if length v =? 1 then repeat (hd 0%R v) (length r) else v).
  destruct (Nat.eqb_spec (length v') (length r)) as [E|]; [|discriminate]. intros H. injection H as <-.
  split. { unfold v' in E. destruct (Nat.eqb_spec (length v) 1); [left; assumption|right; exact E]. }
  split. { rewrite map_length, !combine_length, seq_length, map_length. lia. }
  intros i Hi. apply kept_in in Hi. destruct Hi as [Hi Hp].
  assert (Hc : length (combine (seq 0 (length r)) (combine (combine v' r) (map pos r))) = length r) by (rewrite !combine_length, seq_length, map_length; lia).
  rewrite (nth_map_lt _ _ _ _ (0, (0%R, 0%R, false))) by (rewrite Hc; exact Hi).
  rewrite combine_nth_lt by (rewrite ?combine_length, ?seq_length, ?map_length; lia).
  rewrite combine_nth_lt by (rewrite ?combine_length, ?map_length; lia).
  rewrite combine_nth_lt by lia. rewrite (nth_indep _ _ (pos 0%R)) by (rewrite map_length; exact Hi). rewrite map_nth. unfold pos at 1.
  destruct (Rlt_dec 0 (nth i r 0%R)); [|contradiction]. f_equal. unfold sample, v'.
  destruct (Nat.eqb_spec (length v) 1) as [E1|]; [|reflexivity]. rewrite nth_repeat_in by exact Hi. destruct v; reflexivity.
Qed.
(** whether it raises, and its value after selection, do not depend on the unwritten memory *)
Lemma divide_select junk junk' v r :
  (do b <- divide_where junk v r (map pos r); mask_index b (map pos r)) = (do b <- divide_where junk' v r (map pos r); mask_index b (map pos r)).
Proof.
  destruct (divide_where junk v r (map pos r)) as [o|e] eqn:E; destruct (divide_where junk' v r (map pos r)) as [o'|e'] eqn:E'; cbn [bind].
  - destruct (divide_ok _ _ _ _ E) as (_ & L & H). destruct (divide_ok _ _ _ _ E') as (_ & L' & H').
    transitivity (Ok (map (fun i => (sample v i / nth i r 0)%R) (kept r))); [|symmetry]; apply (mask_ok 0%R); (split; [assumption|]);
      apply map_ext_in; intros i Hi; [rewrite H by exact Hi|rewrite H' by exact Hi]; reflexivity.
  - exfalso. unfold divide_where in E, E'. destruct (_ =? length r); discriminate.
  - exfalso. unfold divide_where in E, E'. destruct (_ =? length r); discriminate.
  - unfold divide_where in E, E'. destruct (_ =? length r); congruence.
Qed.

Lemma rows_spec {A} (d : A) m : forall n (l : list A) i j, length l = n * m -> i < n -> j < m -> nth j (nth i (rows n m l) []) d = nth (i * m + j) l d.
Proof.
  induction n as [|n IH]; intros l i j Hl Hi Hj; [lia|]. destruct i as [|i]; cbn [rows nth].
  - cbn [Nat.mul Nat.add]. revert l j Hl Hj. clear. intros l j Hl Hj.
    rewrite <- (firstn_skipn m l) at 2. rewrite app_nth1; [reflexivity|]. rewrite firstn_length. nia.
  - rewrite IH by (rewrite ?skipn_length; nia). rewrite <- (firstn_skipn m l) at 2. rewrite app_nth2 by (rewrite firstn_length; nia).
    f_equal. rewrite firstn_length. nia.
Qed.
Lemma rows_shape {A} m : forall n (l : list A), length l = n * m -> length (rows n m l) = n /\ Forall (fun row => length row = m) (rows n m l).
Proof.
  induction n as [|n IH]; intros l Hl; cbn [rows]; [split; constructor|]. destruct (IH (skipn m l)) as [H1 H2]; [rewrite skipn_length; nia|].
  split; [cbn; lia|]. constructor; [rewrite firstn_length; nia|exact H2].
Qed.

Lemma mapM_Forall2 {A B} (f : A -> res B) l bs : mapM f l = Ok bs <-> Forall2 (fun a b => f a = Ok b) l bs.
Proof.
  revert bs. induction l as [|a l IH]; intros bs; cbn [mapM].
  - split; [intros H; injection H as <-; constructor|intros H; inversion H; reflexivity].
  - rewrite bind_ok. split.
    + intros (b & Hb & H). apply bind_ok in H. destruct H as (bs' & H1 & H2). injection H2 as <-. constructor; [exact Hb|]. apply IH. exact H1.
    + intros H. inversion H as [|? b ? bs' H1 H2]; subst. exists b. split; [exact H1|]. apply bind_ok. exists bs'. split; [apply IH; exact H2|reflexivity].
Qed.
Lemma Forall2_nth_iff {A B} (P : A -> B -> Prop) l l' da db : Forall2 P l l' <-> length l = length l' /\ forall i, i < length l -> P (nth i l da) (nth i l' db).
Proof.
  split.
  - intros H. induction H as [|a b l l' Hp H IH]; [split; [reflexivity|cbn; lia]|]. destruct IH as [L IH]. split; [cbn; lia|].
    intros [|i] Hi; cbn; [exact Hp|]. apply IH. cbn in Hi. lia.
  - revert l'. induction l as [|a l IH]; intros [|b l'] [L H]; cbn in L; try lia; constructor; [apply (H 0); cbn; lia|].
    apply IH. split; [lia|]. intros i Hi. apply (H (S i)). cbn. lia.
Qed.

Section Nc.
Variables (pi : string -> option Z) (pf : string -> option R).
Definition db := Beta None None [].

Lemma nc_aligned junk pp c : nc_create_atom pi pf junk pp = Ok c ->
  let r := u_r pp in let ks := kept r in
  length (u_rab pp) = length r /\ length (u_local pp) = length r /\
  c_r c = map (fun i => nth i r 0%R) ks /\ c_rab c = map (fun i => nth i (u_rab pp) 0%R) ks /\
  c_local c = map (fun i => (nth i (u_local pp) 0 / 2)%R) ks /\ c_config c = u_valence pp /\
  match n_beta (u_nonlocal pp) with
  | Some betas => c_num_beta c = length betas /\ length (c_beta c) = length betas /\ length (c_l c) = length betas /\
      (forall b, b < length betas -> 
         (length (b_values (nth b betas db)) = 1 \/ length (b_values (nth b betas db)) = length r) /\
         nth b (c_beta c) [] = map (fun i => (sample (b_values (nth b betas db)) i / nth i r 0)%R) ks /\
         exists t, b_l (nth b betas db) = Some t /\ pi t = Some (nth b (c_l c) 0%Z)) /\
      exists dij, n_dij (u_nonlocal pp) = Some dij /\ length dij = length betas * length betas /\
        length (c_d c) = length betas /\ Forall (fun row => length row = length betas) (c_d c) /\
        forall i j, i < length betas -> j < length betas -> nth j (nth i (c_d c) []) 0%R = (nth (i * length betas + j) dij 0 / 2)%R
  | None => c_num_beta c = 1 /\ c_beta c = [map (fun _ => 0%R) ks] /\ c_d c = [[0%R]] /\ c_l c = [0%Z]
  end.
Proof.
  unfold nc_create_atom. cbv zeta. intros H.
  apply bind_ok in H. destruct H as (zt & Hzt & H). apply bind_ok in H. destruct H as (z & Hz & H).
  apply bind_ok in H. destruct H as (rg & Hrg & H). apply bind_ok in H. destruct H as (rab & Hrab & H).
  apply bind_ok in H. destruct H as (lm & Hlm & H). apply bind_ok in H. destruct H as (lr & Hlr & H).
  apply bind_ok in H. destruct H as (loc & Hloc & H).
  apply (mask_ok 0%R) in Hrg. destruct Hrg as [_ Hrg]. apply (mask_ok 0%R) in Hrab. destruct Hrab as [Lrab Hrab].
  unfold rmap in Hloc. apply bind_ok in Hloc. destruct Hloc as (loc0 & Hloc0 & Hloc). apply (mask_ok 0%R) in Hloc0. destruct Hloc0 as [Lloc Hloc0].
  assert (E : loc = map (fun i => (nth i (u_local pp) 0 / 2)%R) (kept (u_r pp))) by (injection Hloc as <-; rewrite Hloc0, map_map; reflexivity).
  split; [exact Lrab|]. split; [exact Lloc|].
  destruct (n_beta (u_nonlocal pp)) as [betas|].
  - apply bind_ok in H. destruct H as (bl & Hbl & H). apply bind_ok in H. destruct H as (beta & Hbeta & H).
    apply bind_ok in H. destruct H as (dij & Hd & H). apply bind_ok in H. destruct H as (d & Hd2 & H). injection H as <-.
    cbn [c_r c_rab c_local c_config c_num_beta c_beta c_l c_d].
    split; [exact Hrg|]. split; [exact Hrab|]. split; [exact E|]. split; [reflexivity|]. split; [reflexivity|].
    apply mapM_Forall2 in Hbl. apply (Forall2_nth_iff _ _ _ (0, db) ([], 0%Z)) in Hbl. destruct Hbl as [L1 Hbl].
    rewrite combine_length, seq_length, Nat.min_id in L1, Hbl.
    apply mapM_Forall2 in Hbeta. apply (Forall2_nth_iff _ _ _ (fst ([] : list R, 0%Z)) []) in Hbeta. destruct Hbeta as [L2 Hbeta].
    rewrite map_length in L2, Hbeta. split; [lia|]. split; [rewrite map_length; lia|]. split.
    + intros b Hb. specialize (Hbl b Hb). rewrite combine_nth_lt, seq_nth in Hbl by (rewrite ?seq_length; exact Hb). cbn [fst snd Nat.add] in Hbl.
      apply bind_ok in Hbl. destruct Hbl as (v & Hv & Hbl). apply bind_ok in Hbl. destruct Hbl as (l & Hl & Hbl). injection Hbl as Hbl.
      specialize (Hbeta b ltac:(lia)). rewrite map_nth, <- Hbl in Hbeta. cbn [fst] in Hbeta. apply (mask_ok 0%R) in Hbeta. destruct Hbeta as [_ Hbeta].
      destruct (divide_ok _ _ _ _ Hv) as (Hlen & _ & Hval). split; [exact Hlen|]. split.
      * rewrite Hbeta. apply map_ext_in. exact Hval.
      * change 0%Z with (snd ([] : list R, 0%Z)). rewrite map_nth, <- Hbl. cbn [snd].
        destruct (b_l (nth b betas db)) as [t|]; [|discriminate]. exists t. split; [reflexivity|]. apply of_text_ok. exact Hl.
    + destruct (n_dij (u_nonlocal pp)) as [dij'|]; [|discriminate]. injection Hd as <-. exists dij'. split; [reflexivity|].
      unfold reshape_square in Hd2. destruct (Nat.eqb_spec (length dij') (length betas * length betas)) as [Ed|]; [|discriminate]. injection Hd2 as <-.
      destruct (rows_shape _ _ _ Ed) as [R1 R2]. split; [exact Ed|]. split; [rewrite map_length; exact R1|]. split.
      * apply Forall_map. eapply Forall_impl; [|exact R2]. intros row Hr. rewrite map_length. exact Hr.
      * intros i j Hi Hj. change (@nil R) with (map (fun x => (x / 2)%R) []) at 1. rewrite map_nth.
        assert (Lr : length (nth i (rows (length betas) (length betas) dij') []) = length betas).
        { rewrite Forall_forall in R2. apply R2. apply nth_In. rewrite R1. exact Hi. }
        rewrite (nth_indep _ _ ((fun x => (x / 2)%R) 0%R)) by (rewrite map_length, Lr; exact Hj).
        rewrite (map_nth (fun x => (x / 2)%R)), (rows_spec 0%R) by assumption. reflexivity.
  - injection H as <-. cbn [c_r c_rab c_local c_config c_num_beta c_beta c_l c_d].
    split; [exact Hrg|]. split; [exact Hrab|]. split; [exact E|]. split; [reflexivity|]. split; [reflexivity|]. split; [|split; reflexivity].
    rewrite Hrg, map_map. reflexivity.
Qed.

Lemma bind_assoc {A B C} (r : res A) (f : A -> res B) (g : B -> res C) : bind (bind r f) g = bind r (fun a => bind (f a) g).
Proof. destruct r; reflexivity. Qed.
Lemma bind_ext {A B} (r : res A) (f g : A -> res B) : (forall a, r = Ok a -> f a = g a) -> bind r f = bind r g.
Proof. destruct r; cbn; auto. Qed.

(** The result does not depend on the memory np.divide leaves unwritten. *)
Lemma betas_fst junk betas r : forall s,
  (do bl <- mapM (fun ib : nat * beta_entry =>
                 do v <- divide_where (junk (fst ib)) (b_values (snd ib)) r (map pos r);
                 do l <- opt_text pi (b_l (snd ib)); Ok (v, l)) (combine (seq s (length betas)) betas);
   do beta <- mapM (fun b => mask_index b (map pos r)) (map fst bl); Ok (beta, map snd bl)) =
  (do bl <- mapM (fun b => if (length (b_values b) =? 1) || (length (b_values b) =? length r)
                           then do l <- opt_text pi (b_l b); Ok (map (fun i => (sample (b_values b) i / nth i r 0)%R) (kept r), l) else Err ValueErr) betas;
   Ok (map fst bl, map snd bl)).
Proof.
  induction betas as [|b betas IH]; intros s; [reflexivity|]. cbn [length seq combine mapM fst snd].
  specialize (IH (S s)).
  destruct (divide_where (junk s) (b_values b) r (map pos r)) as [v|e] eqn:Ev.
  - destruct (divide_ok _ _ _ _ Ev) as (Hl & Lv & Hv).
    assert (Ec : (length (b_values b) =? 1) || (length (b_values b) =? length r) = true).
    { apply orb_true_iff. rewrite !Nat.eqb_eq. exact Hl. }
    rewrite Ec. cbn [bind]. destruct (opt_text pi (b_l b)) as [l|e]; [|reflexivity]. cbn [bind].
    assert (Em : mask_index v (map pos r) = Ok (map (fun i => (sample (b_values b) i / nth i r 0)%R) (kept r))).
    { apply (mask_ok 0%R). split; [exact Lv|]. apply map_ext_in. intros i Hi. symmetry. apply Hv. exact Hi. }
    revert IH. destruct (mapM _ (combine (seq (S s) (length betas)) betas)) as [bl|e]; cbn [bind];
      destruct (mapM _ betas) as [bl'|e']; cbn [bind map fst snd mapM]; try (rewrite Em); cbn [bind].
    + destruct (mapM _ (map fst bl)); cbn [bind]; intros IH; [injection IH as -> ->; reflexivity|discriminate].
    + destruct (mapM _ (map fst bl)); cbn [bind]; intros IH; [discriminate|]. injection IH as ->. reflexivity.
    + discriminate.
    + intros IH. injection IH as ->. reflexivity.
  - assert (Ec : (length (b_values b) =? 1) || (length (b_values b) =? length r) = false /\ e = ValueErr).
    { unfold divide_where in Ev. destruct (Nat.eqb_spec (length (b_values b)) 1) as [E1|N1].
      - rewrite repeat_length, Nat.eqb_refl in Ev. discriminate.
      - destruct (Nat.eqb_spec (length (b_values b)) (length r)); [discriminate|]. split; [reflexivity|congruence]. }
    destruct Ec as [-> ->]. reflexivity.
Qed.
Lemma nc_no_junk junk junk' pp : nc_create_atom pi pf junk pp = nc_create_atom pi pf junk' pp.
Proof.
  unfold nc_create_atom. cbv zeta. do 7 (apply bind_ext; intros ? _). destruct (n_beta (u_nonlocal pp)) as [betas|]; [|reflexivity].
  match goal with |- bind ?bl ?f = bind ?bl' _ => 
    transitivity (do x <- (do b <- bl; do beta <- mapM (fun b => mask_index b (map pos (u_r pp))) (map fst b); Ok (beta, map snd b));
      do dij <- match n_dij (u_nonlocal pp) with Some d => Ok d | None => Err KeyErr end;
      do d <- reshape_square (length betas) dij;
      Ok (NcAtom (trunc a0) a1 a2 a3 a4 a5 (length betas) (fst x) (map (map (fun x => (x / 2)%R)) d) (snd x) (u_valence pp) (CutText (b_cutoff (last betas (Beta None None [])))))) end.
  - rewrite bind_assoc. apply bind_ext. intros bl _. rewrite bind_assoc. apply bind_ext. intros; reflexivity.
  - rewrite betas_fst, <- (betas_fst junk' betas (u_r pp) 0), bind_assoc. apply bind_ext. intros bl _. rewrite bind_assoc. apply bind_ext. intros; reflexivity.
Qed.
End Nc.

(** ** stack_with_padding *)
Lemma inbb_inb i sh : inbb i sh = true <-> inb i sh.
Proof.
  revert sh. induction i as [|a i IH]; intros [|n sh]; cbn [inbb]; try (split; [discriminate|intros H; inversion H]).
  - split; [intros _; constructor|reflexivity].
  - rewrite andb_true_iff, Nat.ltb_lt, IH. split; [intros [H1 H2]; constructor; assumption|intros H; inversion H; subst; split; assumption].
Qed.

Lemma fold_max_spec l : (forall x, In x l -> x <= fold_right Nat.max 0 l) /\ (l <> [] -> In (fold_right Nat.max 0 l) l).
Proof.
  induction l as [|a l [IH1 IH2]]; cbn [fold_right]; [split; [contradiction|congruence]|]. split.
  - intros x [<-|H]; [lia|]. specialize (IH1 x H). lia.
  - intros _. destruct (Nat.max_spec a (fold_right Nat.max 0 l)) as [[H ->]|[H ->]]; [|left; reflexivity].
    right. apply IH2. intros ->. cbn in H. lia.
Qed.
Definition dt : tensor R := mkT [] (fun _ => 0%R).

Lemma stack_raises l : raises (stack_with_padding l) <-> l = [] \/ exists t t', In t l /\ In t' l /\ length (tshape t) <> length (tshape t').
Proof.
  unfold stack_with_padding, raises. destruct l as [|t0 l]; [split; [left; reflexivity|eauto]|].
  destruct (forallb _ (t0 :: l)) eqn:E.
  - split; [intros [e H]; discriminate|]. intros [H|(t & t' & Ht & Ht' & N)]; [discriminate|]. exfalso. apply N.
    rewrite forallb_forall in E. pose proof (E _ Ht) as E1. pose proof (E _ Ht') as E2. apply Nat.eqb_eq in E1, E2. congruence.
  - split; [|eauto]. intros _. right. assert (exists t, In t (t0 :: l) /\ (length (tshape t) =? length (tshape t0)) = false) as (t & Ht & Hn).
    { clear -E. revert E. generalize (t0 :: l) as l'. induction l' as [|a l' IH]; cbn; [discriminate|]. intros H. apply andb_false_iff in H.
      destruct H as [H|H]; [exists a; auto|]. destruct (IH H) as (t & Ht & Hn). exists t. auto. }
    apply Nat.eqb_neq in Hn. exists t, t0. split; [exact Ht|]. split; [left; reflexivity|exact Hn].
Qed.
Lemma Ok_inj' {A} (a b : A) : Ok a = Ok b -> a = b.
Proof. intros H. injection H. auto. Qed.
Lemma stack_ok l out : stack_with_padding l = Ok out ->
  exists sh, tshape out = length l :: sh /\ (forall t, In t l -> length (tshape t) = length sh) /\
    (forall a, a < length sh -> largest a (map (@tshape R) l) (nth a sh 0)) /\
    (forall k i, k < length l -> inb i sh -> 
       (inb i (tshape (nth k l dt)) -> tget out (k :: i) = tget (nth k l dt) i) /\
       (~ inb i (tshape (nth k l dt)) -> tget out (k :: i) = 0%R)).
Proof.
  unfold stack_with_padding. destruct l as [|t0 l]; [discriminate|]. set (L := t0 :: l). cbv zeta.
  destruct (forallb _ L) eqn:E; [|discriminate]. intros H. apply Ok_inj' in H. subst out. cbn [tshape tget].
  assert (Ls : length (max_shape (map (@tshape R) L) (length (tshape t0))) = length (tshape t0)) by (unfold max_shape; rewrite map_length, seq_length; reflexivity).
  exists (max_shape (map (@tshape R) L) (length (tshape t0))). split; [reflexivity|]. split; [|split].
  - intros t Ht. rewrite Ls. rewrite forallb_forall in E. apply Nat.eqb_eq. apply E. exact Ht.
  - rewrite Ls. intros a Ha. unfold max_shape. rewrite (nth_map_lt _ _ _ _ 0) by (rewrite seq_length; exact Ha). rewrite seq_nth by exact Ha. cbn [Nat.add].
    destruct (fold_max_spec (map (fun s => nth a s 0) (map (@tshape R) L))) as [M1 M2]. split.
    + intros s Hs. apply M1. apply (in_map (fun s => nth a s 0)) in Hs. exact Hs.
    + specialize (M2 ltac:(discriminate)). apply in_map_iff in M2. destruct M2 as (s & Hs & Hi). exists s. auto.
  - intros k i Hk Hi. change (mkT [] (fun _ : list nat => 0%R)) with dt. rewrite (nth_map_lt _ _ _ _ dt) by exact Hk. unfold pad_to. cbn [tget].
    split; intros Hin; destruct (inbb i (tshape (nth k L dt))) eqn:Eb; try reflexivity.
    + apply inbb_inb in Hin. congruence.
    + apply inbb_inb in Eb. contradiction.
Qed.

(** ** map_over_atoms *)
Lemma map_over_ok {A B C} (f : A -> B -> C) xs ys : 
  (length xs <= length ys -> map_over_atoms2 f xs ys = Ok (map (fun p => f (fst p) (snd p)) (combine xs ys))) /\
  (length ys < length xs -> map_over_atoms2 f xs ys = Err IndexErr).
Proof.
  unfold map_over_atoms2.
  assert (G : forall xs ys s px py, length px = s -> length py = s ->
     mapM (fun i => do x <- index (px ++ xs) i; do y <- index (py ++ ys) i; Ok (f x y)) (seq s (length xs)) =
     if length xs <=? length ys then Ok (map (fun p => f (fst p) (snd p)) (combine xs ys)) else Err IndexErr).
  { clear. induction xs as [|x xs IH]; intros ys s px py Hx Hy; [reflexivity|]. cbn [length seq mapM].
    unfold index at 1. rewrite nth_error_app2, Hx, Nat.sub_diag by lia. cbn [nth_error bind].
    unfold index at 1. rewrite nth_error_app2, Hy, Nat.sub_diag by lia. destruct ys as [|y ys]; [reflexivity|]. cbn [nth_error bind].
    specialize (IH ys (S s) (px ++ [x]) (py ++ [y])). rewrite !app_length, Hx, Hy in IH. cbn [length] in IH.
    specialize (IH ltac:(lia) ltac:(lia)). rewrite <- !app_assoc in IH. cbn [app] in IH. rewrite IH. cbn [length Nat.leb].
    destruct (length xs <=? length ys); reflexivity. }
  specialize (G xs ys 0 [] [] eq_refl eq_refl). cbn [app] in G. rewrite G. split; intros H.
  - apply Nat.leb_le in H. rewrite H. reflexivity.
  - apply Nat.leb_gt in H. rewrite H. reflexivity.
Qed.

(** ** Ultrasoft augmentation *)
Section Us.
Variables (pi : string -> option Z) (pf : string -> option R).
Definition symmetric4 (t : tensor R) : Prop := forall m n l k, tget t [m; n; l; k] = tget t [n; m; l; k].

Lemma us_write_inv junk r wl nq nl t ie t' : us_write pi junk r wl nq nl t ie = Ok t' -> tshape t' = tshape t /\ (symmetric4 t -> symmetric4 t').
Proof.
  destruct ie as [i e]. unfold us_write. intros H.
  repeat (apply bind_ok in H; destruct H as (? & _ & H)). injection H as <-.
  match goal with |- context [if ?m =? ?n then _ else _] => destruct (Nat.eqb_spec m n) as [->|N] end.
  - split; [reflexivity|]. intros Hs m n l k. unfold write. cbn [tget]. 
    rewrite (Hs m n l k). rewrite (andb_comm (m =? _)). reflexivity.
  - split; [reflexivity|]. intros Hs m n l k. unfold write. cbn [tget]. rewrite (Hs m n l k).
    repeat match goal with |- context [?a =? ?b] => destruct (Nat.eqb_spec a b); subst; cbn [andb] end; try reflexivity; congruence.
Qed.
Lemma us_fold_inv junk r wl nq nl l : forall t t', 
  fold_left (fun acc ie => do t <- acc; us_write pi junk r wl nq nl t ie) l (Ok t) = Ok t' -> tshape t' = tshape t /\ (symmetric4 t -> symmetric4 t').
Proof.
  induction l as [|ie l IH]; intros t t' H; cbn [fold_left] in H; [injection H as <-; auto|].
  cbn [bind] in H. destruct (us_write pi junk r wl nq nl t ie) as [t1|e] eqn:E.
  - destruct (us_write_inv _ _ _ _ _ _ _ _ E) as [S1 Y1]. destruct (IH _ _ H) as [S2 Y2]. split; [congruence|auto].
  - exfalso. clear -H. induction l as [|x l IH]; cbn in H; [discriminate|auto].
Qed.
Lemma us_ok junk eigmax pp u : us_create_atom pi junk eigmax pp = Ok (Some u) ->
  exists nq nl, tshape (s_qij u) = [nq; nq; nl; length (u_r pp)] /\ length (s_q u) = nq /\ symmetric4 (s_qij u) /\ (s_with_l u = false -> nl = 1).
Proof.
  unfold us_create_atom. destruct (n_aug (u_nonlocal pp)) as [a|]; [|discriminate]. cbv zeta. intros H.
  apply bind_ok in H. destruct H as (q & Hq & H). apply bind_ok in H. destruct H as (qm & Hqm & H).
  apply bind_ok in H. destruct H as (x & _ & H). apply bind_ok in H. destruct H as (nl & Hnl & H).
  apply bind_ok in H. destruct H as (qs & _ & H). apply bind_ok in H. destruct H as (t & Ht & H). injection H as <-.
  destruct (us_fold_inv _ _ _ _ _ _ _ _ Ht) as [S1 Y1]. cbn [s_qij s_q s_with_l]. exists (Nat.sqrt (length q)), nl.
  split; [exact S1|]. split; [|split; [apply Y1; intros m n l k; reflexivity|]].
  - unfold reshape_square in Hqm. destruct (Nat.eqb_spec (length q) (Nat.sqrt (length q) * Nat.sqrt (length q))) as [E|]; [|discriminate]. injection Hqm as <-.
    apply (rows_shape _ _ _ E).
  - intros Hw. rewrite Hw in Hnl. injection Hnl. auto.
Qed.
Lemma kept_all r : length (kept r) = length r <-> Forall (fun x => (0 < x)%R) r.
Proof.
  unfold kept. split.
  - intros H. apply Forall_nth. intros i d Hi. rewrite (nth_indep _ d 0%R Hi).
    assert (F : forall l, length (filter (posn r) l) = length l -> forall x, In x l -> posn r x = true).
    { clear. induction l as [|a l IH]; intros H x Hx; [destruct Hx|]. cbn in H. destruct (posn r a) eqn:E.
      - cbn in H. destruct Hx as [<-|Hx]; [exact E|]. apply IH; [lia|exact Hx].
      - exfalso. assert (length (filter (posn r) l) <= length l) by (clear; induction l as [|x l IHl]; cbn; [lia|]; destruct (posn r x); cbn; lia). cbn in H. lia. }
    specialize (F (seq 0 (length r))). rewrite seq_length in F. specialize (F H i ltac:(apply in_seq; lia)). unfold posn in F.
    destruct (Rlt_dec 0 (nth i r 0%R)); [assumption|discriminate].
  - intros H. rewrite <- (seq_length (length r) 0) at 2. f_equal. 
    assert (F : forall l, (forall x, In x l -> x < length r) -> filter (posn r) l = l).
    { clear -H. induction l as [|a l IH]; intros Hl; [reflexivity|]. cbn. assert (E : posn r a = true).
      { unfold posn. destruct (Rlt_dec 0 (nth a r 0%R)) as [|n]; [reflexivity|]. exfalso. apply n. rewrite Forall_nth in H. apply H. apply Hl. left. reflexivity. }
      rewrite E. f_equal. apply IH. intros x Hx. apply Hl. right. exact Hx. }
    apply F. intros x Hx. apply in_seq in Hx. lia.
Qed.
End Us.

(** ** Lines *)
Fixpoint join (c : ascii) (l : list string) : string :=
  match l with [] => EmptyString | [w] => w | w :: ws => append w (String c (join c ws)) end.
Fixpoint free (c : ascii) (s : string) : Prop := match s with EmptyString => True | String a s' => a <> c /\ free c s' end.
Lemma split_spec c s : join c (split_on c s) = s /\ Forall (free c) (split_on c s).
Proof.
  induction s as [|a s [IH1 IH2]]; cbn [split_on]; [split; [reflexivity|repeat constructor]|].
  destruct (Ascii.eqb_spec a c) as [->|N].
  - split; [|constructor; [exact I|exact IH2]]. pose proof (split_nonempty c s). destruct (split_on c s) eqn:E; [congruence|]. cbn [join append] in *. rewrite IH1. reflexivity.
  - destruct (split_on c s) as [|w ws] eqn:E; [exfalso; apply (split_nonempty c s); exact E|].
    apply Forall_cons_iff in IH2. destruct IH2 as [Hw Hws]. split; [|constructor; [split; assumption|assumption]].
    rewrite <- IH1. destruct ws as [|w1 ws]; reflexivity.
Qed.

(** one pseudopotential per atom, in order, each from a file of that element *)
Lemma nc_create_each pi pf names parse junk dir symbols cs : nc_create pi pf names parse junk dir symbols = Ok cs ->
  Forall2 (fun s c => exists name pp, In name names /\ upf_name s name /\ parse (append dir name) = Ok pp /\ forall j, nc_create_atom pi pf j pp = Ok c) symbols cs.
Proof.
  unfold nc_create. rewrite bind_ok. intros (pps & H1 & H2). apply mapM_Forall2 in H1, H2.
  assert (L : length (combine (seq 0 (length pps)) pps) = length pps) by (rewrite combine_length, seq_length; lia).
  set (dp := Upf [] (fun _ => None) [] [] (PPNonlocal None None None) []).
  set (dc := NcAtom 0 [] [] 0 None [] 0 [] [] [] [] CutZero).
  apply (Forall2_nth_iff _ _ _ EmptyString dp) in H1. destruct H1 as [L1 H1].
  apply (Forall2_nth_iff _ _ _ (0, dp) dc) in H2. destruct H2 as [L2 H2]. rewrite L in L2, H2.
  apply (Forall2_nth_iff _ _ _ EmptyString dc). split; [lia|]. intros i Hi.
  specialize (H1 i Hi). specialize (H2 i ltac:(lia)). rewrite combine_nth_lt in H2 by (rewrite ?seq_length; lia). cbn [fst snd] in H2.
  apply bind_ok in H1. destruct H1 as (p & Hp & Hpp). apply find_upf_ok in Hp. destruct Hp as (name & Hn & Hm & ->).
  exists name, (nth i pps dp). split; [exact Hn|]. split; [exact Hm|]. split; [exact Hpp|]. intros j. rewrite <- H2. apply nc_no_junk.
Qed.
Lemma Forall2_imp {A B} (P Q : A -> B -> Prop) l l' : (forall a b, P a b -> Q a b) -> Forall2 P l l' -> Forall2 Q l l'.
Proof. intros H F. induction F; constructor; auto. Qed.
Lemma stem_of atom name : no_dot atom -> upf_name atom name -> exists s rest, name = append s (append "." rest) /\ no_dot s /\ lower s = lower atom.
Proof. intros Hd [H _]. apply stem; assumption. Qed.
Lemma find_upf_perm names dir atom name : In name names -> upf_name atom name -> (forall n, In n names -> upf_name atom n -> n = name) ->
  forall names', Permutation names names' -> find_upf names' dir atom = Ok (append dir name).
Proof.
  intros Hi Hm Hu names' HP. apply find_upf_only; [eapply Permutation_in; eauto|exact Hm|].
  intros n Hn. apply Hu. apply Permutation_sym in HP. eapply Permutation_in; eauto.
Qed.
Lemma find_upf_order : ~ (forall names names' dir atom, Permutation names names' -> find_upf names dir atom = find_upf names' dir atom).
Proof.
  intros H. specialize (H ["C.a.upf"; "C.b.upf"]%string ["C.b.upf"; "C.a.upf"]%string ""%string "C"%string ltac:(apply perm_swap)). cbv in H. discriminate.
Qed.
Lemma find_upf_separator : ~ (forall names dir atom p, find_upf names dir atom = Ok p -> exists name, In name names /\ p = append dir (append "/" name)).
Proof.
  intros H. destruct (H ["C.upf"]%string "pp"%string "C"%string _ eq_refl) as (n & [<-|[]] & E). cbv in E. discriminate.
Qed.
Lemma us_aligned pi pf junk junk' eigmax pp u c : us_create_atom pi junk eigmax pp = Ok (Some u) -> nc_create_atom pi pf junk' pp = Ok c ->
  (nth 3 (tshape (s_qij u)) 0 = length (c_r c) <-> Forall (fun x => (0 < x)%R) (u_r pp)).
Proof.
  intros H1 H2. destruct (us_ok _ _ _ _ _ H1) as (nq & nl & -> & _). cbn [nth].
  destruct (nc_aligned _ _ _ _ _ H2) as (_ & _ & -> & _). rewrite map_length, <- kept_all. split; congruence.
Qed.
Lemma projectors_in_order pi pf e out : parse_pp_nonlocal pi pf e = Ok out ->
  let betas := filter (fun c => startswith (tag_of c) "PP_BETA") (children_of e) in
  (betas = [] -> n_beta out = None) /\
  (betas <> [] -> exists bs, n_beta out = Some bs /\
     Forall2 (fun c b => b_l b = attr c "angular_momentum" /\ exists t, text_of c = Some t /\ Forall2 (fun w x => pf w = Some x) (words t) (b_values b)) betas bs).
Proof.
  unfold parse_pp_nonlocal. cbv zeta. set (betas := filter _ (children_of e)). clearbody betas. intros H.
  apply bind_ok in H. destruct H as (beta & Hb & H). apply bind_ok in H. destruct H as (dij & _ & H). apply bind_ok in H. destruct H as (aug & _ & H).
  injection H as <-. cbn [n_beta]. destruct betas as [|b0 betas]; [split; [injection Hb; auto|congruence]|]. split; [discriminate|]. intros _.
  unfold rmap in Hb. apply bind_ok in Hb. destruct Hb as (bs & Hbs & Hb). injection Hb as <-. exists bs. split; [reflexivity|].
  apply mapM_Forall2 in Hbs. eapply Forall2_imp; [|exact Hbs]. clear. intros c b H. unfold parse_beta in H. apply bind_ok in H. destruct H as (v & Hv & H).
  injection H as <-. cbn. split; [reflexivity|]. unfold floats in Hv. destruct (text_of c) as [t|]; [|discriminate]. exists t. split; [reflexivity|].
  apply mapM_Forall2 in Hv. eapply Forall2_imp; [|exact Hv]. intros w x Hw. apply of_text_ok. exact Hw.
Qed.

(** ** Concrete data for the examples *)
Definition nl1 := String newline EmptyString.
Definition head10 : string := String.concat nl1 ["Generated"; "Author: me"; "Date: x"; "C"; "PBE"; "c"; "r"; "cut"; "rel"; "local: l"]%string.
Definition good_info : string :=
  String.concat nl1 [head10; "Valence configuration:"; "nl pn l occ Rcut RcutUS Epseu"; "2S 1 0 2.00 1.0 1.0 -1.0"; "2P 2 1 2.00 1.0 1.0 -0.4"; "Generation configuration:"]%string.
Definition usual_info : string :=
  String.concat nl1 [good_info; "2S 1 0 2.00 1.0 1.0 -1.0"; "Pseudization used: troullier-martins"]%string.
Definition pi1 (s : string) : option Z := if String.eqb s "1" then Some 1%Z else if String.eqb s "2" then Some 2%Z else if String.eqb s "0" then Some 0%Z else None.
Definition pf1 (s : string) : option R := Some 1%R.
Definition header1 (k : string) : option string :=
  if String.eqb k "z_valence" then Some "4"%string else if String.eqb k "l_max" then Some "1"%string else None.
Definition pp1 : upf := Upf [] header1 [0; 1; 2]%R [3; 4; 5]%R
  (PPNonlocal (Some [Beta (Some "1"%string) None [7; 8; 10]%R]) (Some [6%R]) None) [20; 22; 24]%R.
Definition pp2 : upf := Upf [] header1 [0; 1]%R [3; 4]%R
  (PPNonlocal None None (Some (Aug false (Some [6%R]) (Some [Qij (Some "1"%string) (Some "1"%string) None [7; 8]%R])))) [20; 22]%R.
Definition beta_elem (n l t : string) : elem := El n [("angular_momentum"%string, l)] (Some t) [].

Lemma usual_parsed : exists out, parse_pp_info pi1 pf1 usual_info = Ok out /\ i_valence out = [].
Proof.
  destruct (parse_pp_info pi1 pf1 usual_info) as [out|e] eqn:E.
  - exists out. split; [reflexivity|]. apply (proj1 (proj2 (pp_info_valence _ _ _ _ E))). intros H. apply mentions_iff in H. vm_compute in H. discriminate.
  - exfalso. revert E. vm_compute. discriminate.
Qed.
Lemma lost_rows : parse_valence_configuration pi1 pf1 (lines_between 12 14 (split_on newline usual_info)) <> Ok [].
Proof.
  assert (E : lines_between 12 14 (split_on newline usual_info) = ["2S 1 0 2.00 1.0 1.0 -1.0"; "2P 2 1 2.00 1.0 1.0 -0.4"]%string) by (vm_compute; reflexivity).
  rewrite E. vm_compute. discriminate.
Qed.
Lemma generation_refuted : ~ (forall pi pf text out v g line gline,
  let lines := split_on newline text in
  parse_pp_info pi pf text = Ok out -> 1 <= v < g ->
  nth_error lines v = Some line -> mentions "valence configuration" line ->
  (forall j line', v < j -> nth_error lines j = Some line' -> ~ mentions "valence configuration" line') ->
  nth_error lines g = Some gline -> mentions "generation configuration" gline ->
  parse_valence_configuration pi pf (lines_between (v + 2) g lines) = Ok (i_valence out)).
Proof.
  intros H. cbv zeta in H.
  destruct usual_parsed as (out & Eo & Ev).
  assert (E10 : nth_error (split_on newline usual_info) 10 = Some "Valence configuration:"%string) by (vm_compute; reflexivity).
  assert (E14 : nth_error (split_on newline usual_info) 14 = Some "Generation configuration:"%string) by (vm_compute; reflexivity).
  specialize (H pi1 pf1 usual_info out 10 14 "Valence configuration:"%string "Generation configuration:"%string Eo ltac:(lia) E10).
  assert (M1 : mentions "valence configuration" "Valence configuration:") by (apply mentions_iff; reflexivity).
  assert (M2 : mentions "generation configuration" "Generation configuration:") by (apply mentions_iff; reflexivity).
  specialize (H M1). match type of H with ?P -> _ => assert (N : P) end.
  { intros j l' Hj E Hm. apply mentions_iff in Hm. revert j Hj E.
    assert (F : forall j, j < 7 -> nth_error (split_on newline usual_info) (11 + j) = Some l' -> False).
    { intros j Hj E. do 7 (destruct j as [|j]; [vm_compute in E; first [discriminate E | injection E as <-; vm_compute in Hm; discriminate]|]). lia. }
    intros j Hj E. assert (Hl : j < length (split_on newline usual_info)) by (apply nth_error_Some; rewrite E; discriminate).
    replace (length (split_on newline usual_info)) with 17 in Hl by (vm_compute; reflexivity). apply (F (j - 11)); [lia|]. replace (11 + (j - 11)) with j by lia. exact E. }
  specialize (H N E14 M2). rewrite Ev in H. revert H. apply lost_rows.
Qed.
Lemma nc_example : exists c, nc_create_atom pi1 (fun _ => Some 4%R) (fun _ _ => 99%R) pp1 = Ok c /\ c_r c = [1; 2]%R /\
  c_local c = [11; 12]%R /\ c_beta c = [[8; 5]]%R.
Proof.
  unfold nc_create_atom, pp1, u_r, pos, map. cbn [u_header u_r u_rab u_local u_nonlocal n_beta n_dij u_valence].
  repeat (destruct (Rlt_dec 0 _); try (exfalso; lra)). eexists. split; [reflexivity|]. cbn.
  repeat split; repeat f_equal; lra.
Qed.
Lemma us_compute x : exists u, us_create_atom pi1 (fun _ _ => x) (fun _ => 1%R) pp2 = Ok (Some u) /\ tshape (s_qij u) = [1; 1; 1; 2] /\
  tget (s_qij u) [0; 0; 0; 1] = (8 / (1 ^ 2))%R /\ tget (s_qij u) [0; 0; 0; 0] = x.
Proof.
  unfold us_create_atom, pp2. cbn [u_header u_r u_rab u_local u_nonlocal n_aug a_q a_with_l a_qij].
  change (Nat.sqrt (length [6%R])) with 1. cbn [reshape_square length Nat.eqb Nat.mul bind rows]. destruct (Rle_dec (-1) 1); [|exfalso; lra]. cbn [bind fold_left combine seq].
  unfold us_write, pos, map. repeat (destruct (Rlt_dec 0 _); try (exfalso; lra)).
  eexists. split; [reflexivity|]. split; [reflexivity|]. split; reflexivity.
Qed.
Lemma us_example : exists u, us_create_atom pi1 (fun _ _ => 99%R) (fun _ => 1%R) pp2 = Ok (Some u) /\ tshape (s_qij u) = [1; 1; 1; 2] /\
  tget (s_qij u) [0; 0; 0; 1] = (8 / (1 ^ 2))%R /\ tget (s_qij u) [0; 0; 0; 0] = 99%R.
Proof. apply us_compute. Qed.
Lemma us_junk : ~ (forall pi junk junk' eigmax pp u u',
  us_create_atom pi junk eigmax pp = Ok (Some u) -> us_create_atom pi junk' eigmax pp = Ok (Some u') ->
  forall i, tget (s_qij u) i = tget (s_qij u') i).
Proof.
  intros H. destruct (us_compute 0) as (u & E & _ & _ & V). destruct (us_compute 1) as (u' & E' & _ & _ & V').
  specialize (H _ _ _ _ _ _ _ E E' [0; 0; 0; 0]). rewrite V, V' in H. lra.
Qed.
