From Coq Require Import List Arith ZArith Bool Lia Reals ZifyBool.
From Coquelicot Require Import Complex.
From Verif Require Import Base Sums Tensor GridModel GridSpec GridProofs PadModel.
Import ListNotations.
Local Open Scope nat_scope.

(** ** find_index *)
Lemma find_index_some i l j : find_index i l = Some j -> j < length l /\ nth j l [] = i.
Proof.
  revert j. induction l as [|x l IH]; simpl; intros j H; [discriminate|].
  destruct (list_eq_dec Nat.eq_dec x i) as [E|E].
  - injection H as <-. split; [lia|exact E].
  - destruct (find_index i l) as [k|]; [|discriminate]. injection H as <-.
    destruct (IH k eq_refl). split; [lia|assumption].
Qed.
Lemma find_index_none i l : find_index i l = None -> ~ In i l.
Proof.
  induction l as [|x l IH]; simpl; intros H; [tauto|].
  destruct (list_eq_dec Nat.eq_dec x i) as [E|E]; [discriminate|].
  destruct (find_index i l); [discriminate|]. intros [H'|H']; [contradiction|]. apply IH; auto.
Qed.
Lemma find_index_nth l j : NoDup l -> j < length l -> find_index (nth j l []) l = Some j.
Proof.
  intros Hn Hj. destruct (find_index (nth j l []) l) as [k|] eqn:E.
  - apply find_index_some in E. destruct E as [Hk E]. f_equal.
    apply (proj1 (NoDup_nth l []) Hn k j Hk Hj E).
  - exfalso. apply find_index_none in E. apply E. apply nth_In. exact Hj.
Qed.

Lemma mask_positions_NoDup m : NoDup (mask_positions m).
Proof. apply NoDup_filter. apply NoDup_indices. Qed.
Lemma mask_positions_in m i : In i (mask_positions m) <-> inb i (tshape m) /\ tget m i = true.
Proof. unfold mask_positions. rewrite filter_In, in_indices. tauto. Qed.

(** ** swap_last2 *)
Lemma swap_last2_app b x y : swap_last2 (b ++ [x; y]) = b ++ [y; x].
Proof.
  unfold swap_last2. rewrite rev_app_distr. simpl. rewrite rev_involutive. reflexivity.
Qed.

Lemma removelast_app2 {A} (l : list A) x y : removelast (l ++ [x; y]) = l ++ [x].
Proof. change [x; y] with ([x] ++ [y]). rewrite app_assoc. apply removelast_last. Qed.
Lemma last_app2 {A} (l : list A) x y d : last (l ++ [x; y]) d = y.
Proof. change [x; y] with ([x] ++ [y]). rewrite app_assoc. apply last_last. Qed.

Lemma firstn_app_len {A} (a b : list A) n : length a = n -> firstn n (a ++ b) = a.
Proof. intros <-. rewrite firstn_app, Nat.sub_diag, firstn_all. simpl. apply app_nil_r. Qed.
Lemma skipn_app_len {A} (a b : list A) n : length a = n -> skipn n (a ++ b) = b.
Proof. intros <-. rewrite skipn_app, Nat.sub_diag, skipn_all. reflexivity. Qed.

(** ** expand_coefficient *)
Lemma expand_unfold c m bs g nb : tshape c = bs ++ [g; nb] ->
  expand_coefficient c m = scatter (bs ++ [nb]) m g (fun i => tget c (swap_last2 i)).
Proof.
  intros Hs. unfold expand_coefficient. rewrite Hs, app_length. cbn [length].
  replace (length bs + 2 <? 2) with false by lia. cbv zeta.
  rewrite swap_last2_app, removelast_app2, last_app2. reflexivity.
Qed.

Lemma expand_spec c m bs g nb : tshape c = bs ++ [g; nb] -> length (mask_positions m) = g ->
  exists t, expand_coefficient c m = Ok t /\ tshape t = bs ++ [nb] ++ tshape m /\
   (forall b k j, inb b bs -> k < nb -> j < g ->
      tget t (b ++ [k] ++ nth j (mask_positions m) []) = tget c (b ++ [j; k])) /\
   (forall b k i, inb b bs -> k < nb -> inb i (tshape m) -> tget m i = false ->
      tget t (b ++ [k] ++ i) = RtoC 0).
Proof.
  intros Hs Hg. rewrite (expand_unfold c m bs g nb Hs). unfold scatter. rewrite Hg, Nat.eqb_refl.
  cbn [orb]. eexists. split; [reflexivity|]. cbn [tshape tget]. split; [rewrite <- app_assoc; reflexivity|].
  split.
  - intros b k j Hb Hk Hj. rewrite app_assoc.
    assert (Hl : length (b ++ [k]) = length (bs ++ [nb])) by (rewrite !app_length, (inb_length _ _ Hb); reflexivity).
    rewrite (skipn_app_len _ _ _ Hl), (firstn_app_len _ _ _ Hl).
    rewrite find_index_nth by (try apply mask_positions_NoDup; lia).
    rewrite <- app_assoc. cbn [app]. rewrite swap_last2_app. f_equal. f_equal. f_equal.
    destruct (Nat.eqb_spec g 1); lia.
  - intros b k i Hb Hk Hi Hm. rewrite app_assoc.
    assert (Hl : length (b ++ [k]) = length (bs ++ [nb])) by (rewrite !app_length, (inb_length _ _ Hb); reflexivity).
    rewrite (skipn_app_len _ _ _ Hl).
    destruct (find_index i (mask_positions m)) as [j|] eqn:E; [|reflexivity].
    exfalso. apply find_index_some in E. destruct E as [Hj E].
    assert (In i (mask_positions m)) by (rewrite <- E; apply nth_In; exact Hj).
    apply mask_positions_in in H. destruct H. congruence.
Qed.

Lemma expand_mismatch c m bs g nb : tshape c = bs ++ [g; nb] ->
  (raises (expand_coefficient c m) <-> g <> length (mask_positions m) /\ g <> 1).
Proof.
  intros Hs. rewrite (expand_unfold c m bs g nb Hs). unfold scatter.
  destruct (Nat.eqb_spec g (length (mask_positions m))); destruct (Nat.eqb_spec g 1); cbn [orb].
  all: split; [intros [ex H]; try discriminate; lia|intros [? ?]; try lia].
  exists ValueErr. reflexivity.
Qed.

(** Sum over the grid of something supported on the mask. *)
Lemma sumC_map_nth {A} (l : list A) d (f : A -> C) :
  sumC l f = sumC (seq 0 (length l)) (fun j => f (nth j l d)).
Proof.
  induction l as [|a l IH]; [reflexivity|]. cbn [length seq sumC]. rewrite <- seq_shift, sumC_map.
  cbn [nth]. rewrite IH. reflexivity.
Qed.
Lemma sumR_map_nth {A} (l : list A) d (f : A -> R) :
  sumR l f = sumR (seq 0 (length l)) (fun j => f (nth j l d)).
Proof.
  induction l as [|a l IH]; [reflexivity|]. cbn [length seq sumR]. rewrite <- seq_shift, sumR_map.
  cbn [nth]. rewrite IH. reflexivity.
Qed.

Lemma sumC_mask m (f : list nat -> C) :
  (forall i, inb i (tshape m) -> tget m i = false -> f i = RtoC 0) ->
  sumC (indices (tshape m)) f = sumC (mask_positions m) f.
Proof.
  intros H. unfold mask_positions. rewrite sumC_filter. apply sumC_ext. intros i Hi.
  destruct (tget m i) eqn:E; [reflexivity|]. apply H; [apply in_indices; exact Hi|exact E].
Qed.

Lemma expand_gram c m bs g nb t : tshape c = bs ++ [g; nb] -> length (mask_positions m) = g ->
  expand_coefficient c m = Ok t ->
  forall b k k', inb b bs -> k < nb -> k' < nb ->
  sumC (indices (tshape m)) (fun i => Cmult (Cconj (tget t (b ++ [k] ++ i))) (tget t (b ++ [k'] ++ i)))
  = sumC (seq 0 g) (fun j => Cmult (Cconj (tget c (b ++ [j; k]))) (tget c (b ++ [j; k']))).
Proof.
  intros Hs Hg Ht b k k' Hb Hk Hk'.
  destruct (expand_spec c m bs g nb Hs Hg) as (t' & E & _ & Hval & Hzero).
  rewrite Ht in E. injection E as <-.
  rewrite sumC_mask.
  - rewrite (sumC_map_nth _ []). rewrite Hg. apply sumC_ext. intros j Hj. apply in_seq in Hj.
    rewrite !Hval by (try assumption; lia). reflexivity.
  - intros i Hi Hm. rewrite !Hzero by assumption. apply injective_projections; simpl; ring.
Qed.

(** ** squeeze_coefficient *)
Lemma gather_expand c m bs g nb t : tshape c = bs ++ [g; nb] -> length (mask_positions m) = g ->
  expand_coefficient c m = Ok t ->
  exists u, squeeze_coefficient true t m = Ok u /\ teq u c.
Proof.
  intros Hs Hg Ht. destruct (expand_spec c m bs g nb Hs Hg) as (t' & E & Hsh & Hval & Hzero).
  rewrite Ht in E. injection E as <-. unfold squeeze_coefficient, gather.
  rewrite Hsh, app_assoc.
  replace (length ((bs ++ [nb]) ++ tshape m) - length (tshape m)) with (length (bs ++ [nb]))
    by (rewrite !app_length; lia).
  rewrite skipn_app_len by reflexivity. rewrite firstn_app_len by reflexivity.
  destruct (list_eq_dec Nat.eq_dec (tshape m) (tshape m)) as [Heq|Hne]; [|exfalso; apply Hne; reflexivity].
  cbn [bind tshape tget]. eexists. split; [reflexivity|]. split; cbn [tshape tget].
  - rewrite <- app_assoc. cbn [app]. rewrite swap_last2_app, Hs, Hg. reflexivity.
  - intros i Hi. rewrite <- app_assoc in Hi. cbn [app] in Hi. rewrite swap_last2_app in Hi.
    apply inb_split in Hi. destruct Hi as (b & r & -> & Hb & Hr).
    inversion Hr as [|j gg r' ? Hj Hr']; subst. inversion Hr' as [|k ? r'' ? Hk Hr'']; subst.
    inversion Hr''; subst. rewrite swap_last2_app.
    replace (b ++ [k; j]) with ((b ++ [k]) ++ [j]) by (rewrite <- app_assoc; reflexivity).
    assert (Hl : length (b ++ [k]) = length (bs ++ [nb])) by (rewrite !app_length, (inb_length _ _ Hb); reflexivity).
    rewrite firstn_app_len by exact Hl. rewrite <- Hl, app_nth2, Nat.sub_diag by lia.
    cbn [nth]. rewrite <- app_assoc. rewrite Hval by (try assumption; lia). reflexivity.
Qed.

Lemma squeeze_jax_raises c m : raises (squeeze_coefficient false c m).
Proof.
  unfold squeeze_coefficient. destruct (gather c m); simpl; eexists; reflexivity.
Qed.

(** ** half_frequency_pad_to *)
Lemma split_axes_flat {A} a szs (us : list (tensor A)) :
  split_axes a szs us = flat_map (fun u => split_axes a szs [u]) us.
Proof.
  revert a us. induction szs as [|sz szs IH]; intros a us; cbn [split_axes].
  - induction us as [|u us IHu]; simpl; [reflexivity|]. rewrite <- IHu. reflexivity.
  - induction us as [|u us IHu]; cbn [flat_map].
    + rewrite IH. reflexivity.
    + rewrite app_nil_r, IH, flat_map_app, <- (IH (S a) (split2 a (fst sz) u)).
      f_equal. rewrite <- IH. exact IHu.
Qed.

Lemma split_axes_cons {A} a sz szs (u : tensor A) lo hi : split2 a (fst sz) u = [lo; hi] ->
  split_axes a (sz :: szs) [u] = split_axes (S a) szs [lo] ++ split_axes (S a) szs [hi].
Proof.
  intros H. cbn [split_axes flat_map]. rewrite app_nil_r, H, split_axes_flat. simpl.
  rewrite app_nil_r. reflexivity.
Qed.

Lemma split_axes_length {A} a szs (u : tensor A) : length (split_axes a szs [u]) = 2 ^ length szs.
Proof.
  revert a u. induction szs as [|sz szs IH]; intros a u; [reflexivity|].
  rewrite (split_axes_cons a sz szs u _ _ eq_refl), app_length, !IH. cbn [length Nat.pow]. lia.
Qed.
Lemma product2_length l : length (product2 l) = 2 ^ length l.
Proof.
  induction l as [|[x y] l IH]; [reflexivity|]. cbn [product2 length Nat.pow].
  rewrite app_length, !map_length, IH. lia.
Qed.

Lemma combine_app {A B} (a1 a2 : list A) (b1 b2 : list B) : length a1 = length b1 ->
  combine (a1 ++ a2) (b1 ++ b2) = combine a1 b1 ++ combine a2 b2.
Proof. revert b1. induction a1 as [|x a1 IH]; intros [|y b1] H; simpl in *; try discriminate; [reflexivity|]. rewrite IH; auto. Qed.

Lemma combine_map_l {A A' B} (f : A -> A') (a : list A) (b : list B) :
  combine (map f a) b = map (fun p => (f (fst p), snd p)) (combine a b).
Proof. revert b. induction a as [|x a IH]; intros [|y b]; simpl; try reflexivity. rewrite IH. reflexivity. Qed.

Lemma fold_left_map {A B D} (f : D -> B -> D) (h : A -> B) l d :
  fold_left f (map h l) d = fold_left (fun d a => f d (h a)) l d.
Proof. revert d. induction l as [|a l IH]; intros d; simpl; auto. Qed.

(** One axis: where position [k] comes from in the compact block. *)
Definition src (st sz : nat * nat) (k : nat) : option nat :=
  if (fst st <=? k) && (k <? fst st + fst sz) then Some (k - fst st)
  else if (snd st <=? k) && (k <? snd st + snd sz) then Some (fst sz + (k - snd st))
  else None.
Fixpoint srcs (sts szs : list (nat * nat)) (i : list nat) : option (list nat) :=
  match sts, szs, i with
  | [], [], [] => Some []
  | st :: sts', sz :: szs', k :: i' =>
      match src st sz k, srcs sts' szs' i' with Some a, Some r => Some (a :: r) | _, _ => None end
  | _, _, _ => None
  end.

(** Axes well formed: blocks fit and do not overlap. *)
Definition axis_ok (n : nat) (st sz : nat * nat) : Prop :=
  fst st = 0 /\ fst sz <= snd st /\ snd st + snd sz = n.
Fixpoint axes_ok (ns : list nat) (sts szs : list (nat * nat)) : Prop :=
  match ns, sts, szs with
  | [], [], [] => True
  | n :: ns', st :: sts', sz :: szs' => axis_ok n st sz /\ axes_ok ns' sts' szs'
  | _, _, _ => False
  end.

Definition padstep {A} (pre : list nat) (ret : tensor A) (su : list nat * tensor A) : tensor A :=
  dyn_update_slice ret (snd su) (pre ++ fst su).

Lemma clamp_id start ush sh : Forall2 (fun p n => fst p + snd p <= n) (combine start ush) sh ->
  length start = length ush -> clamp_starts start ush sh = start.
Proof.
  revert ush sh. induction start as [|s start IH]; intros [|u ush] [|n sh] H Hl; simpl in *; try discriminate; auto.
  - inversion H.
  - inversion H; subst. simpl in *. rewrite IH by (auto; lia). f_equal. lia.
Qed.

Lemma in_block_app s1 s2 u1 u2 i1 i2 : length s1 = length u1 -> length s1 = length i1 ->
  in_block (s1 ++ s2) (u1 ++ u2) (i1 ++ i2) = in_block s1 u1 i1 && in_block s2 u2 i2.
Proof.
  revert u1 i1. induction s1 as [|s s1 IH]; intros [|u u1] [|i i1] H1 H2; simpl in *; try discriminate; auto.
  rewrite IH by lia. rewrite !andb_assoc. reflexivity.
Qed.
Lemma sub_start_app s1 s2 i1 i2 : length s1 = length i1 ->
  sub_start (s1 ++ s2) (i1 ++ i2) = sub_start s1 i1 ++ sub_start s2 i2.
Proof. revert i1. induction s1 as [|s s1 IH]; intros [|i i1] H; simpl in *; try discriminate; auto. rewrite IH by lia. reflexivity. Qed.
Lemma sub_start_length s i : length s = length i -> length (sub_start s i) = length i.
Proof. revert i. induction s as [|a s IH]; intros [|b i] H; simpl in *; try discriminate; auto. Qed.

Lemma upd_app {A} (f : A -> A) pre x l : upd (length pre) f (pre ++ x :: l) = pre ++ f x :: l.
Proof. induction pre as [|a pre IH]; simpl; [reflexivity|]. rewrite IH. reflexivity. Qed.

Lemma pad_fold_shape {A} pre (l : list (list nat * tensor A)) ret :
  tshape (fold_left (padstep pre) l ret) = tshape ret.
Proof. revert ret. induction l as [|a l IH]; intros ret; simpl; auto. rewrite IH. reflexivity. Qed.

Lemma pad_fold_cons {A} pre x (l : list (list nat * tensor A)) r :
  fold_left (fun d a => padstep pre d (x :: fst a, snd a)) l r = fold_left (padstep (pre ++ [x])) l r.
Proof.
  revert r. induction l as [|a l IHl]; intros r; [reflexivity|]. cbn [fold_left]. rewrite IHl.
  f_equal. unfold padstep. cbn [fst snd]. rewrite <- app_assoc. reflexivity.
Qed.

Lemma pad_fold {A} (szs sts : list (nat * nat)) (ns : list nat) :
  axes_ok ns sts szs ->
  forall (pre dsh full : list nat) (u ret : tensor A),
  length pre = length dsh ->
  Forall2 (fun p n => fst p + snd p <= n) (combine pre dsh) full ->
  tshape u = dsh ++ map (fun z => fst z + snd z) szs ->
  tshape ret = full ++ ns ->
  forall i j, length i = length pre -> inb j ns ->
  tget (fold_left (padstep pre) (combine (product2 sts) (split_axes (length pre) szs [u])) ret) (i ++ j)
  = if in_block pre dsh i then
      match srcs sts szs j with
      | Some r => tget u (sub_start pre i ++ r)
      | None => tget ret (i ++ j)
      end
    else tget ret (i ++ j).
Proof.
  revert sts ns. induction szs as [|sz szs IH]; intros [|st sts] [|n ns] Hax; try contradiction;
    intros pre dsh full u ret Hl Hfit Hu Hret i j Hi Hj.
  - inversion Hj; subst. cbn [product2 split_axes combine fold_left padstep fst snd srcs].
    unfold padstep, dyn_update_slice. cbn [tget fst snd tshape].
    rewrite Hu, Hret. cbn [map]. rewrite !app_nil_r. rewrite clamp_id by assumption. reflexivity.
  - destruct Hax as [(Hs0 & Hs1 & Hs2) Hax]. destruct st as [s0 s1]. destruct sz as [z0 z1]. cbn [fst snd] in *. subst s0.
    inversion Hj as [|k ? j' ? Hk Hj']; subst.
    cbn [product2]. rewrite (split_axes_cons (length pre) (z0, z1) szs u _ _ eq_refl).
    assert (Hlens : length sts = length szs).
    { clear -Hax. revert ns sts Hax. induction szs as [|? szs IHz]; intros [|? ns] [|? sts] H; simpl in *; try contradiction; auto. f_equal. eapply IHz. apply H. }
    rewrite combine_app by (rewrite map_length, product2_length, split_axes_length, Hlens; reflexivity).
    rewrite fold_left_app, !combine_map_l, !fold_left_map. cbv beta. cbn [fst snd].
    set (lo := mkT (upd (length pre) (fun n => Nat.min z0 n) (tshape u)) (tget u)).
    set (hi := mkT (upd (length pre) (fun n => n - z0) (tshape u)) (fun i => tget u (upd (length pre) (Nat.add z0) i))).
    assert (Hlen1 : forall x, length (pre ++ [x]) = S (length pre)) by (intros; rewrite app_length; simpl; lia).
    set (ret1 := fold_left (fun d a => padstep pre d (0 :: fst a, snd a)) (combine (product2 sts) (split_axes (S (length pre)) szs [lo])) ret).
    assert (Hret1 : forall i j', length i = length pre -> k < s1 + z1 -> inb j' ns ->
       tget ret1 (i ++ k :: j')
       = if in_block pre dsh i && (k <? z0) then
           match srcs sts szs j' with Some r => tget u (sub_start pre i ++ k :: r) | None => tget ret (i ++ k :: j') end
         else tget ret (i ++ k :: j')).
    { clear i Hi Hj j' Hj'. intros i j' Hi Hk' Hj'.
      pose proof (IH sts ns Hax (pre ++ [0]) (dsh ++ [z0]) (full ++ [s1 + z1]) lo ret) as IH1.
      rewrite !app_length in IH1. cbn [length] in IH1. specialize (IH1 ltac:(lia)).
      replace (combine (pre ++ [0]) (dsh ++ [z0])) with (combine pre dsh ++ [(0, z0)]) in IH1 by (rewrite combine_app by exact Hl; reflexivity).
      specialize (IH1 ltac:(apply Forall2_app; [exact Hfit|constructor; [simpl; lia|constructor]])).
      assert (Hlo : tshape lo = (dsh ++ [z0]) ++ map (fun z => fst z + snd z) szs).
      { unfold lo. cbn [tshape]. rewrite Hu. cbn [map fst snd]. rewrite Hl, upd_app, <- app_assoc. cbn [app]. do 2 f_equal. lia. }
      specialize (IH1 Hlo). rewrite <- app_assoc in IH1. specialize (IH1 Hret).
      specialize (IH1 (i ++ [k]) j'). rewrite app_length in IH1. cbn [length] in IH1.
      specialize (IH1 ltac:(lia) Hj'). rewrite <- !app_assoc in IH1. cbn [app] in IH1.
      rewrite in_block_app in IH1 by lia. cbn [in_block] in IH1. rewrite andb_true_r in IH1. cbn [Nat.leb Nat.add andb] in IH1.
      rewrite sub_start_app in IH1 by lia. cbn [sub_start] in IH1. rewrite Nat.sub_0_r in IH1.
      unfold ret1.
      replace (S (length pre)) with (length pre + 1) by lia.
      rewrite pad_fold_cons, IH1. destruct (in_block pre dsh i && (k <? z0)); [|reflexivity].
      destruct (srcs sts szs j') as [r|]; [|reflexivity]. rewrite <- app_assoc. reflexivity. }
    assert (Hret1s : tshape ret1 = full ++ (s1 + z1) :: ns).
    { unfold ret1. rewrite <- Hret. generalize (combine (product2 sts) (split_axes (S (length pre)) szs [lo])). clear.
      intros l. revert ret. induction l as [|a l IHl]; intros ret; [reflexivity|]. cbn [fold_left]. rewrite IHl. reflexivity. }
    pose proof (IH sts ns Hax (pre ++ [s1]) (dsh ++ [z1]) (full ++ [s1 + z1]) hi ret1) as IH2.
    rewrite !app_length in IH2. cbn [length] in IH2. specialize (IH2 ltac:(lia)).
    replace (combine (pre ++ [s1]) (dsh ++ [z1])) with (combine pre dsh ++ [(s1, z1)]) in IH2 by (rewrite combine_app by exact Hl; reflexivity).
    specialize (IH2 ltac:(apply Forall2_app; [exact Hfit|constructor; [simpl; lia|constructor]])).
    assert (Hhi : tshape hi = (dsh ++ [z1]) ++ map (fun z => fst z + snd z) szs).
    { unfold hi. cbn [tshape]. rewrite Hu. cbn [map fst snd]. rewrite Hl, upd_app, <- app_assoc. cbn [app]. do 2 f_equal. lia. }
    specialize (IH2 Hhi). rewrite <- app_assoc in IH2. specialize (IH2 Hret1s).
    specialize (IH2 (i ++ [k]) j'). rewrite app_length in IH2. cbn [length] in IH2.
    specialize (IH2 ltac:(lia) Hj'). rewrite <- !app_assoc in IH2. cbn [app] in IH2.
    rewrite in_block_app in IH2 by lia. cbn [in_block] in IH2. rewrite andb_true_r in IH2.
    rewrite sub_start_app in IH2 by lia. cbn [sub_start] in IH2.
    fold lo hi ret1. rewrite pad_fold_cons. replace (S (length pre)) with (length pre + 1) by lia. rewrite IH2.
    rewrite Hret1 by (try assumption; lia).
    cbn [srcs]. unfold src. cbn [fst snd Nat.leb andb Nat.add]. rewrite Nat.sub_0_r.
    unfold hi. cbn [tget].
    assert (Hul : forall r, upd (length pre) (Nat.add z0) (sub_start pre i ++ (k - s1) :: r) = sub_start pre i ++ (z0 + (k - s1)) :: r).
    { intros r. replace (length pre) with (length (sub_start pre i)) by (rewrite sub_start_length; lia). apply upd_app. }
    destruct (in_block pre dsh i); cbn [andb]; [|reflexivity].
    destruct (srcs sts szs j') as [r|].
    + rewrite <- app_assoc. cbn [app]. rewrite Hul. destruct (Nat.leb_spec s1 k), (Nat.ltb_spec k (s1 + z1)), (Nat.ltb_spec k z0); cbn [andb]; try reflexivity; lia.
    + destruct (s1 <=? k), (k <? s1 + z1), (k <? z0); cbn [andb]; reflexivity.
Qed.

Lemma half_axis_ok n : 1 <= n -> axis_ok n
  (let '((p, q), _) := half_range (Z.of_nat n) in (Z.to_nat p, Z.to_nat q))
  (let '(_, (p, q)) := half_range (Z.of_nat n) in (Z.to_nat p, Z.to_nat q)).
Proof. intros Hn. unfold axis_ok, half_range. cbv zeta. cbn [fst snd]. lia. Qed.

Lemma half_axes_ok ns : Forall (fun n => 1 <= n) ns -> axes_ok ns (half_starts ns) (half_sizes ns).
Proof.
  induction 1 as [|n ns Hn H IH]; simpl; [exact I|]. split; [apply half_axis_ok; exact Hn|exact IH].
Qed.

Lemma in_block_zeros bs b : inb b bs -> in_block (repeat 0 (length bs)) bs b = true.
Proof. induction 1 as [|k n b bs Hk H IH]; simpl; [reflexivity|]. rewrite IH, andb_true_r. apply Nat.ltb_lt. exact Hk. Qed.
Lemma sub_start_zeros b n : length b = n -> sub_start (repeat 0 n) b = b.
Proof. revert n. induction b as [|k b IH]; intros [|n] H; simpl in *; try discriminate; auto. rewrite IH by lia. f_equal. lia. Qed.
Lemma zeros_fit bs : Forall2 (fun p n => fst p + snd p <= n) (combine (repeat 0 (length bs)) bs) bs.
Proof. induction bs as [|n bs IH]; simpl; constructor; auto. Qed.

Lemma pad_spec t bs ns : tshape t = bs ++ half_shape ns -> Forall (fun n => 1 <= n) ns ->
  exists p, half_frequency_pad_to t ns = Ok p /\ tshape p = bs ++ ns /\
  forall b j, inb b bs -> inb j ns ->
   tget p (b ++ j) = match srcs (half_starts ns) (half_sizes ns) j with
                     | Some r => tget t (b ++ r) | None => RtoC 0 end.
Proof.
  intros Hs Hn. unfold half_frequency_pad_to. rewrite Hs.
  assert (Hlen : length (half_shape ns) = length ns) by (unfold half_shape, half_sizes; rewrite !map_length; reflexivity).
  replace (length (bs ++ half_shape ns) - length ns) with (length bs) by (rewrite app_length; lia).
  rewrite firstn_app_len, skipn_app_len by reflexivity.
  destruct (list_eq_dec Nat.eq_dec (half_shape ns) (half_shape ns)) as [Heq|Hne]; [|exfalso; apply Hne; reflexivity].
  cbv zeta. eexists. split; [reflexivity|].
  change (fun ret su => dyn_update_slice ret (snd su) (repeat 0 (length bs) ++ fst su))
    with (@padstep C (repeat 0 (length bs))).
  split; [rewrite pad_fold_shape; reflexivity|].
  intros b j Hb Hj. replace (split_axes (length bs)) with (@split_axes C (length (repeat 0 (length bs)))) by (rewrite repeat_length; reflexivity).
  rewrite (pad_fold (half_sizes ns) (half_starts ns) ns (half_axes_ok ns Hn) (repeat 0 (length bs)) bs bs); cbn [tshape tget]; auto.
  - rewrite in_block_zeros by exact Hb. rewrite sub_start_zeros by exact (inb_length _ _ Hb). reflexivity.
  - apply repeat_length.
  - apply zeros_fit.
  - rewrite repeat_length. exact (inb_length _ _ Hb).
Qed.

(** ** the mask side *)
Fixpoint axes_mask (ns i : list nat) : bool :=
  match ns, i with
  | [], [] => true
  | n :: ns', k :: i' => cubic_mask_axis (Z.of_nat n) (Z.of_nat k) && axes_mask ns' i'
  | _, _ => false
  end.

Lemma filter_seq_all p s n : (forall k, s <= k < s + n -> p k = true) -> filter p (seq s n) = seq s n.
Proof.
  revert s. induction n as [|n IH]; intros s H; simpl; [reflexivity|].
  rewrite H by lia. rewrite IH; [reflexivity|]. intros; apply H; lia.
Qed.
Lemma filter_seq_none p s n : (forall k, s <= k < s + n -> p k = false) -> filter p (seq s n) = [].
Proof.
  revert s. induction n as [|n IH]; intros s H; simpl; [reflexivity|].
  rewrite H by lia. apply IH. intros; apply H; lia.
Qed.

Lemma map_seq_shift (f : nat -> option nat) s s' n : (forall k, k < n -> f (s + k) = Some (s' + k)) ->
  map f (seq s n) = map Some (seq s' n).
Proof.
  revert s s'. induction n as [|n IH]; intros s s' H; simpl; [reflexivity|].
  f_equal.
  - specialize (H 0 ltac:(lia)). rewrite !Nat.add_0_r in H. exact H.
  - apply IH. intros k Hk. replace (S s + k) with (s + S k) by lia. rewrite H by lia. f_equal. lia.
Qed.

Definition st1 n := let '((p, q), _) := half_range (Z.of_nat n) in (Z.to_nat p, Z.to_nat q).
Definition sz1 n := let '(_, (p, q)) := half_range (Z.of_nat n) in (Z.to_nat p, Z.to_nat q).

Lemma mask_axis_eq n k : 1 <= n -> n <> 2 -> k < n ->
  cubic_mask_axis (Z.of_nat n) (Z.of_nat k) = (k <? fst (sz1 n)) || (snd (st1 n) <=? k).
Proof.
  intros Hn H2 Hk. unfold cubic_mask_axis, py_bound, sz1, st1, half_range. cbv zeta. cbn [fst snd].
  destruct ((Z.of_nat n - 1) / 2 / 2 + 1 <? 0)%Z eqn:E2; destruct (- ((Z.of_nat n - 1) / 2) / 2 <? 0)%Z eqn:E3; lia.
Qed.

Lemma axis_src_order n : 1 <= n -> n <> 2 ->
  map (src (st1 n) (sz1 n)) (filter (fun k => cubic_mask_axis (Z.of_nat n) (Z.of_nat k)) (seq 0 n))
  = map Some (seq 0 (fst (sz1 n) + snd (sz1 n))).
Proof.
  intros Hn H2. pose proof (half_axis_ok n Hn) as (Ha & Hb & Hc).
  fold (st1 n) in Ha, Hb, Hc. fold (sz1 n) in Ha, Hb, Hc.
  pose proof (fun k => mask_axis_eq n k Hn H2) as Hmask.
  destruct (st1 n) as [s0 s1]. destruct (sz1 n) as [z0 z1]. cbn [fst snd] in *. subst s0.
  assert (Hseq : seq 0 n = seq 0 z0 ++ seq (0 + z0) (s1 - z0) ++ seq (0 + z0 + (s1 - z0)) z1).
  { rewrite <- !seq_app. f_equal. lia. }
  rewrite Hseq, seq_app, !filter_app.
  rewrite (filter_seq_all _ 0 z0) by (intros; rewrite Hmask by lia; lia).
  rewrite (filter_seq_none _ (0 + z0) (s1 - z0)) by (intros; rewrite Hmask by lia; lia).
  rewrite (filter_seq_all _ (0 + z0 + (s1 - z0)) z1) by (intros; rewrite Hmask by lia; lia).
  cbn [app]. rewrite !map_app. f_equal.
  - apply map_seq_shift. intros k Hk. unfold src. cbn [fst snd]. cbn [Nat.leb andb Nat.add].
    replace (k <? z0) with true by lia. f_equal. lia.
  - apply map_seq_shift. intros k Hk. unfold src. cbn [fst snd]. cbn [Nat.leb andb Nat.add].
    replace (z0 + (s1 - z0) + k <? z0) with false by lia.
    replace (s1 <=? z0 + (s1 - z0) + k) with true by lia.
    replace (z0 + (s1 - z0) + k <? s1 + z1) with true by lia. cbn [andb]. f_equal. lia.
Qed.

Lemma filter_flat_map {A B} (p : B -> bool) (f : A -> list B) l :
  filter p (flat_map f l) = flat_map (fun a => filter p (f a)) l.
Proof. induction l as [|a l IH]; simpl; [reflexivity|]. rewrite filter_app, IH. reflexivity. Qed.

Lemma flat_map_filter {A B} (q : A -> bool) (f : A -> list B) l :
  flat_map (fun a => if q a then f a else []) l = flat_map f (filter q l).
Proof. induction l as [|a l IH]; simpl; [reflexivity|]. destruct (q a); simpl; rewrite IH; reflexivity. Qed.

Lemma map_flat_map {A B D} (g : B -> D) (f : A -> list B) l :
  map g (flat_map f l) = flat_map (fun a => map g (f a)) l.
Proof. induction l as [|a l IH]; simpl; [reflexivity|]. rewrite map_app, IH. reflexivity. Qed.

Lemma srcs_order ns : Forall (fun n => 1 <= n /\ n <> 2) ns ->
  map (srcs (half_starts ns) (half_sizes ns)) (filter (axes_mask ns) (indices ns))
  = map Some (indices (half_shape ns)).
Proof.
  induction 1 as [|n ns [Hn H2] H IH]; [reflexivity|].
  cbn [indices]. rewrite filter_flat_map.
  assert (Hf : forall k, filter (axes_mask (n :: ns)) (map (cons k) (indices ns)) =
     if cubic_mask_axis (Z.of_nat n) (Z.of_nat k) then map (cons k) (filter (axes_mask ns) (indices ns)) else []).
  { intros k. clear IH. induction (indices ns) as [|i l IHl]; cbn [map filter].
    - destruct (cubic_mask_axis _ _); reflexivity.
    - rewrite IHl. cbn [axes_mask]. destruct (cubic_mask_axis (Z.of_nat n) (Z.of_nat k)); cbn [andb].
      + destruct (axes_mask ns i); reflexivity.
      + reflexivity. }
  rewrite (flat_map_ext _ _ Hf).
  rewrite flat_map_filter, map_flat_map.
  change (half_starts (n :: ns)) with (st1 n :: half_starts ns).
  change (half_sizes (n :: ns)) with (sz1 n :: half_sizes ns).
  change (half_shape (n :: ns)) with ((fst (sz1 n) + snd (sz1 n)) :: half_shape ns).
  cbn [indices]. rewrite map_flat_map.
  pose proof (axis_src_order n Hn H2) as Ho.
  set (ks := filter _ (seq 0 n)) in *. set (rs := seq 0 (fst (sz1 n) + snd (sz1 n))) in *. clearbody ks rs.
  revert rs Ho. induction ks as [|k ks IHk]; intros [|r rs] Ho; try discriminate; [reflexivity|].
  injection Ho as Hk Ho. cbn [flat_map]. rewrite (IHk rs Ho). f_equal.
  rewrite !map_map. cbn [srcs]. rewrite Hk.
  rewrite <- (map_map (srcs (half_starts ns) (half_sizes ns)) (fun o => match o with Some r0 => Some (r :: r0) | None => None end)).
  rewrite IH, map_map. reflexivity.
Qed.

Definition cubic_tensor (ns : list nat) (m : list Z -> bool) : tensor bool :=
  mkT ns (fun i => m (map Z.of_nat i)).

Lemma cubic_tensor_mask n1 n2 n3 m : cubic_mask (map Z.of_nat [n1; n2; n3]) = Ok m ->
  forall i, inb i [n1; n2; n3] -> tget (cubic_tensor [n1; n2; n3] m) i = axes_mask [n1; n2; n3] i.
Proof.
  intros H i Hi. injection H as <-. inversion Hi as [|i1 ? r1 ? H1 Hr1]; subst.
  inversion Hr1 as [|i2 ? r2 ? H2 Hr2]; subst. inversion Hr2 as [|i3 ? r3 ? H3 Hr3]; subst. inversion Hr3; subst.
  cbn. rewrite andb_true_r, andb_assoc. reflexivity.
Qed.

Lemma filter_ext_in' {A} (p q : A -> bool) l : (forall a, In a l -> p a = q a) -> filter p l = filter q l.
Proof. induction l as [|a l IH]; simpl; intros H; [reflexivity|]. rewrite H by auto. rewrite IH by auto. reflexivity. Qed.

Lemma nth_map_some {A B} (f : A -> option B) l l' j d d' : map f l = map Some l' -> j < length l ->
  f (nth j l d) = Some (nth j l' d').
Proof.
  revert l' j. induction l as [|a l IH]; intros [|b l'] j H Hj; simpl in *; try discriminate; [lia|].
  injection H as Ha H. destruct j as [|j]; [exact Ha|]. apply IH; [exact H|lia].
Qed.

Lemma srcs_none_iff ns i : Forall (fun n => 1 <= n /\ n <> 2) ns -> inb i ns ->
  axes_mask ns i = false -> srcs (half_starts ns) (half_sizes ns) i = None.
Proof.
  intros H. revert i. induction H as [|n ns [Hn H2] H IH]; intros i Hi Hm; inversion Hi as [|k ? r ? Hk Hr]; subst.
  - discriminate.
  - change (half_starts (n :: ns)) with (st1 n :: half_starts ns).
    change (half_sizes (n :: ns)) with (sz1 n :: half_sizes ns). cbn [srcs axes_mask] in *.
    destruct (cubic_mask_axis (Z.of_nat n) (Z.of_nat k)) eqn:E.
    + cbn [andb] in Hm. rewrite (IH r Hr Hm). destruct (src _ _ _); reflexivity.
    + assert (src (st1 n) (sz1 n) k = None) as ->; [|reflexivity].
      rewrite (mask_axis_eq n k Hn H2 Hk) in E. apply orb_false_iff in E. destruct E as [E1 E2].
      pose proof (half_axis_ok n Hn) as (Ha & _). fold (st1 n) in Ha. unfold src. rewrite Ha, Nat.add_0_l, E1, E2, andb_false_r.
      reflexivity.
Qed.

Lemma pad_is_scatter t bs n1 n2 n3 m : let ns := [n1; n2; n3] in
  Forall (fun n => 1 <= n /\ n <> 2) ns ->
  cubic_mask (map Z.of_nat ns) = Ok m -> tshape t = bs ++ half_shape ns ->
  length (mask_positions (cubic_tensor ns m)) = nprod (half_shape ns) /\
  exists p, half_frequency_pad_to t ns = Ok p /\ tshape p = bs ++ ns /\
   (forall b j, inb b bs -> j < nprod (half_shape ns) ->
      tget p (b ++ nth j (mask_positions (cubic_tensor ns m)) [])
      = tget t (b ++ nth j (indices (half_shape ns)) [])) /\
   (forall b i, inb b bs -> inb i ns -> tget (cubic_tensor ns m) i = false -> tget p (b ++ i) = RtoC 0).
Proof.
  intros ns Hns Hm Hs.
  assert (Hpos : mask_positions (cubic_tensor ns m) = filter (axes_mask ns) (indices ns)).
  { unfold mask_positions. cbn [tshape cubic_tensor]. apply filter_ext_in'. intros i Hi.
    apply in_indices in Hi. apply cubic_tensor_mask; assumption. }
  pose proof (srcs_order ns Hns) as Ho. rewrite <- Hpos in Ho.
  assert (Hlen : length (mask_positions (cubic_tensor ns m)) = nprod (half_shape ns)).
  { apply (f_equal (@length _)) in Ho. rewrite !map_length, length_indices in Ho. exact Ho. }
  split; [exact Hlen|].
  destruct (pad_spec t bs ns Hs) as (p & Hp & Hsh & Hval).
  { eapply Forall_impl; [|exact Hns]. simpl. tauto. }
  exists p. split; [exact Hp|]. split; [exact Hsh|]. split.
  - intros b j Hb Hj. rewrite Hval; [|exact Hb|].
    + rewrite (nth_map_some _ _ _ j [] [] Ho) by lia. reflexivity.
    + assert (Hin : In (nth j (mask_positions (cubic_tensor ns m)) []) (mask_positions (cubic_tensor ns m))) by (apply nth_In; lia).
      apply mask_positions_in in Hin. apply Hin.
  - intros b i Hb Hi Hf. rewrite Hval by assumption.
    rewrite srcs_none_iff; auto. rewrite <- (cubic_tensor_mask n1 n2 n3 m Hm) by exact Hi. exact Hf.
Qed.

(** The padded array equals [expand_coefficient] of the row-major flattening. *)
Lemma pad_eq_expand t bs nb n1 n2 n3 m c : let ns := [n1; n2; n3] in
  Forall (fun n => 1 <= n /\ n <> 2) ns ->
  cubic_mask (map Z.of_nat ns) = Ok m ->
  tshape t = (bs ++ [nb]) ++ half_shape ns ->
  tshape c = bs ++ [nprod (half_shape ns); nb] ->
  (forall b j k, inb b bs -> j < nprod (half_shape ns) -> k < nb ->
     tget c (b ++ [j; k]) = tget t (b ++ [k] ++ nth j (indices (half_shape ns)) [])) ->
  exists p e, half_frequency_pad_to t ns = Ok p /\ expand_coefficient c (cubic_tensor ns m) = Ok e /\ teq p e.
Proof.
  intros ns Hns Hm Hs Hc Hflat.
  destruct (pad_is_scatter t (bs ++ [nb]) n1 n2 n3 m Hns Hm Hs) as (Hlen & p & Hp & Hsh & Hval & Hzero).
  destruct (expand_spec c (cubic_tensor ns m) bs _ nb Hc Hlen) as (e & He & Hesh & Heval & Hezero).
  exists p, e. split; [exact Hp|]. split; [exact He|]. split.
  - rewrite Hsh, Hesh, <- app_assoc. reflexivity.
  - intros i Hi. rewrite Hsh in Hi. apply inb_split in Hi. destruct Hi as (bk & j & -> & Hbk & Hj).
    pose proof Hbk as Hbk'. apply inb_split in Hbk. destruct Hbk as (b & kk & -> & Hb & Hk).
    inversion Hk as [|k ? r ? Hkn Hr]; subst. inversion Hr; subst.
    destruct (tget (cubic_tensor ns m) j) eqn:E.
    + assert (Hin : In j (mask_positions (cubic_tensor ns m))) by (apply mask_positions_in; split; assumption).
      apply (In_nth _ _ []) in Hin. destruct Hin as (q & Hq & <-).
      change (length (mask_positions (cubic_tensor ns m)) = nprod (half_shape ns)) in Hlen. rewrite Hlen in Hq.
      change [n1; n2; n3] with ns in Hval.
      rewrite (Hval _ _ Hbk' Hq). rewrite <- !app_assoc.
      etransitivity; [|symmetry; exact (Heval b k q Hb Hkn Hq)]. symmetry. exact (Hflat b q k Hb Hq Hkn).
    + rewrite Hzero by assumption. rewrite <- app_assoc. rewrite Hezero by assumption. reflexivity.
Qed.

Lemma half_shape_agrees ns : half_frequency_shape (map Z.of_nat ns) = map Z.of_nat (half_shape ns).
Proof.
  unfold half_frequency_shape, half_shape, half_sizes. rewrite !map_map. apply map_ext. intros n.
  unfold half_range. cbv zeta. cbn [fst snd]. lia.
Qed.

Lemma pad_bad_shape t ns : skipn (length (tshape t) - length ns) (tshape t) <> half_shape ns ->
  half_frequency_pad_to t ns = Err AssertionErr.
Proof. intros H. unfold half_frequency_pad_to. destruct (list_eq_dec _ _ _); [contradiction|reflexivity]. Qed.

(** At size 2 the mask selects both frequencies of the axis but the compact shape has one. *)
Lemma pad_size2 : exists m, cubic_mask (map Z.of_nat [2; 2; 2]) = Ok m /\
  length (mask_positions (cubic_tensor [2; 2; 2] m)) <> nprod (half_shape [2; 2; 2]).
Proof. eexists. split; [reflexivity|]. vm_compute. discriminate. Qed.
Lemma squeeze_jax_attr c m bs : tshape c = bs ++ tshape m -> squeeze_coefficient false c m = Err AttributeErr.
Proof.
  intros H. unfold squeeze_coefficient, gather. rewrite H.
  replace (length (bs ++ tshape m) - length (tshape m)) with (length bs) by (rewrite app_length; lia).
  rewrite skipn_app_len by reflexivity. destruct (list_eq_dec _ _ _); [reflexivity|contradiction].
Qed.
