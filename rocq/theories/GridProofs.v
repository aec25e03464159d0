From Coq Require Import List ZArith Bool Lia ZifyBool.
From Verif Require Import Base GridModel GridSpec.
Import ListNotations.
Local Open Scope Z_scope.
Ltac Zify.zify_post_hook ::= Z.div_mod_to_equations.

(** ** fft_factor *)
Definition smooth_val (t : nat * nat * nat * nat) : Z :=
  let '(a, b, c, d) := t in
  2 ^ Z.of_nat a * 3 ^ Z.of_nat b * 5 ^ Z.of_nat c * 7 ^ Z.of_nat d.

Definition exps : list (nat * nat * nat * nat) :=
  flat_map (fun a => flat_map (fun b => flat_map (fun c => map (fun d => (a, b, c, d))
    (seq 0 4)) (seq 0 5)) (seq 0 7)) (seq 0 12).

Lemma exps_in a b c d : (a < 12)%nat -> (b < 7)%nat -> (c < 5)%nat -> (d < 4)%nat ->
  In (a, b, c, d) exps.
Proof.
  intros Ha Hb Hc Hd. unfold exps. apply in_flat_map. exists a. split; [apply in_seq; lia|].
  apply in_flat_map. exists b. split; [apply in_seq; lia|].
  apply in_flat_map. exists c. split; [apply in_seq; lia|].
  apply in_map_iff. exists d. split; [reflexivity|apply in_seq; lia].
Qed.

Lemma table_complete_b :
  forallb (fun t => let v := smooth_val t in
                    if v <=? 2048 then existsb (Z.eqb v) CUFFT_FACTORS else true) exps = true.
Proof. vm_compute. reflexivity. Qed.

Lemma table_smooth_b :
  forallb (fun m => existsb (fun t => smooth_val t =? m) exps) CUFFT_FACTORS = true.
Proof. vm_compute. reflexivity. Qed.

Lemma pow_bound (p : Z) (k K : nat) : 1 < p -> p ^ Z.of_nat k <= 2048 -> 2048 < p ^ Z.of_nat K -> (k < K)%nat.
Proof.
  intros Hp H1 H2. destruct (Nat.lt_ge_cases k K) as [H|H]; [exact H|].
  exfalso. assert (p ^ Z.of_nat K <= p ^ Z.of_nat k) by (apply Z.pow_le_mono_r; lia). lia.
Qed.

Lemma pow_ge_1 p k : 1 < p -> 1 <= p ^ Z.of_nat k.
Proof. intros H. assert (0 < p ^ Z.of_nat k) by (apply Z.pow_pos_nonneg; lia). lia. Qed.

Lemma table_complete m : smooth7 m -> m <= 2048 -> In m CUFFT_FACTORS.
Proof.
  intros (a & b & c & d & Hm) Hle.
  pose proof (pow_ge_1 2 a ltac:(lia)) as Pa. pose proof (pow_ge_1 3 b ltac:(lia)) as Pb.
  pose proof (pow_ge_1 5 c ltac:(lia)) as Pc. pose proof (pow_ge_1 7 d ltac:(lia)) as Pd.
  set (A := 2 ^ Z.of_nat a) in *. set (B := 3 ^ Z.of_nat b) in *.
  set (D := 5 ^ Z.of_nat c) in *. set (E := 7 ^ Z.of_nat d) in *.
  assert (1 <= A * B) by nia. assert (1 <= A * B * D) by nia.
  assert (HAB : A * B <= 2048) by nia.
  assert (HD : D <= 2048) by nia. assert (HE : E <= 2048) by nia.
  assert (HA : A <= 2048) by nia. assert (HB : B <= 2048) by nia.
  assert (Hin : In (a, b, c, d) exps).
  { apply exps_in.
    - apply (pow_bound 2 a 12); [lia|exact HA|vm_compute; reflexivity].
    - apply (pow_bound 3 b 7); [lia|exact HB|vm_compute; reflexivity].
    - apply (pow_bound 5 c 5); [lia|exact HD|vm_compute; reflexivity].
    - apply (pow_bound 7 d 4); [lia|exact HE|vm_compute; reflexivity]. }
  pose proof table_complete_b as T. rewrite forallb_forall in T. specialize (T _ Hin).
  unfold smooth_val in T. fold A B D E in T. cbv zeta in T. rewrite <- Hm in T.
  replace (m <=? 2048) with true in T by lia.
  apply existsb_exists in T. destruct T as [x [Hx Hxm]]. apply Z.eqb_eq in Hxm. subst. exact Hx.
Qed.

Lemma table_smooth m : In m CUFFT_FACTORS -> smooth7 m.
Proof.
  intros H. pose proof table_smooth_b as T. rewrite forallb_forall in T. specialize (T _ H).
  apply existsb_exists in T. destruct T as [[[[a b] c] d] [_ E]]. apply Z.eqb_eq in E.
  exists a, b, c, d. symmetry. exact E.
Qed.

Fixpoint sorted_b (l : list Z) : bool :=
  match l with a :: (b :: _) as t => (a <=? b) && sorted_b t | _ => true end.
Lemma table_sorted_b : sorted_b CUFFT_FACTORS = true.
Proof. vm_compute. reflexivity. Qed.

Lemma sorted_head a l x : sorted_b (a :: l) = true -> In x l -> a <= x.
Proof.
  revert a. induction l as [|b l IH]; intros a Hs Hx; [contradiction|].
  cbn [sorted_b] in Hs. apply andb_true_iff in Hs. destruct Hs as [H1 H2].
  destruct Hx as [->|Hx]; [lia|]. specialize (IH b H2 Hx). lia.
Qed.
Lemma sorted_tail a l : sorted_b (a :: l) = true -> sorted_b l = true.
Proof. destruct l; [reflexivity|]. cbn [sorted_b]. intros H. apply andb_true_iff in H. tauto. Qed.

Lemma filter_head_least l n f l' : sorted_b l = true ->
  filter (fun x => x - n >=? 0) l = f :: l' ->
  In f l /\ n <= f /\ forall x, In x l -> n <= x -> f <= x.
Proof.
  induction l as [|a l IH]; cbn [filter]; intros Hs H; [discriminate|].
  destruct (a - n >=? 0) eqn:E.
  - injection H as <- _. split; [left; reflexivity|]. split; [lia|].
    intros x [->|Hx] Hn; [lia|]. eapply sorted_head; eauto.
  - destruct (IH (sorted_tail _ _ Hs) H) as (H1 & H2 & H3).
    split; [right; exact H1|]. split; [exact H2|].
    intros x [->|Hx] Hn; [lia|]. auto.
Qed.

Lemma filter_nonempty (l : list Z) n x : In x l -> n <= x -> filter (fun x => x - n >=? 0) l <> [].
Proof.
  intros Hx Hn E. assert (H : In x (filter (fun x => x - n >=? 0) l)).
  { apply filter_In. split; [exact Hx|lia]. }
  rewrite E in H. contradiction.
Qed.

Lemma in_2048 : In 2048 CUFFT_FACTORS.
Proof. apply table_complete; [|lia]. exists 11%nat, 0%nat, 0%nat, 0%nat. reflexivity. Qed.
Lemma table_le_2048 x : In x CUFFT_FACTORS -> x <= 2048.
Proof.
  intros H. assert (T : forallb (fun x => x <=? 2048) CUFFT_FACTORS = true) by (vm_compute; reflexivity).
  rewrite forallb_forall in T. specialize (T x H). lia.
Qed.

Lemma fft_factor_ok n : n <= 2048 -> exists m, fft_factor n = Ok m /\ In m CUFFT_FACTORS /\ n <= m /\
  forall x, In x CUFFT_FACTORS -> n <= x -> m <= x.
Proof.
  intros Hn. unfold fft_factor. replace (n >? 2048) with false by lia.
  destruct (filter _ CUFFT_FACTORS) as [|f l'] eqn:E.
  - exfalso. eapply (filter_nonempty CUFFT_FACTORS n 2048); [exact in_2048|exact Hn|exact E].
  - destruct (filter_head_least CUFFT_FACTORS n f l' table_sorted_b E) as (H1 & H2 & H3). exists f. auto.
Qed.

Lemma fft_factor_least n m : fft_factor n = Ok m <-> n <= 2048 /\ least_at_least smooth7 n m.
Proof.
  split.
  - intros H. assert (Hn : n <= 2048).
    { unfold fft_factor in H. destruct (n >? 2048) eqn:E; [discriminate|lia]. }
    split; [exact Hn|]. destruct (fft_factor_ok n Hn) as (f & E & H1 & H2 & H3).
    rewrite E in H. injection H as <-. split; [apply table_smooth; exact H1|]. split; [exact H2|].
    intros m' Hs Hm. destruct (Z_le_dec m' 2048) as [L|L].
    + apply H3; [apply table_complete; assumption|exact Hm].
    + pose proof (H3 2048 in_2048 Hn). lia.
  - intros (Hn & Hs & Hm & Hmin). destruct (fft_factor_ok n Hn) as (f & E & H1 & H2 & H3).
    rewrite E. f_equal. pose proof (Hmin f (table_smooth _ H1) H2) as L1.
    assert (Hm2 : m <= 2048) by (pose proof (table_le_2048 f H1); lia).
    pose proof (H3 m (table_complete m Hs Hm2) Hm). lia.
Qed.

Lemma fft_factor_err n e : fft_factor n = Err e <-> n > 2048 /\ e = ValueErr.
Proof.
  split.
  - intros H. destruct (Z_le_dec n 2048) as [L|L].
    + destruct (fft_factor_ok n L) as (f & E & _). congruence.
    + unfold fft_factor in H. replace (n >? 2048) with true in H by lia. injection H as <-. split; [lia|reflexivity].
  - intros [H ->]. unfold fft_factor. replace (n >? 2048) with true by lia. reflexivity.
Qed.

Lemma fft_factor_doc_refuted :
  exists n m, 1 <= n /\ fft_factor n = Ok m /\ ~ least_at_least doc_fft_size n m.
Proof.
  exists 11, 12. split; [lia|]. split; [vm_compute; reflexivity|].
  intros (_ & _ & H). specialize (H 11). assert (12 <= 11); [|lia].
  apply H; [|lia]. exists 0%nat, 0%nat, 0%nat, 0%nat, 1%nat, 0%nat. repeat split; try lia.
Qed.

Lemma fft_factor_idem n m : fft_factor n = Ok m -> fft_factor m = Ok m.
Proof.
  intros H. apply fft_factor_least in H. destruct H as (Hn & Hs & Hm & Hmin).
  apply fft_factor_least. split.
  - apply (Z.le_trans _ 2048); [|lia]. apply Hmin; [|exact Hn]. apply table_smooth. exact in_2048.
  - split; [exact Hs|]. split; [lia|]. intros m' _ H'. exact H'.
Qed.

Lemma fft_factor_mono n n' m m' : n <= n' -> fft_factor n = Ok m -> fft_factor n' = Ok m' -> m <= m'.
Proof.
  intros Hn H H'. apply fft_factor_least in H, H'.
  destruct H as (_ & _ & _ & Hmin). destruct H' as (_ & Hs' & Hm' & _). apply Hmin; [exact Hs'|lia].
Qed.

(** ** proper_grid_size *)

Lemma mapM_ok {A B} (f : A -> res B) l r : mapM f l = Ok r <-> Forall2 (fun a b => f a = Ok b) l r.
Proof.
  revert r. induction l as [|a l IH]; intros r; simpl.
  - split; intros H; [injection H as <-; constructor|inversion H; reflexivity].
  - split.
    + intros H. destruct (f a) as [b|e] eqn:E; [|discriminate]. simpl in H.
      destruct (mapM f l) as [bs|e] eqn:E2; [|discriminate]. simpl in H. injection H as <-.
      constructor; [exact E|]. apply IH. reflexivity.
    + intros H. inversion H as [|? b ? bs Hb Hbs]; subst. rewrite Hb. simpl.
      apply IH in Hbs. rewrite Hbs. reflexivity.
Qed.

Lemma mapM_err {A B} (f : A -> res B) l e : mapM f l = Err e -> exists a, In a l /\ f a = Err e.
Proof.
  induction l as [|a l IH]; simpl; intros H; [discriminate|].
  destruct (f a) as [b|e'] eqn:E; simpl in H.
  - destruct (mapM f l) as [bs|e''] eqn:E2; simpl in H; [discriminate|].
    destruct (IH H) as [x [Hx Hf]]. exists x. auto.
  - exists a. split; auto. congruence.
Qed.

Lemma proper_grid_size_mapM a l : requested a = Some l -> proper_grid_size a = mapM fft_factor l.
Proof. destruct a; simpl; intros H; try discriminate; injection H as <-; reflexivity. Qed.

Lemma Forall2_imp {A B} (P Q : A -> B -> Prop) l r :
  (forall a b, P a b -> Q a b) -> Forall2 P l r -> Forall2 Q l r.
Proof. intros H. induction 1; constructor; auto. Qed.

Lemma pgs_spec a l r : requested a = Some l -> proper_grid_size a = Ok r ->
  Forall2 (fun n m => least_at_least smooth7 n m) l r.
Proof.
  intros Ha H. rewrite (proper_grid_size_mapM a l Ha) in H. apply mapM_ok in H.
  eapply Forall2_imp; [|exact H]. intros n m E. apply fft_factor_least in E. tauto.
Qed.

Lemma pgs_idem a r : proper_grid_size a = Ok r -> proper_grid_size (GSeq r) = Ok r.
Proof.
  intros H. destruct (requested a) as [l|] eqn:Ha.
  - rewrite (proper_grid_size_mapM a l Ha) in H. apply mapM_ok in H. simpl. apply mapM_ok.
    clear Ha. induction H; constructor; auto. eapply fft_factor_idem; eauto.
  - destruct a; simpl in *; discriminate.
Qed.

Lemma Forall2_mono_all l l' r r' : Forall2 Z.le l l' ->
  mapM fft_factor l = Ok r -> mapM fft_factor l' = Ok r' -> Forall2 Z.le r r'.
Proof.
  intros H. revert r r'. induction H as [|x y l l' Hxy H IH]; intros r r' Hr Hr';
    apply mapM_ok in Hr, Hr'; inversion Hr; inversion Hr'; subst; constructor.
  - match goal with H1 : fft_factor x = Ok _, H2 : fft_factor y = Ok _ |- _ =>
      exact (fft_factor_mono x y _ _ Hxy H1 H2) end.
  - apply IH; apply mapM_ok; assumption.
Qed.

Lemma pgs_mono a a' l l' r r' : requested a = Some l -> requested a' = Some l' -> Forall2 Z.le l l' ->
  proper_grid_size a = Ok r -> proper_grid_size a' = Ok r' -> Forall2 Z.le r r'.
Proof.
  intros Ha Ha' Hl Hr Hr'. rewrite (proper_grid_size_mapM a l Ha) in Hr.
  rewrite (proper_grid_size_mapM a' l' Ha') in Hr'. eapply Forall2_mono_all; eauto.
Qed.

Lemma pgs_raises a l : requested a = Some l ->
  (raises (proper_grid_size a) <-> exists n, In n l /\ n > 2048).
Proof.
  intros Ha. rewrite (proper_grid_size_mapM a l Ha). split.
  - intros [e H]. apply mapM_err in H. destruct H as [n [Hn H]]. exists n. split; auto.
    apply fft_factor_err in H. tauto.
  - intros [n [Hn Hgt]]. destruct (mapM fft_factor l) as [r|e] eqn:E; [|exists e; reflexivity].
    exfalso. apply mapM_ok in E. clear Ha. induction E as [|x y l r Hxy E IH]; [contradiction|].
    destruct Hn as [->|Hn]; [|auto]. apply fft_factor_least in Hxy. lia.
Qed.

(** ** fftfreq *)
Lemma fftfreq_range n i : 1 <= n -> 0 <= i < n -> fft_frequency n (fftfreq n i).
Proof. intros Hn Hi. unfold fft_frequency, fftfreq. destruct (i <=? (n - 1) / 2) eqn:E; lia. Qed.
Lemma fftfreq_mod n i : 1 <= n -> 0 <= i < n -> (fftfreq n i) mod n = i.
Proof.
  intros Hn Hi. unfold fftfreq. destruct (i <=? (n - 1) / 2) eqn:E.
  - apply Z.mod_small. lia.
  - rewrite <- (Z_mod_plus_full (i - n) 1 n). apply Z.mod_small in Hi.
    replace (i - n + 1 * n) with i by ring. exact Hi.
Qed.
Lemma fftfreq_inj n i j : 1 <= n -> 0 <= i < n -> 0 <= j < n -> fftfreq n i = fftfreq n j -> i = j.
Proof. intros Hn Hi Hj H. rewrite <- (fftfreq_mod n i Hn Hi), <- (fftfreq_mod n j Hn Hj), H. reflexivity. Qed.
Lemma fftfreq_surj n f : 1 <= n -> fft_frequency n f -> exists i, 0 <= i < n /\ fftfreq n i = f.
Proof.
  intros Hn Hf. unfold fft_frequency in Hf. destruct (Z_le_dec 0 f) as [L|L].
  - exists f. unfold fftfreq. replace (f <=? (n - 1) / 2) with true by lia. lia.
  - exists (f + n). unfold fftfreq. replace (f + n <=? (n - 1) / 2) with false by lia. lia.
Qed.
Lemma fftfreq_neg_closed n : 1 <= n ->
  ((forall f, fft_frequency n f -> fft_frequency n (- f)) <-> Z.odd n = true).
Proof.
  intros Hn. rewrite Zodd_mod. unfold fft_frequency. split.
  - intros H. destruct (Z.eqb_spec (n mod 2) 1) as [E|E]; [apply Zeq_is_eq_bool; exact E|].
    exfalso. specialize (H (- (n / 2)) ltac:(lia)). lia.
  - intros H f Hf. apply Zeq_is_eq_bool in H. lia.
Qed.

(** ** cubic mask *)

Lemma cubic_mask_axis_spec n i : 1 <= n -> 0 <= i < n ->
  (cubic_mask_axis n i = true <-> n = 2 \/ selected n (fftfreq n i)).
Proof.
  intros Hn Hi. unfold cubic_mask_axis, selected, fftfreq, py_bound. cbv zeta.
  destruct (i <=? (n - 1) / 2) eqn:E1;
  destruct ((n - 1) / 2 / 2 + 1 <? 0) eqn:E2; destruct (- ((n - 1) / 2) / 2 <? 0) eqn:E3; lia.
Qed.

Lemma no_alias n f g : 1 <= n -> selected n f -> selected n g -> fft_frequency n (f - g).
Proof. unfold selected, fft_frequency. intros; lia. Qed.

Lemma alias_at_2 : exists i j, 0 <= i < 2 /\ 0 <= j < 2 /\
  cubic_mask_axis 2 i = true /\ cubic_mask_axis 2 j = true /\
  ~ fft_frequency 2 (fftfreq 2 i - fftfreq 2 j).
Proof. exists 0, 1. repeat split; try lia. unfold fft_frequency, fftfreq. vm_compute. intros [_ H]. apply H. reflexivity. Qed.

(** Counting. *)
Lemma positions_in n i : In i (positions n) <-> 0 <= i < n.
Proof.
  unfold positions. rewrite in_map_iff. split.
  - intros [k [<- Hk]]. apply in_seq in Hk. lia.
  - intros H. exists (Z.to_nat i). split; [lia|]. apply in_seq. lia.
Qed.

Definition axis_count (n : Z) : Z := Z.of_nat (length (filter (cubic_mask_axis n) (positions n))).

(* number of k in [0,m) satisfying p, when p is "k < a or k >= b" *)
Lemma count_prefix_suffix (m : nat) (a b : Z) (p : Z -> bool) :
  0 <= a -> a <= b -> b <= Z.of_nat m -> (forall k, 0 <= k < Z.of_nat m -> p k = (k <? a) || (b <=? k)) ->
  Z.of_nat (length (filter p (map Z.of_nat (seq 0 m)))) = a + (Z.of_nat m - b).
Proof.
  revert a b. induction m as [|m IH]; intros a b Ha Hab Hb Hp.
  - simpl. lia.
  - rewrite seq_S, map_app, filter_app, app_length. cbn [map filter plus].
    assert (Hpm := Hp (Z.of_nat m) ltac:(lia)).
    destruct (Z_le_dec b (Z.of_nat m)) as [L|L].
    + rewrite Hpm. replace ((Z.of_nat m <? a) || (b <=? Z.of_nat m)) with true by lia. cbn [length].
      rewrite Nat2Z.inj_add, (IH a b) by (try lia; intros; apply Hp; lia). lia.
    + destruct (Z_le_dec a (Z.of_nat m)) as [L2|L2].
      * rewrite Hpm. replace ((Z.of_nat m <? a) || (b <=? Z.of_nat m)) with false by lia. cbn [length].
        rewrite Nat2Z.inj_add, (IH a (Z.of_nat m)); try lia.
        intros k Hk. rewrite Hp by lia. lia.
      * rewrite Hpm. replace ((Z.of_nat m <? a) || (b <=? Z.of_nat m)) with true by lia. cbn [length].
        rewrite Nat2Z.inj_add, (IH (Z.of_nat m) (Z.of_nat m)); try lia.
        intros k Hk. rewrite Hp by lia. lia.
Qed.

Lemma axis_count_half n : 1 <= n -> n <> 2 ->
  axis_count n = (let '(_, (p, q)) := half_range n in p + q).
Proof.
  intros Hn H2. unfold axis_count, positions, half_range. cbv zeta.
  rewrite (count_prefix_suffix (Z.to_nat n) ((n - 1) / 2 / 2 + 1) (- ((n - 1) / 2) / 2 + n)); try lia.
  intros k Hk. unfold cubic_mask_axis, py_bound. cbv zeta.
  destruct ((n - 1) / 2 / 2 + 1 <? 0) eqn:E2; destruct (- ((n - 1) / 2) / 2 <? 0) eqn:E3; lia.
Qed.

Lemma axis_count_2 : axis_count 2 = 2 /\ (let '(_, (p, q)) := half_range 2 in p + q) = 1.
Proof. vm_compute. split; reflexivity. Qed.

Lemma length_filter_map {A B} (f : A -> B) p l : length (filter p (map f l)) = length (filter (fun a => p (f a)) l).
Proof. induction l as [|a l IH]; simpl; [reflexivity|]. destruct (p (f a)); simpl; rewrite IH; reflexivity. Qed.

Lemma filter_flat_map_len {A B} (f : A -> list B) p l :
  length (filter p (flat_map f l)) = fold_right (fun a s => (length (filter p (f a)) + s)%nat) 0%nat l.
Proof. induction l as [|a l IH]; simpl; [reflexivity|]. rewrite filter_app, app_length, IH. reflexivity. Qed.

Lemma filter_ext_len {A} (p q : A -> bool) l : (forall a, p a = q a) -> length (filter p l) = length (filter q l).
Proof. intros H. induction l as [|a l IH]; simpl; [reflexivity|]. rewrite H. destruct (q a); simpl; rewrite IH; reflexivity. Qed.

Lemma length_filter_false {A} (l : list A) : length (filter (fun _ => false) l) = 0%nat.
Proof. induction l; simpl; auto. Qed.

Lemma count_product (p : Z -> bool) (q : list Z -> bool) (m : list Z -> bool) n ns :
  (forall i r, m (i :: r) = p i && q r) ->
  length (filter m (grid_positions (n :: ns)))
  = (length (filter p (positions n)) * length (filter q (grid_positions ns)))%nat.
Proof.
  intros Hm. cbn [grid_positions]. rewrite filter_flat_map_len.
  induction (positions n) as [|a l IH]; simpl; [reflexivity|].
  rewrite length_filter_map, IH.
  destruct (p a) eqn:E.
  - rewrite (filter_ext_len (fun r => m (a :: r)) q) by (intros; rewrite Hm, E; reflexivity).
    simpl. reflexivity.
  - rewrite (filter_ext_len (fun r => m (a :: r)) (fun _ => false)) by (intros; rewrite Hm, E; reflexivity).
    rewrite length_filter_false. reflexivity.
Qed.

Lemma cubic_mask_count n1 n2 n3 m : cubic_mask [n1; n2; n3] = Ok m ->
  count_true [n1; n2; n3] m = axis_count n1 * axis_count n2 * axis_count n3.
Proof.
  intros H. injection H as <-. unfold count_true, axis_count.
  pose (q2 := fun r : list Z => match r with [i2; i3] => cubic_mask_axis n2 i2 && cubic_mask_axis n3 i3 | _ => false end).
  pose (q3 := fun r : list Z => match r with [i3] => cubic_mask_axis n3 i3 | _ => false end).
  pose (q4 := fun r : list Z => match r with [] => true | _ => false end).
  rewrite (count_product (cubic_mask_axis n1) q2).
  2:{ intros i r. destruct r as [|a [|b [|c r]]]; simpl; rewrite ?andb_false_r; auto. rewrite andb_assoc. reflexivity. }
  rewrite (count_product (cubic_mask_axis n2) q3).
  2:{ intros i r. destruct r as [|a [|b r]]; simpl; rewrite ?andb_false_r; auto. }
  rewrite (count_product (cubic_mask_axis n3) q4).
  2:{ intros i r. destruct r as [|a r]; simpl; rewrite ?andb_false_r, ?andb_true_r; auto. }
  simpl. lia.
Qed.

Lemma cubic_count_half n1 n2 n3 m :
  1 <= n1 -> 1 <= n2 -> 1 <= n3 -> n1 <> 2 -> n2 <> 2 -> n3 <> 2 ->
  cubic_mask [n1; n2; n3] = Ok m ->
  count_true [n1; n2; n3] m = zprod (half_frequency_shape [n1; n2; n3]).
Proof.
  intros H1 H2 H3 N1 N2 N3 H. rewrite (cubic_mask_count n1 n2 n3 m H).
  rewrite !axis_count_half by assumption. unfold half_frequency_shape. cbn [map zprod fold_right].
  destruct (half_range n1) as [? [? ?]], (half_range n2) as [? [? ?]], (half_range n3) as [? [? ?]]. ring.
Qed.

Lemma half_shape_axis_pos n : 1 <= n -> 1 <= (let '(_, (p, q)) := half_range n in p + q).
Proof. unfold half_range. cbv zeta. lia. Qed.

(** With a size-2 axis the two always disagree. *)
Lemma cubic_count_half_2 n1 n2 n3 m : 1 <= n1 -> 1 <= n2 -> 1 <= n3 ->
  n1 = 2 \/ n2 = 2 \/ n3 = 2 -> cubic_mask [n1; n2; n3] = Ok m ->
  count_true [n1; n2; n3] m > zprod (half_frequency_shape [n1; n2; n3]).
Proof.
  intros H1 H2 H3 Hor H. rewrite (cubic_mask_count n1 n2 n3 m H).
  unfold half_frequency_shape. cbn [map zprod fold_right].
  assert (K : forall n, 1 <= n -> let h := (let '(_, (p, q)) := half_range n in p + q) in
     1 <= h /\ (axis_count n = h \/ (n = 2 /\ axis_count n = 2 * h)) /\ (n = 2 -> axis_count n = 2 * h)).
  { intros n Hn. cbv zeta. destruct (Z.eq_dec n 2) as [->|E].
    - vm_compute. repeat split; auto; intros; congruence.
    - split; [apply half_shape_axis_pos; exact Hn|]. split; [left; apply axis_count_half; assumption|]. contradiction. }
  destruct (K n1 H1) as (P1 & Q1 & R1), (K n2 H2) as (P2 & Q2 & R2), (K n3 H3) as (P3 & Q3 & R3).
  set (h1 := let '(_, (p, q)) := half_range n1 in p + q) in *.
  set (h2 := let '(_, (p, q)) := half_range n2 in p + q) in *.
  set (h3 := let '(_, (p, q)) := half_range n3 in p + q) in *.
  assert (1 <= h1 * h2) by nia. assert (1 <= h2 * h3) by nia. assert (1 <= h1 * h2 * h3) by nia.
  assert (A1 : axis_count n1 = h1 \/ axis_count n1 = 2 * h1) by tauto.
  assert (A2 : axis_count n2 = h2 \/ axis_count n2 = 2 * h2) by tauto.
  assert (A3 : axis_count n3 = h3 \/ axis_count n3 = 2 * h3) by tauto.
  assert (T : axis_count n1 = 2 * h1 \/ axis_count n2 = 2 * h2 \/ axis_count n3 = 2 * h3) by tauto.
  clear Q1 Q2 Q3 R1 R2 R3 K Hor.
  destruct A1 as [E1|E1], A2 as [E2|E2], A3 as [E3|E3]; rewrite E1, E2, E3 in *; nia.
Qed.

Lemma cubic_mask_symmetric n : 1 <= n -> n <> 2 ->
  ((forall f, selected n f -> selected n (- f)) <-> ((n - 1) / 2) mod 2 = 0).
Proof.
  intros Hn H2. unfold selected. split.
  - intros H. specialize (H (- ((n - 1) / 2) / 2) ltac:(lia)). lia.
  - intros H f Hf. lia.
Qed.

Lemma no_alias_mask n i j : 1 <= n -> n <> 2 -> 0 <= i < n -> 0 <= j < n ->
  cubic_mask_axis n i = true -> cubic_mask_axis n j = true ->
  fft_frequency n (fftfreq n i - fftfreq n j).
Proof.
  intros Hn H2 Hi Hj Mi Mj. apply cubic_mask_axis_spec in Mi; try lia.
  apply cubic_mask_axis_spec in Mj; try lia. apply no_alias; [exact Hn| |];
  [destruct Mi|destruct Mj]; try contradiction; assumption.
Qed.

Lemma cubic_mask_spec n1 n2 n3 m i1 i2 i3 :
  1 <= n1 -> 1 <= n2 -> 1 <= n3 -> 0 <= i1 < n1 -> 0 <= i2 < n2 -> 0 <= i3 < n3 ->
  cubic_mask [n1; n2; n3] = Ok m ->
  (m [i1; i2; i3] = true <->
     (n1 = 2 \/ selected n1 (fftfreq n1 i1)) /\ (n2 = 2 \/ selected n2 (fftfreq n2 i2))
     /\ (n3 = 2 \/ selected n3 (fftfreq n3 i3))).
Proof.
  intros H1 H2 H3 I1 I2 I3 H. injection H as <-. rewrite !andb_true_iff.
  rewrite !cubic_mask_axis_spec by assumption. tauto.
Qed.
