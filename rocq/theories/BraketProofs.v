(** Proofs about brakets and expectation values. *)
From Coq Require Import List Arith ZArith Reals Bool Lra Lia.
From Coquelicot Require Import Complex.
From Verif Require Import Base Sums Tensor DFT GridModel Lin3 VecModel OccSpec OccProofs PwModel PwSpec PwProofs BraketModel BraketSpec.
Import ListNotations.
Local Open Scope C_scope.

(** ** broadcasting lemmas for a leading axis of length 1 *)
Lemma bshape_rev_one_l n a b s : bshape_rev a b = Some s -> bshape_rev (1%nat :: a) (n :: b) = Some (n :: s).
Proof. intros H. cbn [bshape_rev]. rewrite H. destruct (Nat.eqb_spec 1 n); subst; reflexivity. Qed.
Lemma bshape_lead1 s n1 n2 n3 : bshape [1; n1; n2; n3]%nat [s; n1; n2; n3] = Some [s; n1; n2; n3].
Proof.
  change (option_map (@rev nat) (bshape_rev [n3; n2; n1; 1%nat] [n3; n2; n1; s]) = Some [s; n1; n2; n3]).
  rewrite (bshape_rev_same n3 _ [n2; n1; s] [n2; n1; s]); [reflexivity|].
  apply bshape_rev_same, bshape_rev_same, bshape_rev_one_l. reflexivity.
Qed.
Lemma bidx_lead1 ns s x : length x = length ns -> inb x ns -> bidx (1%nat :: ns) (s :: x) = 0%nat :: x.
Proof.
  intros Hl Hx. unfold bidx. cbn [length]. rewrite Hl, Nat.sub_diag. cbn [skipn clip1 Nat.eqb].
  rewrite clip1_inb by exact Hx. reflexivity.
Qed.

Lemma tzip_lead1 {A B D} (f : A -> B -> D) (a : tensor A) (b : tensor B) s n1 n2 n3 :
  tshape a = [1; n1; n2; n3]%nat -> tshape b = [s; n1; n2; n3] ->
  exists t, tzip f a b = Ok t /\ tshape t = [s; n1; n2; n3] /\
    forall k x, (k < s)%nat -> inb x [n1; n2; n3] -> tget t (k :: x) = f (tget a (0%nat :: x)) (tget b (k :: x)).
Proof.
  intros Ha Hb. unfold tzip. rewrite Ha, Hb, bshape_lead1. eexists. split; [reflexivity|]. split; [reflexivity|].
  intros k x Hk Hx. cbn [tget]. rewrite (bidx_lead1 [n1; n2; n3] k x (inb_length _ _ Hx) Hx).
  rewrite (bidx_inb [s; n1; n2; n3] (k :: x)) by (constructor; assumption). reflexivity.
Qed.

Lemma Re_scal_r (z : C) a b : Re (z * RtoC a * RtoC b) = (a * b * Re z)%R.
Proof. unfold Re, Cmult, RtoC. simpl. ring. Qed.
Lemma Re_mult_R (a : R) (z : C) : Re (RtoC a * z) = (a * Re z)%R.
Proof. unfold Re, Cmult, RtoC. simpl. ring. Qed.
Lemma Re_plus a b : Re (a + b) = (Re a + Re b)%R.
Proof. reflexivity. Qed.

Lemma nprod_app a b : nprod (a ++ b) = (nprod a * nprod b)%nat.
Proof. induction a as [|x a IH]; cbn [app]; [cbn; lia|]. change (nprod (x :: a ++ b)) with (x * nprod (a ++ b))%nat. change (nprod (x :: a)) with (x * nprod a)%nat. rewrite IH. lia. Qed.

(** ** reciprocal_braket *)
Lemma recip_braket_same bra ket vol : tshape bra = tshape ket ->
  reciprocal_braket bra ket vol =
  Ok (vol / (INR (nprod (tshape bra)) * INR (nprod (tshape bra))) * Re (sumC (indices (tshape bra)) (fun i => (Cconj (tget bra i) * tget ket i)%C)))%R.
Proof.
  intros E. unfold reciprocal_braket.
  assert (Eg : grid3 bra = grid3 ket) by (unfold grid3, ndim; rewrite E; reflexivity).
  destruct (list_eq_dec _ _ _) as [_|N]; [|contradiction].
  destruct (tzip_same (fun a b => Cconj a * b) bra ket E) as (t & -> & St & Gt). cbn [bind]. f_equal.
  rewrite Re_scal_r. f_equal.
  - unfold Rdiv. rewrite Rinv_mult. ring.
  - f_equal. unfold tsum_all. rewrite St. apply sumC_ext. intros i Hi. apply Gt. apply in_indices, Hi.
Qed.

Lemma recip_braket_parseval f g F H bs n1 n2 n3 vol : let ns := [n1; n2; n3] in
  Forall (fun n => (0 < n)%nat) (bs ++ ns) -> tshape f = bs ++ ns -> tshape g = bs ++ ns ->
  fftn3 f = Ok F -> fftn3 g = Ok H ->
  reciprocal_braket F H vol =
   Ok (vol / INR (nprod ns) / (INR (nprod bs) * INR (nprod bs)) * Re (sumC (indices (bs ++ ns)) (fun i => (Cconj (tget f i) * tget g i)%C)))%R.
Proof.
  intros ns Hp Sf Sg HF HH.
  destruct (fftn3_eq f bs ns eq_refl Sf) as (F' & EF & SF & GF). rewrite EF in HF. injection HF as <-.
  destruct (fftn3_eq g bs ns eq_refl Sg) as (H' & EH & SH & GH). rewrite EH in HH. injection HH as <-.
  rewrite recip_braket_same by congruence. rewrite SF. f_equal. rewrite !sumC_indices_app.
  apply Forall_app in Hp. destruct Hp as [Hb Hn].
  rewrite (sumC_ext (indices bs) _ (fun b => RtoC (INR (nprod ns)) * sumC (indices ns) (fun x => Cconj (tget f (b ++ x)) * tget g (b ++ x)))).
  - rewrite sumC_scal, Re_mult_R. rewrite nprod_app, mult_INR.
    assert (INR (nprod ns) <> 0)%R by (apply not_0_INR; pose proof (nprod_pos ns Hn); lia).
    assert (INR (nprod bs) <> 0)%R by (apply not_0_INR; pose proof (nprod_pos bs Hb); lia).
    field. auto.
  - intros b Hb'. apply in_indices, inb_length in Hb'.
    rewrite <- (parseval ns (fun x => tget f (b ++ x)) (fun x => tget g (b ++ x)) Hn).
    apply sumC_ext. intros x _. rewrite GF, GH by exact Hb'. reflexivity.
Qed.

Lemma real_braket_same bra ket vol : tshape bra = tshape ket ->
  real_braket bra ket vol = Ok (RtoC (vol / INR (nprod (tshape bra))) * sumC (indices (tshape bra)) (fun i => tget bra i * tget ket i)).
Proof.
  intros E. unfold real_braket. destruct (list_eq_dec _ _ _) as [_|N]; [|contradiction].
  destruct (tzip_same Cmult bra ket E) as (t & -> & St & Gt). cbn [bind]. f_equal. rewrite Cmult_comm. f_equal.
  unfold tsum_all. rewrite St. apply sumC_ext. intros i Hi. apply Gt. apply in_indices, Hi.
Qed.
Lemma real_braket_mismatch bra ket vol : tshape bra <> tshape ket -> real_braket bra ket vol = Err ValueErr.
Proof. intros E. unfold real_braket. destruct (list_eq_dec _ _ _) as [N|_]; [contradiction|reflexivity]. Qed.

(** For real functions on one grid the two brakets agree. *)
Lemma brakets_agree (f g : tensor R) F H n1 n2 n3 vol : let ns := [n1; n2; n3] in
  Forall (fun n => (0 < n)%nat) ns -> tshape f = ns -> tshape g = ns ->
  fftn3 (tmap RtoC f) = Ok F -> fftn3 (tmap RtoC g) = Ok H ->
  exists r, reciprocal_braket F H vol = Ok r /\ real_braket (tmap RtoC f) (tmap RtoC g) vol = Ok (RtoC r) /\
    r = (vol / INR (nprod ns) * sumR (indices ns) (fun x => tget f x * tget g x))%R.
Proof.
  intros ns Hp Sf Sg HF HH.
  rewrite (recip_braket_parseval (tmap RtoC f) (tmap RtoC g) F H [] n1 n2 n3 vol Hp Sf Sg HF HH).
  rewrite real_braket_same by (simpl; congruence). cbn [app tshape tmap tget]. change (nprod []) with 1%nat. rewrite Sf. fold ns.
  assert (E1 : sumC (indices ns) (fun i => Cconj (RtoC (tget f i)) * RtoC (tget g i)) = RtoC (sumR (indices ns) (fun x => tget f x * tget g x)%R)).
  { rewrite <- sumC_RtoC. apply sumC_ext. intros i _. rewrite Cconj_R, RtoC_mult. reflexivity. }
  assert (E2 : sumC (indices ns) (fun i => RtoC (tget f i) * RtoC (tget g i)) = RtoC (sumR (indices ns) (fun x => tget f x * tget g x)%R)).
  { rewrite <- sumC_RtoC. apply sumC_ext. intros i _. rewrite RtoC_mult. reflexivity. }
  eexists. split; [reflexivity|]. rewrite E1, E2.
  assert (HN : INR (nprod ns) <> 0%R) by (apply not_0_INR; pose proof (nprod_pos ns Hp); lia).
  set (N := INR (nprod ns)) in *. set (S := sumR _ _). cbn [Re RtoC fst].
  replace (INR 1) with 1%R by reflexivity. rewrite <- RtoC_mult. split; [f_equal; f_equal|]; field; exact HN.
Qed.

Lemma recip_braket_sym a b vol r : tshape a = tshape b -> reciprocal_braket a b vol = Ok r -> reciprocal_braket b a vol = Ok r.
Proof.
  intros E H. rewrite recip_braket_same in H by exact E. injection H as <-. rewrite recip_braket_same by congruence.
  rewrite <- E. f_equal. f_equal. rewrite !Re_sumC. apply sumR_ext. intros i _. unfold Re, Cmult, Cconj. simpl. ring.
Qed.
Lemma recip_braket_linear a b b' (s : R) vol t : tshape a = tshape b -> tshape b' = tshape b ->
  tshape t = tshape b -> (forall i, inb i (tshape b) -> tget t i = tget b i + RtoC s * tget b' i) ->
  exists r r' rt, reciprocal_braket a b vol = Ok r /\ reciprocal_braket a b' vol = Ok r' /\ reciprocal_braket a t vol = Ok rt /\ rt = (r + s * r')%R.
Proof.
  intros E E' Et H. do 3 eexists. rewrite !recip_braket_same by congruence. do 3 (split; [reflexivity|]). rewrite E.
  rewrite (sumC_ext _ (fun i => Cconj (tget a i) * tget t i) (fun i => Cconj (tget a i) * tget b i + RtoC s * (Cconj (tget a i) * tget b' i))).
  - rewrite sumC_plus, sumC_scal, Re_plus, Re_mult_R. ring.
  - intros i Hi. rewrite H by (apply in_indices, Hi). ring.
Qed.
Lemma recip_braket_pos a vol : (0 <= vol)%R -> Forall (fun n => (0 < n)%nat) (tshape a) ->
  exists r, reciprocal_braket a a vol = Ok r /\ (0 <= r)%R /\ ((0 < vol)%R -> r = 0%R <-> forall i, inb i (tshape a) -> tget a i = RtoC 0).
Proof.
  intros Hv Hp. rewrite recip_braket_same by reflexivity. eexists. split; [reflexivity|].
  set (N := INR (nprod (tshape a))). assert (HN : (0 < N)%R) by (apply lt_0_INR, nprod_pos, Hp).
  assert (E : Re (sumC (indices (tshape a)) (fun i => Cconj (tget a i) * tget a i)) = sumR (indices (tshape a)) (fun i => Cnorm2 (tget a i))).
  { rewrite Re_sumC. apply sumR_ext. intros i _. rewrite Cconj_mult_self. reflexivity. }
  rewrite E. assert (HS : (0 <= sumR (indices (tshape a)) (fun i => Cnorm2 (tget a i)))%R) by (apply sumR_nonneg; intros; apply Cnorm2_nonneg).
  assert (HNN : (0 < N * N)%R) by nra. split.
  - apply Rmult_le_pos; [|exact HS]. unfold Rdiv. apply Rmult_le_pos; [exact Hv|]. left. apply Rinv_0_lt_compat, HNN.
  - intros Hv'. assert (Hq : (0 < vol / (N * N))%R) by (apply Rdiv_lt_0_compat; assumption). split.
    + intros Hz i Hi. apply Rmult_integral in Hz. destruct Hz as [Hz|Hz]; [lra|]. apply Cnorm2_zero.
      apply (sumR_nonneg_zero _ _ (fun x _ => Cnorm2_nonneg (tget a x)) Hz). apply in_indices, Hi.
    + intros Hz. rewrite sumR_zero; [ring|]. intros i Hi. apply Cnorm2_zero, Hz, in_indices, Hi.
Qed.

(** real_braket does not conjugate: the norm of a non-zero function can be negative. *)
Lemma real_braket_not_norm : exists f, tshape f = [1; 1; 2]%nat /\ real_braket f f 1 = Ok (RtoC (-1)%R).
Proof.
  exists (mkT [1; 1; 2]%nat (fun _ => Ci)). split; [reflexivity|]. rewrite real_braket_same by reflexivity. f_equal.
  simpl. apply injective_projections; simpl; lra.
Qed.

(** ** expectation *)
Lemma bshape5_refl a k x y z : bshape [a; k; x; y; z] [a; k; x; y; z] = Some [a; k; x; y; z].
Proof. apply bshape_refl. Qed.
Lemma bshape5_h a k hk x y z : (hk = k \/ hk = 1)%nat -> bshape [a; k; x; y; z] [1%nat; hk; x; y; z] = Some [a; k; x; y; z].
Proof.
  intros H. change (option_map (@rev nat) (bshape_rev [z; y; x; k; a] [z; y; x; hk; 1%nat]) = Some [a; k; x; y; z]).
  rewrite (bshape_rev_same z _ [y; x; hk; 1%nat] [y; x; k; a]); [reflexivity|].
  apply bshape_rev_same, bshape_rev_same. destruct H as [->| ->].
  - apply bshape_rev_same, bshape_rev_one. reflexivity.
  - apply bshape_rev_one, bshape_rev_one. reflexivity.
Qed.

Lemma expectation_full bra ket ham vol mode sp K B B' n1 n2 n3 : let ns := [n1; n2; n3] in
  mode <> OtherMode -> tshape bra = [sp; K; B] ++ ns -> tshape ket = [sp; K; B'] ++ ns -> ham_ok ham K ns ->
  exists E, expectation bra ham vol (Some ket) false mode = Ok E /\ tshape E = [sp; K; B; B'] /\
    forall s k i j, (s < sp)%nat -> (k < K)%nat -> (i < B)%nat -> (j < B')%nat ->
      tget E [s; k; i; j] = RtoC (efactor mode vol (INR (nprod ns))) *
        sumC (indices ns) (fun g => Cconj (tget bra ([s; k; i] ++ g)) * ham_at ham k g * tget ket ([s; k; j] ++ g)).
Proof.
  intros ns Hmode Hb Hk Hh. unfold expectation.
  assert (Nb : (ndim bra =? 6)%nat = true) by (unfold ndim; rewrite Hb; reflexivity). rewrite Nb. cbn [negb].
  assert (Nh : ((ndim ham =? 3)%nat || (ndim ham =? 4)%nat)%bool = true) by (unfold ndim; destruct Hh as [->|[->| ->]]; reflexivity).
  rewrite Nh. cbn [negb]. rewrite (grid3_app bra [sp; K; B] ns eq_refl Hb).
  assert (Ef : forall X (f : R -> res X), (do factor <- match mode with | RealMode => Ok (vol / INR (nprod ns))%R | ReciprocalMode => Ok (vol / INR (nprod ns) * (1 / INR (nprod ns)))%R | KineticMode => Ok 1%R | OtherMode => Err ValueErr end; f factor)
    = f (efactor mode vol (INR (nprod ns)))) by (intros; destruct mode; try reflexivity; contradiction).
  rewrite Ef. clear Ef.
  set (ham' := if (ndim ham =? 3)%nat then _ else ham).
  assert (Hh' : exists hk, (hk = K \/ hk = 1)%nat /\ tshape ham' = [hk; n1; n2; n3] /\
     forall k g, (k < K)%nat -> inb g ns -> tget ham' (clip1 [hk; n1; n2; n3] (k :: g)) = ham_at ham k g).
  { unfold ham', ham_at. destruct Hh as [E|[E|E]]; unfold ndim; rewrite E; cbn [length ns Nat.eqb hd].
    - exists 1%nat. split; [right; reflexivity|]. split; [reflexivity|]. intros k g Hk' Hg. cbn [tget clip1 tl Nat.eqb].
      fold ns. rewrite <- (clip1_inb ns g Hg) at 2. reflexivity.
    - exists K. split; [left; reflexivity|]. split; [exact E|]. intros k g Hk' Hg. rewrite clip1_inb by (constructor; assumption).
      destruct (Nat.eqb_spec K 1); [|reflexivity]. subst. assert (k = 0)%nat by lia. subst. reflexivity.
    - exists 1%nat. split; [right; reflexivity|]. split; [exact E|]. intros k g Hk' Hg. cbn [clip1 Nat.eqb].
      fold ns. rewrite <- (clip1_inb ns g Hg) at 2. reflexivity. }
  destruct Hh' as (hk & Hhk & Sh & Gh). rewrite Hb, Hk, Sh. cbn [app ns]. rewrite bshape5_refl, (bshape5_h sp K hk n1 n2 n3 Hhk).
  eexists. split; [reflexivity|]. split; [reflexivity|]. intros s k i j Hs Hk' Hi Hj. cbn [tget nth]. fold ns. f_equal.
  apply sumC_ext. intros g Hg. apply in_indices in Hg.
  rewrite (clip1_inb (sp :: K :: B :: ns)) by (repeat (constructor; [assumption|]); exact Hg).
  rewrite (clip1_inb (sp :: K :: B' :: ns)) by (repeat (constructor; [assumption|]); exact Hg).
  fold ns in Gh. rewrite Gh by assumption. reflexivity.
Qed.

Lemma expectation_diag bra ket ham vol mode sp K B n1 n2 n3 E : let ns := [n1; n2; n3] in
  mode <> OtherMode -> tshape bra = [sp; K; B] ++ ns -> tshape ket = [sp; K; B] ++ ns -> ham_ok ham K ns ->
  expectation bra ham vol (Some ket) false mode = Ok E ->
  exists D, expectation bra ham vol (Some ket) true mode = Ok D /\ tshape D = [sp; K; B] /\
    forall s k i, tget D [s; k; i] = tget E [s; k; i; i].
Proof.
  intros ns Hmode Hb Hk Hh HE. unfold expectation in *.
  assert (Nb : (ndim bra =? 6)%nat = true) by (unfold ndim; rewrite Hb; reflexivity). rewrite Nb in *. cbn [negb] in *.
  assert (Nh : ((ndim ham =? 3)%nat || (ndim ham =? 4)%nat)%bool = true) by (unfold ndim; destruct Hh as [->|[->| ->]]; reflexivity).
  rewrite Nh in *. cbn [negb] in *.
  destruct (match mode with RealMode => _ | _ => _ end) as [f|e]; cbn [bind] in *; [|discriminate].
  set (ham' := if (ndim ham =? 3)%nat then _ else ham) in *.
  assert (Hh' : exists hk, (hk = K \/ hk = 1)%nat /\ tshape ham' = [hk; n1; n2; n3]).
  { unfold ham'. destruct Hh as [E'|[E'|E']]; unfold ndim; rewrite E'; cbn [length ns Nat.eqb]; [exists 1%nat|exists K|exists 1%nat]; split; auto. }
  destruct Hh' as (hk & Hhk & Sh). rewrite Hb, Hk, Sh in *. cbn [app ns] in *. rewrite bshape5_refl, (bshape5_h sp K hk n1 n2 n3 Hhk) in *.
  rewrite bshape_refl. injection HE as <-. eexists. split; [reflexivity|]. split; [reflexivity|]. reflexivity.
Qed.

Lemma ham_at_real ham K ns k g : length ns = 3%nat -> ham_ok ham K ns -> ham_real ham -> (k < K)%nat -> inb g ns -> Cconj (ham_at ham k g) = ham_at ham k g.
Proof.
  intros Hl Hh Hr Hk Hg.
  assert (X : forall i, inb i (tshape ham) -> Cconj (tget ham i) = tget ham i).
  { intros i Hi. specialize (Hr i Hi). unfold Cconj. destruct (tget ham i) as [u v]. cbn in *. subst v. f_equal. ring. }
  unfold ham_at, ndim. destruct Hh as [E|[E|E]]; rewrite E; cbn [length hd]; rewrite Hl; cbn [Nat.eqb].
  - apply X. rewrite E. exact Hg.
  - destruct (Nat.eqb_spec K 1); apply X; rewrite E; constructor; auto; lia.
  - apply X. rewrite E. constructor; auto.
Qed.

Lemma expectation_hermitian bra ham vol mode sp K B n1 n2 n3 E : let ns := [n1; n2; n3] in
  mode <> OtherMode -> tshape bra = [sp; K; B] ++ ns -> ham_ok ham K ns -> ham_real ham ->
  expectation bra ham vol None false mode = Ok E ->
  forall s k i j, (s < sp)%nat -> (k < K)%nat -> (i < B)%nat -> (j < B)%nat -> tget E [s; k; i; j] = Cconj (tget E [s; k; j; i]).
Proof.
  intros ns Hmode Hb Hh Hr HE s k i j Hs Hk Hi Hj.
  destruct (expectation_full bra bra ham vol mode sp K B B n1 n2 n3 Hmode Hb Hb Hh) as (E' & HE' & _ & G).
  change (expectation bra ham vol (Some bra) false mode) with (expectation bra ham vol None false mode) in HE'.
  rewrite HE in HE'. injection HE' as <-. rewrite !G by assumption. rewrite Cconj_mult, Cconj_R, Cconj_sum. f_equal.
  apply sumC_ext. intros g Hg. apply in_indices in Hg. rewrite !Cconj_mult, Cconj_conj.
  rewrite (ham_at_real ham K ns k g eq_refl Hh Hr Hk Hg). ring.
Qed.

(** The quadratic form of the matrix: sum_ij conj(u_i) E_ij u_j = factor * sum_g ham |sum_j u_j psi_j|^2. *)
Lemma expectation_form bra ham vol mode sp K B n1 n2 n3 E : let ns := [n1; n2; n3] in
  mode <> OtherMode -> tshape bra = [sp; K; B] ++ ns -> ham_ok ham K ns ->
  expectation bra ham vol None false mode = Ok E ->
  forall s k (u : nat -> C), (s < sp)%nat -> (k < K)%nat ->
  sumC (seq 0 B) (fun i => sumC (seq 0 B) (fun j => Cconj (u i) * tget E [s; k; i; j] * u j)) =
  RtoC (efactor mode vol (INR (nprod ns))) *
   sumC (indices ns) (fun g => ham_at ham k g * RtoC (Cnorm2 (sumC (seq 0 B) (fun j => u j * tget bra ([s; k; j] ++ g))))).
Proof.
  intros ns Hmode Hb Hh HE s k u Hs Hk.
  destruct (expectation_full bra bra ham vol mode sp K B B n1 n2 n3 Hmode Hb Hb Hh) as (E' & HE' & _ & G).
  change (expectation bra ham vol (Some bra) false mode) with (expectation bra ham vol None false mode) in HE'.
  rewrite HE in HE'. injection HE' as <-. fold ns in G.
  rewrite (sumC_ext (indices ns) _ (fun g => sumC (seq 0 B) (fun i => sumC (seq 0 B) (fun j =>
     ham_at ham k g * (Cconj (u i * tget bra ([s; k; i] ++ g)) * (u j * tget bra ([s; k; j] ++ g))))))).
  - rewrite (sumC_swap (indices ns) (seq 0 B)), <- sumC_scal. apply sumC_ext. intros i Hi. rewrite (sumC_swap (indices ns) (seq 0 B)), <- sumC_scal. apply sumC_ext. intros j Hj.
    apply in_seq in Hi, Hj. rewrite G by (auto; lia). rewrite <- !sumC_scal. rewrite <- sumC_scal_r. apply sumC_ext. intros g _.
    rewrite Cconj_mult. ring.
  - intros g _. rewrite <- Cconj_mult_self, Cconj_sum, sumC_mult, <- sumC_scal. apply sumC_ext. intros i _. rewrite !sumC_scal. reflexivity.
Qed.

Lemma kinetic_operator_shape G kpts : tshape (kinetic_operator G (Some kpts)) = length kpts :: tshape G.
Proof. reflexivity. Qed.

Lemma dot_self_nonneg q : (0 <= dot q q)%R.
Proof. destruct q. unfold dot. simpl. nra. Qed.

Lemma kinetic_psd c G kpts vol sp B n1 n2 n3 E : let ns := [n1; n2; n3] in
  tshape G = ns -> tshape c = [sp; length kpts; B] ++ ns ->
  expectation c (tmap RtoC (kinetic_operator G (Some kpts))) vol None false KineticMode = Ok E ->
  forall s k (u : nat -> C), (s < sp)%nat -> (k < length kpts)%nat ->
  exists e, sumC (seq 0 B) (fun i => sumC (seq 0 B) (fun j => Cconj (u i) * tget E [s; k; i; j] * u j)) = RtoC e /\ (0 <= e)%R.
Proof.
  intros ns SG Sc HE s k u Hs Hk.
  assert (Hok : ham_ok (tmap RtoC (kinetic_operator G (Some kpts))) (length kpts) ns) by (right; left; cbn; rewrite SG; reflexivity).
  rewrite (expectation_form c _ vol KineticMode sp (length kpts) B n1 n2 n3 E ltac:(discriminate) Sc Hok HE s k u Hs Hk).
  assert (X : forall g, exists h, ham_at (tmap RtoC (kinetic_operator G (Some kpts))) k g = RtoC h /\ (0 <= h)%R).
  { intros g. unfold ham_at. cbn [tmap tget tshape kinetic_operator ndim]. unfold ndim. cbn [length tshape tmap kinetic_operator].
    rewrite SG. cbn [length ns Nat.eqb hd tl].
    destruct (Nat.eqb_spec (length kpts) 1); eexists; (split; [reflexivity|]);
      apply Rmult_le_pos; try lra; apply dot_self_nonneg. }
  exists (sumR (indices ns) (fun g => Re (ham_at (tmap RtoC (kinetic_operator G (Some kpts))) k g) * Cnorm2 (sumC (seq 0 B) (fun j => (u j * tget c ([s; k; j] ++ g))%C)))%R).
  split.
  - cbn [efactor]. rewrite Cmult_1_l, <- sumC_RtoC. apply sumC_ext. intros g _. destruct (X g) as (h & -> & _). rewrite RtoC_mult. reflexivity.
  - apply sumR_nonneg. intros g _. apply Rmult_le_pos; [|apply Cnorm2_nonneg]. destruct (X g) as (h & -> & Hh). exact Hh.
Qed.
