(** Proofs about orbitals and densities. *)
From Coq Require Import Ascii String List Arith ZArith Reals Bool Lra Lia ZifyBool.
From Coquelicot Require Import Complex.
From Verif Require Import Base Sums Tensor DFT GridModel GridSpec GridProofs PadModel PadProofs Lin3 VecModel VecProofs OccSpec OccProofs PwModel PwSpec.
Import ListNotations.
Local Open Scope C_scope.

Definition gridpos (ns : list nat) : Prop := Forall (fun n => (0 < n)%nat) ns.

(** ** batched transforms *)
Lemma grid3_app {A} (t : tensor A) bs ns : length ns = 3%nat -> tshape t = bs ++ ns -> grid3 t = ns.
Proof. intros Hn Ht. unfold grid3, ndim. rewrite Ht, app_length, Hn. apply skipn_app_len. lia. Qed.
Lemma lead_app {A} (t : tensor A) bs ns : length ns = 3%nat -> tshape t = bs ++ ns -> lead t = bs.
Proof. intros Hn Ht. unfold lead, ndim. rewrite Ht, app_length, Hn. apply firstn_app_len. lia. Qed.

Lemma ndim_ge3 {A} (t : tensor A) bs ns : length ns = 3%nat -> tshape t = bs ++ ns -> (ndim t <? 3)%nat = false.
Proof. intros Hn Ht. unfold ndim. rewrite Ht, app_length, Hn. apply Nat.ltb_ge. lia. Qed.

Lemma fftn3_eq t bs ns : length ns = 3%nat -> tshape t = bs ++ ns ->
  exists u, fftn3 t = Ok u /\ tshape u = bs ++ ns /\
    forall b g, length b = length bs -> tget u (b ++ g) = dft ns (fun x => tget t (b ++ x)) g.
Proof.
  intros Hn Ht. unfold fftn3. rewrite (ndim_ge3 t bs ns Hn Ht). eexists. split; [reflexivity|]. split; [exact Ht|].
  intros b g Hb. cbn [tget]. rewrite (grid3_app t bs ns Hn Ht). unfold ndim. rewrite Ht, app_length, Hn.
  replace (length bs + 3 - 3)%nat with (length bs) by lia. rewrite firstn_app_len, skipn_app_len by exact Hb. reflexivity.
Qed.
Lemma ifftn3_eq t bs ns : length ns = 3%nat -> tshape t = bs ++ ns ->
  exists u, ifftn3 t = Ok u /\ tshape u = bs ++ ns /\
    forall b g, length b = length bs -> tget u (b ++ g) = idft ns (fun x => tget t (b ++ x)) g.
Proof.
  intros Hn Ht. unfold ifftn3. rewrite (ndim_ge3 t bs ns Hn Ht). eexists. split; [reflexivity|]. split; [exact Ht|].
  intros b g Hb. cbn [tget]. rewrite (grid3_app t bs ns Hn Ht). unfold ndim. rewrite Ht, app_length, Hn.
  replace (length bs + 3 - 3)%nat with (length bs) by lia. rewrite firstn_app_len, skipn_app_len by exact Hb. reflexivity.
Qed.

Definition psi (ns : list nat) (vol : R) (c : tensor C) (b x : list nat) : C :=
  RtoC (INR (nprod ns) / sqrt vol) * idft ns (fun g => tget c (b ++ g)) x.

Lemma wave_grid_eq c vol bs ns : length ns = 3%nat -> tshape c = bs ++ ns ->
  exists w, wave_grid c vol = Ok w /\ tshape w = bs ++ ns /\
    forall b x, length b = length bs -> tget w (b ++ x) = psi ns vol c b x.
Proof.
  intros Hn Hc. unfold wave_grid. destruct (ifftn3_eq c bs ns Hn Hc) as (u & -> & Hu & Hg). cbn [bind].
  eexists. split; [reflexivity|]. split; [exact Hu|]. intros b x Hb. cbn [tmap tget]. rewrite Hg by exact Hb.
  rewrite (grid3_app c bs ns Hn Hc). reflexivity.
Qed.

Lemma psi_inner ns vol c i j : gridpos ns -> (0 < vol)%R ->
  sumC (indices ns) (fun x => Cconj (psi ns vol c i x) * psi ns vol c j x) = RtoC (INR (nprod ns) / vol) * inner ns c i j.
Proof.
  intros Hp Hv. unfold psi.
  rewrite (sumC_ext _ _ (fun x => RtoC (INR (nprod ns) / sqrt vol * (INR (nprod ns) / sqrt vol)) *
     (Cconj (idft ns (fun g => tget c (i ++ g)) x) * idft ns (fun g => tget c (j ++ g)) x))).
  - rewrite sumC_scal, parseval_idft by exact Hp. unfold inner. rewrite Cmult_assoc, <- RtoC_mult. f_equal. f_equal.
    assert (Hs : (0 < sqrt vol)%R) by (apply sqrt_lt_R0; exact Hv).
    assert (HN : (INR (nprod ns) <> 0)%R) by (apply not_0_INR; pose proof (nprod_pos ns Hp); lia).
    rewrite <- (sqrt_def vol) at 3 by lra. field. split; lra.
  - intros x _. rewrite Cconj_mult, Cconj_R, RtoC_mult. ring.
Qed.

Lemma wave_inner c vol bs n1 n2 n3 w : let ns := [n1; n2; n3] in gridpos ns -> (0 < vol)%R ->
  tshape c = bs ++ ns -> wave_grid c vol = Ok w ->
  tshape w = bs ++ ns /\
  forall i j, inb i bs -> inb j bs -> RtoC (vol / INR (nprod ns)) * inner ns w i j = inner ns c i j.
Proof.
  intros ns Hp Hv Hc Hw. destruct (wave_grid_eq c vol bs ns eq_refl Hc) as (w' & E & Hs & Hg).
  rewrite E in Hw. injection Hw as <-. split; [exact Hs|]. intros i j Hi Hj. unfold inner at 1.
  rewrite (sumC_ext _ _ (fun x => Cconj (psi ns vol c i x) * psi ns vol c j x))
    by (intros x _; rewrite !Hg by (apply inb_length; assumption); reflexivity).
  rewrite psi_inner by assumption. rewrite Cmult_assoc, <- RtoC_mult.
  assert (HN : (INR (nprod ns) <> 0)%R) by (apply not_0_INR; pose proof (nprod_pos ns Hp); lia).
  replace (vol / INR (nprod ns) * (INR (nprod ns) / vol))%R with 1%R by (field; split; lra). ring.
Qed.

Lemma wave_returns c vol : (exists w, wave_grid c vol = Ok w) <-> (3 <= ndim c)%nat.
Proof.
  unfold wave_grid, ifftn3. destruct (Nat.ltb_spec (ndim c) 3); cbn [bind]; split; intros H'.
  - destruct H'; discriminate.
  - lia.
  - assumption.
  - eexists. reflexivity.
Qed.

(** ** coefficients *)
Lemma tzip_same {A B D} (f : A -> B -> D) (a : tensor A) (b : tensor B) : tshape a = tshape b ->
  exists t, tzip f a b = Ok t /\ tshape t = tshape a /\ forall i, inb i (tshape a) -> tget t i = f (tget a i) (tget b i).
Proof.
  intros E. unfold tzip. rewrite <- E, bshape_refl. eexists. split; [reflexivity|]. split; [reflexivity|].
  intros i Hi. cbn [tget]. rewrite !bidx_inb by exact Hi. reflexivity.
Qed.

Lemma coeff_orthonormal cqr re im mask sp K g B : complex_qr cqr ->
  tshape re = [sp; K; g; B] -> tshape im = [sp; K; g; B] -> length (mask_positions mask) = g ->
  exists c, pw_coeff cqr re im mask = Ok c /\ tshape c = [sp; K; Nat.min g B] ++ tshape mask /\
    orthonormal_bands [sp; K] (Nat.min g B) (tshape mask) c /\
    (forall b i, inb b [sp; K; Nat.min g B] -> inb i (tshape mask) -> tget mask i = false -> tget c (b ++ i) = RtoC 0).
Proof.
  intros Hq Hr Hi Hm. unfold pw_coeff, unitary_matrix.
  destruct (tzip_same (fun a b : R => (a, b)) re im) as (t & -> & Ht & _); [congruence|]. cbn [rmap bind].
  assert (Ht2 : tshape t = [sp; K] ++ [g; B]) by (rewrite Ht, Hr; reflexivity). destruct (Hq t [sp; K] g B Ht2) as (Hsh & Ho).
  destruct (expand_spec (cqr t) mask [sp; K] g (Nat.min g B) Hsh Hm) as (c & Hc & Sc & _ & Hz).
  exists c. split; [exact Hc|]. split; [rewrite Sc; reflexivity|]. split.
  - intros b k k' Hb Hk Hk'. unfold inner. rewrite <- (Ho b k k' Hb Hk Hk').
    rewrite <- (expand_gram (cqr t) mask [sp; K] g (Nat.min g B) c Hsh Hm Hc b k k' Hb Hk Hk').
    apply sumC_ext. intros i _. rewrite <- !app_assoc. reflexivity.
  - intros b i Hb Hi' Hf.
    destruct (inb_split b [sp; K] [Nat.min g B] Hb) as (b1 & b2 & -> & Hb1 & Hb2).
    inversion Hb2 as [|k ? ? ? Hk Hb3]; subst. inversion Hb3; subst. rewrite <- app_assoc. apply Hz; auto.
Qed.

(** param_init and coeff fit together *)
Lemma coeff_of_init cqr rnd B K mask r : complex_qr cqr ->
  (forall sh, tshape (fst (rnd sh)) = sh /\ tshape (snd (rnd sh)) = sh) ->
  (B <= length (mask_positions mask))%nat ->
  let p := pw_param_init rnd B K mask r in
  exists c, pw_coeff cqr (fst p) (snd p) mask = Ok c /\ tshape c = [num_spin r; K; B] ++ tshape mask /\
    orthonormal_bands [num_spin r; K] B (tshape mask) c.
Proof.
  intros Hq Hr HB p. destruct (Hr (pw_param_shape B K mask r)) as [H1 H2].
  destruct (coeff_orthonormal cqr (fst p) (snd p) mask (num_spin r) K (length (mask_positions mask)) B Hq H1 H2 eq_refl)
    as (c & Hc & Sc & Ho & _).
  rewrite Nat.min_r in Sc, Ho by exact HB. exists c. auto.
Qed.

(** ** density *)
Lemma bshape_refl3 a b d : bshape [a; b; d] [a; b; d] = Some [a; b; d].
Proof. apply bshape_refl. Qed.

Lemma density_eq c vol occ sp K B n1 n2 n3 : let ns := [n1; n2; n3] in
  tshape c = [sp; K; B] ++ ns -> tshape occ = [sp; K; B] ->
  exists d, density_grid c vol (Some occ) = Ok d /\ tshape d = sp :: ns /\
    forall s x, (s < sp)%nat -> inb x ns ->
      tget d (s :: x) = sumR (seq 0 K) (fun k => sumR (seq 0 B) (fun b => tget occ [s; k; b] * Cnorm2 (psi ns vol c [s; k; b] x)))%R.
Proof.
  intros ns Hc Ho. unfold density_grid. destruct (wave_grid_eq c vol [sp; K; B] ns eq_refl Hc) as (w & -> & Hw & Hg).
  cbn [bind]. unfold einsum_occ. cbn [absolute_square tmap tshape]. rewrite Hw. cbn [app ns].
  rewrite Ho, bshape_refl3. cbn [length]. eexists. split; [reflexivity|]. split; [reflexivity|].
  intros s x Hs Hx. cbn [tget hd tl]. apply sumR_ext. intros k Hk. apply sumR_ext. intros b Hb.
  apply in_seq in Hk, Hb. rewrite clip1_inb by (repeat constructor; lia). rewrite Rmult_comm. f_equal.
  change (tget (absolute_square w)) with (fun i => Re (Cconj (tget w i) * tget w i)). cbv beta.
  rewrite Hg by reflexivity. rewrite Cconj_mult_self. reflexivity.
Qed.

Lemma density_eq_none c vol bs n1 n2 n3 : let ns := [n1; n2; n3] in tshape c = bs ++ ns ->
  exists d, density_grid c vol None = Ok d /\ tshape d = bs ++ ns /\
    forall b x, inb b bs -> inb x ns -> tget d (b ++ x) = Cnorm2 (psi ns vol c b x).
Proof.
  intros ns Hc. unfold density_grid. destruct (wave_grid_eq c vol bs ns eq_refl Hc) as (w & -> & Hw & Hg).
  cbn [bind]. eexists. split; [reflexivity|]. split; [exact Hw|]. intros b x Hb Hx.
  change (tget (absolute_square w)) with (fun i => Re (Cconj (tget w i) * tget w i)). cbv beta.
  rewrite Hg by (apply inb_length; exact Hb). rewrite Cconj_mult_self. reflexivity.
Qed.

Lemma psi_norm_sum ns vol c b : gridpos ns -> (0 < vol)%R ->
  sumR (indices ns) (fun x => Cnorm2 (psi ns vol c b x)) = (INR (nprod ns) / vol * Re (inner ns c b b))%R.
Proof.
  intros Hp Hv. pose proof (psi_inner ns vol c b b Hp Hv) as E.
  apply (f_equal Re) in E. rewrite Re_sumC in E.
  rewrite (sumR_ext _ _ (fun x => Re (Cconj (psi ns vol c b x) * psi ns vol c b x))).
  - rewrite E. unfold Re, Cmult, RtoC. simpl. ring.
  - intros x _. rewrite Cconj_mult_self. reflexivity.
Qed.

Lemma density_charge c vol occ sp K B n1 n2 n3 d : let ns := [n1; n2; n3] in
  gridpos ns -> (0 < vol)%R -> tshape c = [sp; K; B] ++ ns -> tshape occ = [sp; K; B] ->
  density_grid c vol (Some occ) = Ok d ->
  tshape d = sp :: ns /\
  ((forall i, inb i [sp; K; B] -> 0 <= tget occ i)%R -> forall i, inb i (tshape d) -> (0 <= tget d i)%R) /\
  (orthonormal_bands [sp; K] B ns c -> forall s, (s < sp)%nat ->
     (vol / INR (nprod ns) * sumR (indices ns) (fun x => tget d (s :: x)) = channel occ s)%R).
Proof.
  intros ns Hp Hv Hc Ho Hd. destruct (density_eq c vol occ sp K B n1 n2 n3 Hc Ho) as (d' & E & Sd & Hg).
  fold ns in Sd, Hg. rewrite E in Hd. injection Hd as <-. split; [exact Sd|]. split.
  - intros Hpos i Hi. rewrite Sd in Hi. inversion Hi as [|s n x ns' Hs Hx]; subst. rewrite Hg by assumption.
    apply sumR_nonneg. intros k Hk. apply sumR_nonneg. intros b Hb. apply in_seq in Hk, Hb.
    apply Rmult_le_pos; [|apply Cnorm2_nonneg]. apply Hpos. repeat constructor; lia.
  - intros Hon s Hs. unfold channel. rewrite Ho. cbn [tl].
    rewrite (sumR_ext _ _ (fun x => sumR (seq 0 K) (fun k => sumR (seq 0 B) (fun b => tget occ [s; k; b] * Cnorm2 (psi ns vol c [s; k; b] x)))%R))
      by (intros x Hx; apply Hg; [exact Hs|apply in_indices, Hx]).
    rewrite sumR_swap. rewrite <- sumR_scal. rewrite sumR_KB. apply sumR_ext. intros k Hk.
    rewrite sumR_swap. rewrite <- sumR_scal. apply sumR_ext. intros b Hb. apply in_seq in Hk, Hb.
    rewrite sumR_scal, psi_norm_sum by assumption.
    assert (EI : inner ns c [s; k; b] [s; k; b] = RtoC 1).
    { change [s; k; b] with ([s; k] ++ [b]). rewrite (Hon [s; k] b b); [rewrite Nat.eqb_refl; reflexivity| |lia|lia].
      repeat constructor; lia. }
    rewrite EI. cbn [Re RtoC fst].
    assert (HN : (INR (nprod ns) <> 0)%R) by (apply not_0_INR; pose proof (nprod_pos ns Hp); lia). field. split; lra.
Qed.

(** density errors: occupation of a shape that cannot be broadcast *)
Lemma density_mismatch c vol occ sp K B n1 n2 n3 :
  tshape c = [sp; K; B; n1; n2; n3] -> bshape [sp; K; B] (tshape occ) = None ->
  density_grid c vol (Some occ) = Err ValueErr.
Proof.
  intros Hc Hb. unfold density_grid. destruct (wave_grid_eq c vol [sp; K; B] [n1; n2; n3] eq_refl Hc) as (w & -> & Hw & _).
  cbn [bind]. unfold einsum_occ. cbn [absolute_square tmap tshape]. rewrite Hw. cbn [app]. rewrite Hb. reflexivity.
Qed.

(** ** reciprocal density *)
Lemma recip_eq c vol occ sp K B n1 n2 n3 : let ns := [n1; n2; n3] in
  tshape c = [sp; K; B] ++ ns -> tshape occ = [sp; K; B] ->
  exists d D, density_grid c vol (Some occ) = Ok d /\ density_grid_reciprocal c vol (Some occ) = Ok D /\ tshape d = sp :: ns /\ tshape D = sp :: ns /\
    forall s g, tget D (s :: g) = dft ns (fun x => RtoC (tget d (s :: x))) g.
Proof.
  intros ns Hc Ho. unfold density_grid_reciprocal. destruct (density_eq c vol occ sp K B n1 n2 n3 Hc Ho) as (d & -> & Sd & _). cbn [bind].
  destruct (fftn3_eq (tmap RtoC d) [sp] ns eq_refl Sd) as (D & HD & SD & GD).
  exists d, D. rewrite HD. repeat split; auto. intros s g. change (s :: g) with ([s] ++ g). rewrite GD by reflexivity. reflexivity.
Qed.

Lemma congr_neg ns g : inb g ns -> congr ns (zs (neg_index ns g)) (zopp (zs g)).
Proof.
  induction 1 as [|a n g ns Ha H IH]; [exact I|]. cbn. split; [|exact IH].
  exists (if (a =? 0)%nat then 0 else 1)%Z. destruct (Nat.eqb_spec a 0) as [->|Hne].
  - rewrite Nat.sub_0_r, Nat.mod_same by lia. lia.
  - rewrite Nat.mod_small by lia. lia.
Qed.
Lemma neg_index_inb ns g : inb g ns -> inb (neg_index ns g) ns.
Proof. induction 1 as [|a n g ns Ha H IH]; constructor; [apply Nat.mod_upper_bound; lia|exact IH]. Qed.

Lemma dft_real_sym ns (f : list nat -> R) g : inb g ns ->
  dft ns (fun x => RtoC (f x)) (neg_index ns g) = Cconj (dft ns (fun x => RtoC (f x)) g).
Proof.
  intros Hg. unfold dft. rewrite Cconj_sum. apply sumC_ext. intros x Hx. apply in_indices in Hx.
  rewrite Cconj_mult, Cconj_R. f_equal. rewrite cis_conj. rewrite <- !cis_conj.
  rewrite (cis_phase_congr ns (zs (neg_index ns g)) (zopp (zs g)) (zs x) (inb_pos _ _ Hg) (congr_neg ns g Hg)).
  - rewrite phase_opp_l, !cis_conj. f_equal. ring.
  - rewrite zs_length. apply (inb_length _ _ Hx).
Qed.

Lemma phase_zero ns x : phase ns (zs (repeat 0%nat (length ns))) x = 0%R.
Proof.
  revert x. induction ns as [|n ns IH]; intros [|a x]; try reflexivity. cbn. unfold zs in IH. rewrite IH. unfold Rdiv. rewrite Rmult_0_l. ring.
Qed.
Lemma dft_zero ns f : dft ns f (repeat 0%nat (length ns)) = sumC (indices ns) f.
Proof. unfold dft. apply sumC_ext. intros x _. rewrite phase_zero, Rmult_0_r, Ropp_0, cis_0. ring. Qed.

Lemma recip_props c vol occ sp K B n1 n2 n3 d D : let ns := [n1; n2; n3] in
  gridpos ns -> (0 < vol)%R -> tshape c = [sp; K; B] ++ ns -> tshape occ = [sp; K; B] ->
  density_grid c vol (Some occ) = Ok d -> density_grid_reciprocal c vol (Some occ) = Ok D ->
  tshape D = sp :: ns /\
  (orthonormal_bands [sp; K] B ns c -> forall s, (s < sp)%nat -> tget D [s; 0; 0; 0]%nat = RtoC (INR (nprod ns) / vol * channel occ s)) /\
  (forall s g, (s < sp)%nat -> inb g ns -> tget D (s :: neg_index ns g) = Cconj (tget D (s :: g))) /\
  (exists d', ifftn3 D = Ok d' /\ teq d' (tmap RtoC d)).
Proof.
  intros ns Hp Hv Hc Ho Hd HD. destruct (recip_eq c vol occ sp K B n1 n2 n3 Hc Ho) as (d1 & D1 & E1 & E2 & Sd & SD & GD).
  rewrite E1 in Hd. injection Hd as <-. rewrite E2 in HD. injection HD as <-. fold ns in Sd, SD, GD.
  split; [exact SD|]. split; [|split].
  - intros Hon s Hs. change [s; 0; 0; 0]%nat with (s :: repeat 0%nat (length ns)). rewrite GD, dft_zero, sumC_RtoC. f_equal.
    destruct (density_charge c vol occ sp K B n1 n2 n3 d1 Hp Hv Hc Ho E1) as (_ & _ & Hch).
    rewrite <- (Hch Hon s Hs). fold ns.
    assert (HN : (INR (nprod ns) <> 0)%R) by (apply not_0_INR; pose proof (nprod_pos ns Hp); lia). field. split; lra.
  - intros s g Hs Hg. rewrite !GD. apply dft_real_sym, Hg.
  - destruct (ifftn3_eq D1 [sp] ns eq_refl SD) as (d' & Hd' & Sd' & Gd'). exists d'. split; [exact Hd'|].
    split; [rewrite Sd'; symmetry; exact Sd|]. intros i Hi. rewrite Sd' in Hi. inversion Hi as [|s n x ns' Hs Hx]; subst.
    change (s :: x) with ([s] ++ x). rewrite Gd' by reflexivity.
    rewrite (idft_ext ns _ (dft ns (fun x => RtoC (tget d1 (s :: x))))) by (intros g _; apply GD).
    rewrite idft_dft by exact Hx. reflexivity.
Qed.

(** ** gauge invariance *)
Lemma idft_lin {X} ns (l : list X) (u : X -> C) (f : X -> list nat -> C) x :
  idft ns (fun g => sumC l (fun a => u a * f a g)) x = sumC l (fun a => u a * idft ns (f a) x).
Proof.
  induction l as [|a l IH]; simpl.
  - unfold idft. rewrite sumC_zero; [ring|]. intros; ring.
  - rewrite idft_plus, IH. f_equal. apply idft_scal.
Qed.

Lemma mix_weights (B : nat) (U : nat -> nat -> C) (o : nat -> R) (p : nat -> C) :
  (forall b1 b2, (b1 < B)%nat -> (b2 < B)%nat -> sumC (seq 0 B) (fun b => Cconj (U b b1) * U b b2) = RtoC (if Nat.eqb b1 b2 then 1 else 0)) ->
  (forall b b', (b < B)%nat -> (b' < B)%nat -> U b b' <> RtoC 0 -> o b = o b') ->
  sumR (seq 0 B) (fun b => o b * Cnorm2 (sumC (seq 0 B) (fun b' => (U b b' * p b')%C)))%R = sumR (seq 0 B) (fun b => o b * Cnorm2 (p b))%R.
Proof.
  intros HU Ho. apply RtoC_inj. rewrite <- !sumC_RtoC.
  rewrite (sumC_ext _ _ (fun b => sumC (seq 0 B) (fun b1 => sumC (seq 0 B) (fun b2 => RtoC (o b1) * (Cconj (p b1) * p b2) * (Cconj (U b b1) * U b b2))))).
  - rewrite sumC_swap. apply sumC_ext. intros b1 Hb1. rewrite sumC_swap.
    rewrite (sumC_ext _ _ (fun b2 => RtoC (o b1) * (Cconj (p b1) * p b2) * RtoC (if Nat.eqb b1 b2 then 1 else 0))).
    + rewrite (sumC_single _ b1); [|apply seq_NoDup|exact Hb1|].
      * rewrite Nat.eqb_refl, Cconj_mult_self, <- !RtoC_mult. f_equal. ring.
      * intros b2 _ Hne. destruct (Nat.eqb_spec b1 b2); [congruence|]. ring.
    + intros b2 Hb2. rewrite sumC_scal. f_equal. apply in_seq in Hb1, Hb2. apply HU; lia.
  - intros b Hb. rewrite RtoC_mult, <- Cconj_mult_self, Cconj_sum, sumC_mult, <- sumC_scal. apply sumC_ext. intros b1 Hb1.
    rewrite <- sumC_scal. apply sumC_ext. intros b2 _. rewrite Cconj_mult.
    destruct (Ceq_dec (U b b1) (RtoC 0)) as [Z|Z].
    + rewrite Z. replace (Cconj (RtoC 0)) with (RtoC 0) by (rewrite Cconj_R; reflexivity). ring.
    + apply in_seq in Hb, Hb1. rewrite (Ho b b1) by (try lia; exact Z). ring.
Qed.

Lemma density_gauge c c' vol occ sp K B n1 n2 n3 (U : nat -> nat -> nat -> nat -> C) d : let ns := [n1; n2; n3] in
  tshape c = [sp; K; B] ++ ns -> tshape c' = [sp; K; B] ++ ns -> tshape occ = [sp; K; B] ->
  (forall s k b1 b2, (s < sp)%nat -> (k < K)%nat -> (b1 < B)%nat -> (b2 < B)%nat ->
     sumC (seq 0 B) (fun b => Cconj (U s k b b1) * U s k b b2) = RtoC (if Nat.eqb b1 b2 then 1 else 0)) ->
  (forall s k b b', (s < sp)%nat -> (k < K)%nat -> (b < B)%nat -> (b' < B)%nat -> U s k b b' <> RtoC 0 -> tget occ [s; k; b] = tget occ [s; k; b']) ->
  (forall s k b g, (s < sp)%nat -> (k < K)%nat -> (b < B)%nat -> inb g ns ->
     tget c' ([s; k; b] ++ g) = sumC (seq 0 B) (fun b' => U s k b b' * tget c ([s; k; b'] ++ g))) ->
  density_grid c vol (Some occ) = Ok d -> exists d', density_grid c' vol (Some occ) = Ok d' /\ teq d' d.
Proof.
  intros ns Hc Hc' Ho HU HUo Hcc Hd.
  destruct (density_eq c vol occ sp K B n1 n2 n3 Hc Ho) as (d1 & E1 & S1 & G1).
  destruct (density_eq c' vol occ sp K B n1 n2 n3 Hc' Ho) as (d2 & E2 & S2 & G2).
  rewrite E1 in Hd. injection Hd as <-. exists d2. split; [exact E2|]. split; [rewrite S1, S2; reflexivity|].
  intros i Hi. rewrite S2 in Hi. inversion Hi as [|s n x ns' Hs Hx]; subst. rewrite G1, G2 by assumption.
  apply sumR_ext. intros k Hk. apply in_seq in Hk. fold ns.
  rewrite <- (mix_weights B (U s k) (fun b => tget occ [s; k; b]) (fun b => psi ns vol c [s; k; b] x)).
  - apply sumR_ext. intros b Hb. apply in_seq in Hb. f_equal. f_equal. unfold psi.
    rewrite (idft_ext ns _ (fun g => sumC (seq 0 B) (fun b' => U s k b b' * tget c ([s; k; b'] ++ g)))) by (intros g Hg; apply Hcc; auto; lia).
    rewrite (idft_lin ns (seq 0 B) (U s k b) (fun b' g => tget c ([s; k; b'] ++ g))). rewrite <- sumC_scal.
    apply sumC_ext. intros b' _. ring.
  - intros b1 b2 Hb1 Hb2. apply HU; auto; lia.
  - intros b b' Hb Hb' Hne. apply (HUo s k b b'); auto; lia.
Qed.

Lemma density_phase c c' vol occ sp K B n1 n2 n3 (t : nat -> nat -> nat -> R) d : let ns := [n1; n2; n3] in
  tshape c = [sp; K; B] ++ ns -> tshape c' = [sp; K; B] ++ ns -> tshape occ = [sp; K; B] ->
  (forall s k b g, (s < sp)%nat -> (k < K)%nat -> (b < B)%nat -> inb g ns ->
     tget c' ([s; k; b] ++ g) = cis (t s k b) * tget c ([s; k; b] ++ g)) ->
  density_grid c vol (Some occ) = Ok d -> exists d', density_grid c' vol (Some occ) = Ok d' /\ teq d' d.
Proof.
  intros ns Hc Hc' Ho Hcc Hd.
  apply (density_gauge c c' vol occ sp K B n1 n2 n3 (fun s k b b' => if Nat.eqb b b' then cis (t s k b) else RtoC 0) d Hc Hc' Ho); [| | |exact Hd].
  - intros s k b1 b2 Hs Hk H1 H2. rewrite (sumC_single _ b1); [|apply seq_NoDup|apply in_seq; lia|].
    + rewrite Nat.eqb_refl. destruct (Nat.eqb_spec b1 b2) as [->|].
      * rewrite Cconj_mult_self, cis_norm. reflexivity.
      * ring.
    + intros b _ Hne. destruct (Nat.eqb_spec b b1); [congruence|].
      replace (Cconj (RtoC 0)) with (RtoC 0) by (rewrite Cconj_R; reflexivity). ring.
  - intros s k b b' _ _ _ _ Hne. destruct (Nat.eqb_spec b b') as [->|]; [reflexivity|]. exfalso. apply Hne. reflexivity.
  - intros s k b g Hs Hk Hb Hg. rewrite Hcc by assumption. rewrite (sumC_single _ b); [|apply seq_NoDup|apply in_seq; lia|].
    + rewrite Nat.eqb_refl. reflexivity.
    + intros b' _ Hne. destruct (Nat.eqb_spec b b'); [congruence|]. ring.
Qed.

(** ** shifts *)
Lemma congr_shift ns x t : inb x ns -> length t = length ns ->
  congr ns (zs (shift_index ns x t)) (zsub (zs x) t) /\ inb (shift_index ns x t) ns.
Proof.
  intros H. revert t. induction H as [|a n x ns Ha H IH]; intros [|b t] Hl; try discriminate.
  - split; [exact I|constructor].
  - injection Hl as Hl. destruct (IH t Hl) as [H1 H2]. cbn. 
    pose proof (Z.mod_pos_bound (Z.of_nat a - b) (Z.of_nat n) ltac:(lia)) as Hb.
    split.
    + split; [|exact H1]. exists (- ((Z.of_nat a - b) / Z.of_nat n))%Z. rewrite Z2Nat.id by lia.
      pose proof (Z.div_mod (Z.of_nat a - b) (Z.of_nat n) ltac:(lia)). lia.
    + constructor; [lia|exact H2].
Qed.

Lemma phase_sub_r ns g a b : length a = length b -> phase ns g (zsub a b) = (phase ns g a - phase ns g b)%R.
Proof. intros H. rewrite (phase_comm ns g), phase_sub_l by exact H. rewrite (phase_comm ns a), (phase_comm ns b). reflexivity. Qed.

Lemma psi_shift ns vol c c' b x t : inb x ns -> length t = length ns ->
  (forall g, inb g ns -> tget c' (b ++ g) = tget c (b ++ g) * cis (- (2 * PI * phase ns (zs g) t))%R) ->
  psi ns vol c' b x = psi ns vol c b (shift_index ns x t).
Proof.
  intros Hx Hl H. unfold psi, idft. f_equal. f_equal. apply sumC_ext. intros g Hg. apply in_indices in Hg.
  destruct (congr_shift ns x t Hx Hl) as [Hc _].
  rewrite H by exact Hg. rewrite <- Cmult_assoc, <- cis_plus. f_equal.
  rewrite (phase_comm ns (zs g) (zs (shift_index ns x t))).
  rewrite (cis_phase_congr ns _ _ (zs g) (inb_pos _ _ Hx) Hc) by (rewrite zs_length; apply (inb_length _ _ Hg)).
  rewrite phase_sub_l by (rewrite zs_length, Hl; apply (inb_length _ _ Hx)). f_equal.
  rewrite (phase_comm ns (zs g) t), (phase_comm ns (zs g) (zs x)). ring.
Qed.

Lemma density_shift c c' vol occ sp K B n1 n2 n3 t d : let ns := [n1; n2; n3] in
  tshape c = [sp; K; B] ++ ns -> tshape c' = [sp; K; B] ++ ns -> tshape occ = [sp; K; B] -> length t = 3%nat ->
  (forall b g, inb b [sp; K; B] -> inb g ns -> tget c' (b ++ g) = tget c (b ++ g) * cis (- (2 * PI * phase ns (zs g) t))%R) ->
  density_grid c vol (Some occ) = Ok d ->
  exists d', density_grid c' vol (Some occ) = Ok d' /\ tshape d' = tshape d /\
    forall s x, (s < sp)%nat -> inb x ns -> inb (shift_index ns x t) ns /\ tget d' (s :: x) = tget d (s :: shift_index ns x t).
Proof.
  intros ns Hc Hc' Ho Hl H Hd.
  destruct (density_eq c vol occ sp K B n1 n2 n3 Hc Ho) as (d1 & E1 & S1 & G1).
  destruct (density_eq c' vol occ sp K B n1 n2 n3 Hc' Ho) as (d2 & E2 & S2 & G2).
  rewrite E1 in Hd. injection Hd as <-. exists d2. split; [exact E2|]. split; [rewrite S1, S2; reflexivity|].
  intros s x Hs Hx. destruct (congr_shift ns x t Hx Hl) as [_ Hin]. split; [exact Hin|].
  rewrite G1, G2 by assumption. apply sumR_ext. intros k Hk. apply sumR_ext. intros b Hb. apply in_seq in Hk, Hb.
  f_equal. f_equal. apply psi_shift; [exact Hx|exact Hl|]. intros g Hg. apply H; [repeat constructor; lia|exact Hg].
Qed.

(** ** autocorrelation *)
Lemma psi_auto ns vol c b d : gridpos ns -> (0 < vol)%R -> inb d ns ->
  dft ns (fun x => RtoC (Cnorm2 (psi ns vol c b x))) d
  = RtoC (INR (nprod ns) / vol) * sumC (indices ns) (fun g => sumC (indices ns) (fun h =>
      if zero_mod ns (zsub (zsub (zs h) (zs g)) (zs d)) then Cconj (tget c (b ++ g)) * tget c (b ++ h) else RtoC 0)).
Proof.
  intros Hp Hv Hd.
  assert (HN : (INR (nprod ns) <> 0)%R) by (apply not_0_INR; pose proof (nprod_pos ns Hp); lia).
  assert (Hs : (0 < sqrt vol)%R) by (apply sqrt_lt_R0; exact Hv).
  assert (HK : (INR (nprod ns) / vol = INR (nprod ns) / sqrt vol * (INR (nprod ns) / sqrt vol) * (/ INR (nprod ns) * / INR (nprod ns)) * INR (nprod ns))%R).
  { rewrite <- (sqrt_def vol) at 1 by lra. field. split; lra. }
  set (k0 := (INR (nprod ns) / sqrt vol * (INR (nprod ns) / sqrt vol) * (/ INR (nprod ns) * / INR (nprod ns)))%R) in *.
  unfold dft.
  rewrite (sumC_ext _ _ (fun x => RtoC k0 * sumC (indices ns) (fun g => sumC (indices ns) (fun h =>
     Cconj (tget c (b ++ g)) * tget c (b ++ h) * cis (2 * PI * phase ns (zsub (zsub (zs h) (zs g)) (zs d)) (zs x))%R)))).
  - rewrite sumC_scal, HK, RtoC_mult, <- Cmult_assoc. f_equal.
    rewrite sumC_swap, <- sumC_scal. apply sumC_ext. intros g Hg.
    rewrite sumC_swap, <- sumC_scal. apply sumC_ext. intros h Hh. apply in_indices in Hg, Hh.
    rewrite sumC_scal, char_sum_nd; [|exact Hp|].
    + destruct (zero_mod _ _); ring.
    + unfold zsub, zs. rewrite !map_length, !combine_length, !map_length, !combine_length, !map_length.
      rewrite (inb_length _ _ Hg), (inb_length _ _ Hh), (inb_length _ _ Hd). lia.
  - intros x Hx. rewrite <- Cconj_mult_self. unfold psi, idft. rewrite !Cconj_mult, !Cconj_R, Cconj_sum.
    set (a := (INR (nprod ns) / sqrt vol)%R) in *. set (n := (/ INR (nprod ns))%R) in *.
    rewrite <- sumC_scal.
    transitivity (RtoC k0 * (sumC (indices ns) (fun g => Cconj (tget c (b ++ g) * cis (2 * PI * phase ns (zs g) (zs x)))) *
       sumC (indices ns) (fun h => tget c (b ++ h) * cis (2 * PI * phase ns (zs h) (zs x)))) * cis (- (2 * PI * phase ns (zs d) (zs x)))%R).
    + rewrite sumC_scal. unfold k0. rewrite !RtoC_mult. ring.
    + rewrite sumC_mult, <- Cmult_assoc. f_equal. rewrite <- sumC_scal_r. apply sumC_ext. intros g Hg.
      rewrite <- sumC_scal_r. apply sumC_ext. intros h Hh. apply in_indices in Hg, Hh, Hx.
      assert (L1 : length (zs h) = length (zs g)) by (rewrite !zs_length, (inb_length _ _ Hg), (inb_length _ _ Hh); reflexivity).
      assert (L2 : length (zsub (zs h) (zs g)) = length (zs d)).
      { unfold zsub. rewrite map_length, combine_length, !zs_length, (inb_length _ _ Hg), (inb_length _ _ Hh), (inb_length _ _ Hd). lia. }
      rewrite phase_sub_l by exact L2. rewrite phase_sub_l by exact L1.
      rewrite Cconj_mult, cis_conj.
      replace (2 * PI * (phase ns (zs h) (zs x) - phase ns (zs g) (zs x) - phase ns (zs d) (zs x)))%R
        with (2 * PI * phase ns (zs h) (zs x) + - (2 * PI * phase ns (zs g) (zs x)) + - (2 * PI * phase ns (zs d) (zs x)))%R by ring.
      rewrite !cis_plus. ring.
Qed.

Definition masked (ns g : list nat) : Prop := Forall2 (fun n i => cubic_mask_axis (Z.of_nat n) (Z.of_nat i) = true) ns g.

Lemma exact_diff ns g h d : Forall (fun n => (1 <= n)%nat /\ n <> 2%nat) ns ->
  inb g ns -> inb h ns -> inb d ns -> masked ns g -> masked ns h ->
  (zero_mod ns (zsub (zsub (zs h) (zs g)) (zs d)) = true <-> zsub (freqs ns h) (freqs ns g) = freqs ns d).
Proof.
  intros Hn Hg. revert h d. induction Hg as [|i n g ns Hi Hg IH]; intros h d Hh Hd Mg Mh.
  - inversion Hh; inversion Hd; subst. split; reflexivity.
  - inversion Hh as [|j n' h' ns' Hj Hh']; subst. inversion Hd as [|e n' d' ns' He Hd']; subst.
    inversion Mg as [|? ? ? ? M1 Mg']; subst. inversion Mh as [|? ? ? ? M2 Mh']; subst. inversion Hn as [|? ? Hn1 Hn']; subst.
    cbn [zs map zsub combine zero_mod freqs fst snd]. fold (zs g) (zs h') (zs d').
    fold (zsub (zs h') (zs g)). fold (zsub (zsub (zs h') (zs g)) (zs d')). fold (freqs ns g) (freqs ns h') (freqs ns d').
    fold (zsub (freqs ns h') (freqs ns g)).
    rewrite andb_true_iff, (IH Hn' h' d' Hh' Hd' Mg' Mh'), Z.eqb_eq.
    pose proof (no_alias_mask (Z.of_nat n) (Z.of_nat j) (Z.of_nat i) ltac:(lia) ltac:(lia) ltac:(lia) ltac:(lia) M2 M1) as Na.
    pose proof (fftfreq_range (Z.of_nat n) (Z.of_nat e) ltac:(lia) ltac:(lia)) as Ne.
    assert (Hcong : forall a, exists k, fftfreq (Z.of_nat n) a = (a + k * Z.of_nat n)%Z).
    { intros a. unfold fftfreq. destruct (a <=? _)%Z; [exists 0%Z|exists (-1)%Z]; lia. }
    destruct (Hcong (Z.of_nat i)) as [k1 E1], (Hcong (Z.of_nat j)) as [k2 E2], (Hcong (Z.of_nat e)) as [k3 E3].
    assert (Hax : ((Z.of_nat j - Z.of_nat i - Z.of_nat e) mod Z.of_nat n = 0)%Z <->
                  (fftfreq (Z.of_nat n) (Z.of_nat j) - fftfreq (Z.of_nat n) (Z.of_nat i) = fftfreq (Z.of_nat n) (Z.of_nat e))%Z).
    { unfold fft_frequency in Na, Ne. split; intros H.
      - apply Z.mod_divide in H; [|lia]. destruct H as [q Hq].
        set (fj := fftfreq _ (Z.of_nat j)) in *. set (fi := fftfreq _ (Z.of_nat i)) in *. set (fe := fftfreq _ (Z.of_nat e)) in *.
        assert (Hm : (fj - fi - fe = (q + k2 - k1 - k3) * Z.of_nat n)%Z) by lia.
        set (z := (q + k2 - k1 - k3)%Z) in *. assert (z = 0)%Z; [|lia].
        assert (- Z.of_nat n < fj - fi - fe < Z.of_nat n)%Z by lia. nia.
      - apply Z.mod_divide; [lia|]. exists (k3 - k2 + k1)%Z. lia. }
    rewrite Hax. split.
    + intros [H1 H2]. f_equal; assumption.
    + intros H. injection H as H1 H2. split; assumption.
Qed.

Lemma cubic_masked n1 n2 n3 m i : cubic_mask (map Z.of_nat [n1; n2; n3]) = Ok m -> inb i [n1; n2; n3] -> m (zs i) = true -> masked [n1; n2; n3] i.
Proof.
  intros Hm Hi. cbn in Hm. injection Hm as <-. apply inb3' in Hi. destruct Hi as (a & b & d & -> & _). cbn.
  rewrite !andb_true_iff. intros [[H1 H2] H3]. repeat constructor; assumption.
Qed.

Lemma recip_autocorrelation c vol occ sp K B n1 n2 n3 m D : let ns := [n1; n2; n3] in
  Forall (fun n => (1 <= n)%nat /\ n <> 2%nat) ns -> (0 < vol)%R ->
  tshape c = [sp; K; B] ++ ns -> tshape occ = [sp; K; B] ->
  cubic_mask (map Z.of_nat ns) = Ok m ->
  (forall b g, inb b [sp; K; B] -> inb g ns -> m (zs g) = false -> tget c (b ++ g) = RtoC 0) ->
  density_grid_reciprocal c vol (Some occ) = Ok D ->
  forall s d, (s < sp)%nat -> inb d ns ->
  tget D (s :: d) = RtoC (INR (nprod ns) / vol) *
    sumC (seq 0 K) (fun k => sumC (seq 0 B) (fun b => RtoC (tget occ [s; k; b]) *
      sumC (indices ns) (fun g => sumC (indices ns) (fun h =>
        if list_eq_dec Z.eq_dec (zsub (freqs ns h) (freqs ns g)) (freqs ns d)
        then Cconj (tget c ([s; k; b] ++ g)) * tget c ([s; k; b] ++ h) else RtoC 0)))).
Proof.
  intros ns Hn Hv Hc Ho Hm Hsup HD s d Hs Hd.
  assert (Hp : gridpos ns) by (eapply Forall_impl; [|exact Hn]; simpl; intros; lia).
  destruct (recip_eq c vol occ sp K B n1 n2 n3 Hc Ho) as (d1 & D1 & E1 & E2 & Sd & SD & GD).
  rewrite E2 in HD. injection HD as <-. fold ns in GD, SD, Sd. rewrite GD.
  destruct (density_eq c vol occ sp K B n1 n2 n3 Hc Ho) as (d2 & E3 & S2 & G2). rewrite E1 in E3. injection E3 as <-. fold ns in G2.
  rewrite (dft_ext ns _ (fun x => sumC (seq 0 K) (fun k => sumC (seq 0 B) (fun b => RtoC (tget occ [s; k; b]) * RtoC (Cnorm2 (psi ns vol c [s; k; b] x)))))).
  2:{ intros x Hx. rewrite G2 by assumption. rewrite <- sumC_RtoC. apply sumC_ext. intros k _. rewrite <- sumC_RtoC. apply sumC_ext. intros b _. apply RtoC_mult. }
  rewrite (dft_sum ns (seq 0 K) (fun k x => sumC (seq 0 B) (fun b => RtoC (tget occ [s; k; b]) * RtoC (Cnorm2 (psi ns vol c [s; k; b] x))))).
  rewrite <- sumC_scal. apply sumC_ext. intros k Hk.
  rewrite (dft_sum ns (seq 0 B) (fun b x => RtoC (tget occ [s; k; b]) * RtoC (Cnorm2 (psi ns vol c [s; k; b] x)))).
  rewrite <- sumC_scal. apply sumC_ext. intros b Hb. apply in_seq in Hk, Hb.
  rewrite (dft_scal ns (RtoC (tget occ [s; k; b])) (fun x => RtoC (Cnorm2 (psi ns vol c [s; k; b] x)))).
  rewrite psi_auto by assumption.
  set (i := [s; k; b]). assert (Hi : inb i [sp; K; B]) by (repeat constructor; lia).
  match goal with |- _ * (_ * ?X) = _ * (_ * ?Y) => assert (EXY : X = Y); [|rewrite EXY; ring] end.
  apply sumC_ext. intros g Hg. apply sumC_ext. intros h Hh. apply in_indices in Hg, Hh.
  destruct (m (zs g)) eqn:Eg; [destruct (m (zs h)) eqn:Eh|].
  - pose proof (exact_diff ns g h d Hn Hg Hh Hd (cubic_masked n1 n2 n3 m g Hm Hg Eg) (cubic_masked n1 n2 n3 m h Hm Hh Eh)) as X.
    destruct (zero_mod _ _), (list_eq_dec _ _ _) as [Y|Y]; try reflexivity.
    + exfalso. apply Y, X. reflexivity.
    + apply X in Y. discriminate.
  - rewrite (Hsup i h Hi Hh Eh). destruct (zero_mod _ _), (list_eq_dec _ _ _); ring.
  - rewrite (Hsup i g Hi Hg Eg). rewrite Cconj_R. destruct (zero_mod _ _), (list_eq_dec _ _ _); ring.
Qed.

(** ** the documented formula *)
Lemma wave_formula c vol bs A n1 n2 n3 G X w : let ns := [n1; n2; n3] in
  m3det A <> 0%R -> (0 < vol)%R -> g_vectors A ns = Ok G -> r_vectors A ns = Ok X -> tshape c = bs ++ ns ->
  wave_grid c vol = Ok w ->
  forall b x, inb b bs -> inb x ns -> tget w (b ++ x) = orbital_at ns G vol c b (tget X x).
Proof.
  intros ns HA Hv HG HX Hc Hw b x Hb Hx.
  destruct (wave_grid_eq c vol bs ns eq_refl Hc) as (w' & E & Hs & Hg).
  rewrite E in Hw. injection Hw as <-. rewrite Hg by (apply inb_length; exact Hb).
  unfold psi, idft, orbital_at. rewrite Cmult_assoc, <- RtoC_mult.
  assert (Hp : gridpos ns) by (apply (inb_pos _ _ Hx)).
  assert (HN : (INR (nprod ns) <> 0)%R) by (apply not_0_INR; pose proof (nprod_pos ns Hp); lia).
  assert (Hq : (0 < sqrt vol)%R) by (apply sqrt_lt_R0; exact Hv).
  replace (INR (nprod ns) / sqrt vol * / INR (nprod ns))%R with (/ sqrt vol)%R by (field; split; lra).
  f_equal. apply sumC_ext. intros g Hgi. apply in_indices in Hgi. f_equal.
  symmetry. apply (fft_pair A n1 n2 n3 G X HA HG HX g x Hgi Hx).
Qed.

Lemma density_formula c vol occ A sp K B n1 n2 n3 G X d : let ns := [n1; n2; n3] in
  m3det A <> 0%R -> (0 < vol)%R -> g_vectors A ns = Ok G -> r_vectors A ns = Ok X ->
  tshape c = [sp; K; B] ++ ns -> tshape occ = [sp; K; B] -> density_grid c vol (Some occ) = Ok d ->
  forall x, inb x ns -> sumR (seq 0 sp) (fun s => tget d (s :: x)) = density_at ns G vol c occ (tget X x).
Proof.
  intros ns HA Hv HG HX Hc Ho Hd x Hx.
  destruct (density_eq c vol occ sp K B n1 n2 n3 Hc Ho) as (d1 & E1 & S1 & G1). rewrite E1 in Hd. injection Hd as <-. fold ns in G1.
  destruct (wave_grid_eq c vol [sp; K; B] ns eq_refl Hc) as (w & Ew & Sw & Gw).
  unfold density_at. rewrite Ho. rewrite sumR_indices_cons. apply sumR_ext. intros s Hs. apply in_seq in Hs.
  rewrite G1 by (try lia; exact Hx). rewrite sumR_KB. apply sumR_ext. intros k Hk. apply sumR_ext. intros b Hb. apply in_seq in Hk, Hb.
  f_equal. f_equal. rewrite <- (Gw [s; k; b] x) by reflexivity.
  apply (wave_formula c vol [sp; K; B] A n1 n2 n3 G X w HA Hv HG HX Hc Ew [s; k; b] x); [repeat constructor; lia|exact Hx].
Qed.

(** ** wave_to_density agrees with density_grid *)
Lemma bshape_rev_same n a b s : bshape_rev a b = Some s -> bshape_rev (n :: a) (n :: b) = Some (n :: s).
Proof. intros H. cbn [bshape_rev]. rewrite H, Nat.eqb_refl. reflexivity. Qed.
Lemma bshape_rev_one n a b s : bshape_rev a b = Some s -> bshape_rev (n :: a) (1%nat :: b) = Some (n :: s).
Proof. intros H. cbn [bshape_rev]. rewrite H. destruct (Nat.eqb_spec n 1); subst; reflexivity. Qed.

Lemma wave_to_density_eq c vol occ sp K B n1 n2 n3 w d : let ns := [n1; n2; n3] in
  tshape c = [sp; K; B] ++ ns -> tshape occ = [sp; K; B] ->
  wave_grid c vol = Ok w -> density_grid c vol (Some occ) = Ok d ->
  exists d', wave_to_density w (Some occ) = Ok d' /\ teq d' d.
Proof.
  intros ns Hc Ho Hw Hd.
  destruct (density_eq c vol occ sp K B n1 n2 n3 Hc Ho) as (d1 & E1 & S1 & G1). rewrite E1 in Hd. injection Hd as <-. fold ns in G1.
  destruct (wave_grid_eq c vol [sp; K; B] ns eq_refl Hc) as (w1 & Ew & Sw & Gw). rewrite Ew in Hw. injection Hw as <-.
  unfold wave_to_density. set (oe := mkT _ _).
  assert (Hb : bshape (tshape (absolute_square w1)) (tshape oe) = Some [sp; K; B; n1; n2; n3]).
  { change (bshape (tshape w1) (tshape occ ++ [1; 1; 1]%nat) = Some [sp; K; B; n1; n2; n3]). rewrite Sw, Ho.
    change (option_map (@rev nat) (bshape_rev [n3; n2; n1; B; K; sp] [1; 1; 1; B; K; sp]%nat) = Some [sp; K; B; n1; n2; n3]).
    rewrite (bshape_rev_one n3 _ [1; 1; B; K; sp]%nat [n2; n1; B; K; sp]); [reflexivity|].
    apply bshape_rev_one, bshape_rev_one, bshape_rev_same, bshape_rev_same, bshape_rev_same. reflexivity. }
  unfold tzip. rewrite Hb. cbn [tshape]. eexists. split; [reflexivity|]. split; [rewrite S1; reflexivity|].
  intros i Hi. cbn [tshape] in Hi. inversion Hi as [|s n x ns' Hs Hx]; subst. cbn [tget hd tl]. rewrite G1 by assumption.
  apply sumR_ext. intros k Hk. apply sumR_ext. intros b Hb'. apply in_seq in Hk, Hb'.
  cbn [absolute_square tmap tshape tget oe]. rewrite Sw, Ho.
  apply inb3' in Hx. destruct Hx as (x1 & x2 & x3 & -> & Hx1 & Hx2 & Hx3).
  rewrite bidx_inb by (repeat constructor; lia).
  unfold bidx. cbn [app length Nat.sub skipn].
  assert (Ec : firstn (ndim occ) (clip1 [sp; K; B; 1; 1; 1]%nat [s; k; b; x1; x2; x3]) = [s; k; b]).
  { unfold ndim. rewrite Ho. cbn [length firstn clip1]. 
    assert (Z : forall n a, (a < n)%nat -> (if (n =? 1)%nat then 0%nat else a) = a) by (intros n a Ha; destruct (Nat.eqb_spec n 1); lia).
    rewrite !Z by lia. reflexivity. }
  rewrite Ec. rewrite Rmult_comm. f_equal.
  change (tget w1 [s; k; b; x1; x2; x3]) with (tget w1 ([s; k; b] ++ [x1; x2; x3])). rewrite Gw by reflexivity.
  rewrite Cconj_mult_self. reflexivity.
Qed.

(** ** wave_r *)
Lemma wave_r_raises r c A g : raises (wave_r r c A g).
Proof.
  unfold wave_r, wave_r_with. destruct (ndim c <? 3)%nat; [eexists; reflexivity|].
  destruct g as [G|]; cbn [bind].
  - destruct r as [|r1 [|r2 [|r3 [|]]]]; eexists; reflexivity.
  - destruct (g_vectors A (grid3 c)); cbn [bind]; [|eexists; reflexivity].
    destruct r as [|r1 [|r2 [|r3 [|]]]]; eexists; reflexivity.
Qed.
Lemma density_r_raises r c A g occ : raises (density_r r c A g occ).
Proof. unfold density_r. destruct (wave_r_raises r c A g) as [e ->]. exists e. reflexivity. Qed.
Lemma nabla_density_r_raises gr r c A g occ : raises (nabla_density_r gr r c A g occ).
Proof. unfold nabla_density_r. destruct (density_r_raises r c A g occ) as [e ->]. exists e. reflexivity. Qed.


Lemma wave_r_fixed r1 r2 r3 c A bs n1 n2 n3 G : let ns := [n1; n2; n3] in
  g_vectors A ns = Ok G -> tshape c = bs ++ ns ->
  exists w, wave_r_with "l"%string [r1; r2; r3] c A None = Ok w /\ tshape w = bs /\
    forall b, tget w b = orbital_at ns G (volume A) c b (V3 r1 r2 r3).
Proof.
  intros ns HG Hc. unfold wave_r_with. rewrite (ndim_ge3 c bs ns eq_refl Hc), (grid3_app c bs ns eq_refl Hc), HG. cbn [bind].
  eexists. split; [reflexivity|]. split; [apply (lead_app c bs ns eq_refl Hc)|]. reflexivity.
Qed.

(** a QR routine meeting the contract *)
Definition id_qr (w : tensor C) : tensor C :=
  mkT (let n := length (tshape w) in firstn (n - 2) (tshape w) ++ [nth (n - 2) (tshape w) 0; Nat.min (nth (n - 2) (tshape w) 0) (nth (n - 1) (tshape w) 0)])%nat
      (fun i => RtoC (if Nat.eqb (nth (length i - 2) i 0%nat) (nth (length i - 1) i 0%nat) then 1 else 0)).
Lemma id_qr_ok : complex_qr id_qr.
Proof.
  intros w bs M m H. unfold id_qr. rewrite H. cbn [tshape tget]. rewrite app_length. cbn [length].
  replace (length bs + 2 - 2)%nat with (length bs) by lia. replace (length bs + 2 - 1)%nat with (S (length bs)) by lia.
  rewrite firstn_app_len by reflexivity. rewrite !app_nth2 by lia.
  replace (length bs - length bs)%nat with 0%nat by lia. replace (S (length bs) - length bs)%nat with 1%nat by lia. cbn [nth].
  split; [reflexivity|]. intros b j l Hb Hj Hl.
  assert (E : forall i k, RtoC (if Nat.eqb (nth (length (b ++ [i; k]) - 2) (b ++ [i; k]) 0%nat) (nth (length (b ++ [i; k]) - 1) (b ++ [i; k]) 0%nat) then 1 else 0)
     = RtoC (if Nat.eqb i k then 1 else 0)).
  { intros i k. rewrite app_length. cbn [length]. replace (length b + 2 - 2)%nat with (length b) by lia.
    replace (length b + 2 - 1)%nat with (S (length b)) by lia. rewrite !app_nth2 by lia.
    replace (length b - length b)%nat with 0%nat by lia. replace (S (length b) - length b)%nat with 1%nat by lia. reflexivity. }
  rewrite (sumC_ext _ _ (fun i => RtoC (if Nat.eqb i j then 1 else 0) * RtoC (if Nat.eqb i l then 1 else 0))).
  - rewrite (sumC_single _ j); [|apply seq_NoDup|apply in_seq; lia|].
    + rewrite Nat.eqb_refl. ring.
    + intros i _ Hne. destruct (Nat.eqb_spec i j); [congruence|]. ring.
  - intros i _. rewrite !E, Cconj_R. reflexivity.
Qed.
