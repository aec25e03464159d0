(** Proofs about the two transforms, sharding and sharded random numbers. *)
From Coq Require Import Ascii String List Arith ZArith Reals Bool Lra Lia.
From Coquelicot Require Import Complex.
From Verif Require Import Base Sums Tensor DFT PadProofs PwModel PwProofs SpmdModel SpmdSpec SpmdProofs.
From Coq Require Import List.
Import ListNotations.
Local Open Scope C_scope.

(** ** The two transforms *)
Lemma fft_short t : (ndim t < 3)%nat -> fftn3 t = Err ValueErr.
Proof. intros H. unfold fftn3. apply Nat.ltb_lt in H. rewrite H. reflexivity. Qed.
Lemma ifft_short t : (ndim t < 3)%nat -> ifftn3 t = Err ValueErr.
Proof. intros H. unfold ifftn3. apply Nat.ltb_lt in H. rewrite H. reflexivity. Qed.
Lemma dft_lin ns h h' c g : dft ns (fun x => h x + c * h' x) g = dft ns h g + c * dft ns h' g.
Proof. rewrite dft_plus, dft_scal. reflexivity. Qed.
Lemma idft_lin ns h h' c g : idft ns (fun x => h x + c * h' x) g = idft ns h g + c * idft ns h' g.
Proof. rewrite idft_plus, idft_scal. reflexivity. Qed.
Lemma phase_zero ns g : phase ns g (zs (repeat 0%nat (length ns))) = 0%R.
Proof. revert g. induction ns as [|n ns IH]; intros [|a g]; try reflexivity. cbn [length repeat zs map phase]. change (map Z.of_nat (repeat 0%nat (length ns))) with (zs (repeat 0%nat (length ns))). rewrite IH, Z.mul_0_r. unfold Rdiv. ring. Qed.
Lemma zero_inb ns g : inb g ns -> inb (repeat 0%nat (length ns)) ns.
Proof. induction 1; constructor; [lia|assumption]. Qed.
Lemma delta_sum ns (h : list nat -> C) g : inb g ns -> sumC (indices ns) (fun z => (if list_eq_dec Nat.eq_dec z (repeat 0%nat (length ns)) then RtoC 1 else RtoC 0) * h z) = h (repeat 0%nat (length ns)).
Proof.
  intros Hg. rewrite (sumC_single _ (repeat 0%nat (length ns))).
  - destruct (list_eq_dec Nat.eq_dec _ _); [ring|contradiction].
  - apply NoDup_indices.
  - apply in_indices, (zero_inb ns g Hg).
  - intros z _ Hz. destruct (list_eq_dec Nat.eq_dec z _); [contradiction|ring].
Qed.
Lemma dft_delta ns g : inb g ns -> dft ns (fun z => if list_eq_dec Nat.eq_dec z (repeat 0%nat (length ns)) then RtoC 1 else RtoC 0) g <> RtoC 0.
Proof. intros Hg. unfold dft. rewrite (delta_sum ns (fun x => cis (- (2 * PI * phase ns (zs g) (zs x)))) g Hg). apply cis_neq_0. Qed.
Lemma idft_delta ns g : inb g ns -> idft ns (fun z => if list_eq_dec Nat.eq_dec z (repeat 0%nat (length ns)) then RtoC 1 else RtoC 0) g <> RtoC 0.
Proof.
  intros Hg. unfold idft. rewrite (delta_sum ns (fun x => cis (2 * PI * phase ns (zs x) (zs g))) g Hg). pose proof (nprod_pos ns (inb_pos _ _ Hg)) as Hp. apply lt_0_INR in Hp.
  apply Cmult_neq_0; [apply RtoC_neq_0; apply Rinv_neq_0_compat; lra|apply cis_neq_0].
Qed.

Definition fft_pairing := transpose_pairing fftn3 dft fftn3_eq fft_short dft_transpose.
Definition ifft_pairing := transpose_pairing ifftn3 idft ifftn3_eq ifft_short idft_transpose.
Lemma fft_unique y z : (3 <= ndim y)%nat -> tshape z = tshape y ->
  ((forall x, tshape x = tshape y -> exists Fx, fftn3 x = Ok Fx /\ pairing Fx y = pairing x z) <-> exists t, fftn_transpose_rule y = Ok t /\ teq z t).
Proof. exact (transpose_unique fftn3 dft fftn3_eq fft_short dft_transpose y z). Qed.
Lemma ifft_unique y z : (3 <= ndim y)%nat -> tshape z = tshape y ->
  ((forall x, tshape x = tshape y -> exists Fx, ifftn3 x = Ok Fx /\ pairing Fx y = pairing x z) <-> exists t, ifftn_transpose_rule y = Ok t /\ teq z t).
Proof. exact (transpose_unique ifftn3 idft ifftn3_eq ifft_short idft_transpose y z). Qed.
Lemma fft_jvp x v y dy : tshape v = tshape x -> fftn_jvp x v = Ok (y, dy) -> fftn3 x = Ok y /\ forall t, exists u, fftn3 (along x v t) = Ok u /\ teq u (along y dy t).
Proof.
  intros S E. unfold fftn_jvp in E. destruct (fftn3 x) as [y'|] eqn:E1; [cbn [bind] in E|discriminate]. destruct (fftn3 v) as [d'|] eqn:E2; [cbn [bind] in E|discriminate]. apply (f_equal (fun r => match r with Ok p => p | Err _ => (y', d') end)) in E. cbn in E. apply pair_equal_spec in E. destruct E as (<- & <-).
  split; [reflexivity|]. exact (jvp_exact fftn3 dft fftn3_eq fft_short dft_lin x v y' d' S E1 E2).
Qed.
Lemma ifft_jvp x v y dy : tshape v = tshape x -> ifftn_jvp x v = Ok (y, dy) -> ifftn3 x = Ok y /\ forall t, exists u, ifftn3 (along x v t) = Ok u /\ teq u (along y dy t).
Proof.
  intros S E. unfold ifftn_jvp in E. destruct (ifftn3 x) as [y'|] eqn:E1; [cbn [bind] in E|discriminate]. destruct (ifftn3 v) as [d'|] eqn:E2; [cbn [bind] in E|discriminate]. apply (f_equal (fun r => match r with Ok p => p | Err _ => (y', d') end)) in E. cbn in E. apply pair_equal_spec in E. destruct E as (<- & <-).
  split; [reflexivity|]. exact (jvp_exact ifftn3 idft ifftn3_eq ifft_short idft_lin x v y' d' S E1 E2).
Qed.
Lemma jvp_returns x v : tshape v = tshape x -> (3 <= ndim x)%nat -> (exists p, fftn_jvp x v = Ok p) /\ (exists p, ifftn_jvp x v = Ok p).
Proof.
  intros S H. assert (H' : (3 <= ndim v)%nat) by (unfold ndim in *; rewrite S; exact H). unfold fftn_jvp, ifftn_jvp.
  destruct (proj2 (f_returns fftn3 dft fftn3_eq fft_short x) H) as (a & ->). destruct (proj2 (f_returns fftn3 dft fftn3_eq fft_short v) H') as (b & ->).
  destruct (proj2 (f_returns ifftn3 idft ifftn3_eq ifft_short x) H) as (c & ->). destruct (proj2 (f_returns ifftn3 idft ifftn3_eq ifft_short v) H') as (d & ->). split; eexists; reflexivity.
Qed.
Lemma inverse x : (3 <= ndim x)%nat -> exists y z, fftn3 x = Ok y /\ ifftn3 y = Ok z /\ teq z x.
Proof.
  intros H. destruct (split3 _ H) as (bs & ns & Es & Hn). destruct (fftn3_eq x bs ns Hn Es) as (y & Ey & Sy & Gy). destruct (ifftn3_eq y bs ns Hn Sy) as (z & Ez & Sz & Gz). exists y, z. split; [exact Ey|]. split; [exact Ez|]. split; [congruence|].
  intros i Hi. rewrite Sz in Hi. destruct (split_index _ _ _ Hi) as (b & g & -> & Hb & Hg). apply inb_length in Hb. rewrite Gz by exact Hb. rewrite (idft_ext ns _ (dft ns (fun x0 => tget x (b ++ x0)))) by (intros k _; apply Gy, Hb). exact (idft_dft ns (fun x0 => tget x (b ++ x0)) g Hg).
Qed.
Lemma inverse' x : (3 <= ndim x)%nat -> exists y z, ifftn3 x = Ok y /\ fftn3 y = Ok z /\ teq z x.
Proof.
  intros H. destruct (split3 _ H) as (bs & ns & Es & Hn). destruct (ifftn3_eq x bs ns Hn Es) as (y & Ey & Sy & Gy). destruct (fftn3_eq y bs ns Hn Sy) as (z & Ez & Sz & Gz). exists y, z. split; [exact Ey|]. split; [exact Ez|]. split; [congruence|].
  intros i Hi. rewrite Sz in Hi. destruct (split_index _ _ _ Hi) as (b & g & -> & Hb & Hg). apply inb_length in Hb. rewrite Gz by exact Hb. rewrite (dft_ext ns _ (idft ns (fun x0 => tget x (b ++ x0)))) by (intros k _; apply Gy, Hb). exact (dft_idft ns (fun x0 => tget x (b ++ x0)) g Hg).
Qed.
Lemma vmap_ok x bd : ((4 <= ndim x)%nat /\ (bd < ndim x)%nat -> exists y, vmap_fftn3d x bd = Ok (y, 0%nat) /\ maps_slices fftn3 x bd y) /\
  (~ ((4 <= ndim x)%nat /\ (bd < ndim x)%nat) -> vmap_fftn3d x bd = Err ValueErr).
Proof.
  unfold vmap_fftn3d, fftn_batching_rule. split.
  - intros (H4 & Hb). destruct (Nat.leb_spec (ndim x) bd); [lia|]. destruct (Nat.ltb_spec (ndim x - 1) 3); [lia|]. destruct (batch_rule fftn3 dft fftn3_eq fft_short dft_ext x bd Hb H4) as (y & -> & M). exists y. split; [reflexivity|exact M].
  - intros N. destruct (Nat.leb_spec (ndim x) bd); [reflexivity|]. destruct (Nat.ltb_spec (ndim x - 1) 3); [reflexivity|lia].
Qed.
Lemma vmap_ok' x bd : ((4 <= ndim x)%nat /\ (bd < ndim x)%nat -> exists y, vmap_ifftn3d x bd = Ok (y, 0%nat) /\ maps_slices ifftn3 x bd y) /\
  (~ ((4 <= ndim x)%nat /\ (bd < ndim x)%nat) -> vmap_ifftn3d x bd = Err ValueErr).
Proof.
  unfold vmap_ifftn3d, ifftn_batching_rule. split.
  - intros (H4 & Hb). destruct (Nat.leb_spec (ndim x) bd); [lia|]. destruct (Nat.ltb_spec (ndim x - 1) 3); [lia|]. destruct (batch_rule ifftn3 idft ifftn3_eq ifft_short idft_ext x bd Hb H4) as (y & -> & M). exists y. split; [reflexivity|exact M].
  - intros N. destruct (Nat.leb_spec (ndim x) bd); [reflexivity|]. destruct (Nat.ltb_spec (ndim x - 1) 3); [reflexivity|lia].
Qed.
Lemma announced t sh : snd (fftn_abstract_eval sh t) = fftn_dtype t <-> t = Complex64 \/ t = Complex128.
Proof. destruct t; cbn; split; intros H; try discriminate; try (destruct H; discriminate); auto. Qed.

(** ** The supported sharding *)
Lemma supported_length spec rank : (1 <= rank)%nat -> length (supported_sharding spec rank) = rank.
Proof.
  intros H. unfold supported_sharding, pyprefix. rewrite app_length, firstn_length, repeat_length. destruct (Z.ltb_spec (Z.min (Z.of_nat (length spec)) (Z.of_nat rank - 1)) 0); lia.
Qed.
Lemma nth_repeat_nil {A} (d : A) j n : nth j (repeat d n) d = d.
Proof. revert j. induction n as [|n IH]; intros [|j]; try reflexivity. cbn. apply IH. Qed.
Lemma nth_firstn {A} (l : list A) n j d : (j < n)%nat -> nth j (firstn n l) d = nth j l d.
Proof. revert n j. induction l as [|a l IH]; intros [|n] [|j] H; try reflexivity; try lia. cbn. apply IH. lia. Qed.
Lemma supported_nth spec rank j : (1 <= rank)%nat -> nth j (supported_sharding spec rank) [] = if (S j <? rank)%nat then nth j spec [] else [].
Proof.
  intros H. unfold supported_sharding, pyprefix. set (mx := Z.min _ _). assert (M : Z.to_nat (if (mx <? 0)%Z then Z.max 0 (Z.of_nat (length spec) + mx) else mx) = Nat.min (length spec) (rank - 1)) by (unfold mx; destruct (Z.ltb_spec (Z.min (Z.of_nat (length spec)) (Z.of_nat rank - 1)) 0); lia).
  rewrite M. destruct (lt_dec j (Nat.min (length spec) (rank - 1))) as [L|L].
  - rewrite app_nth1 by (rewrite firstn_length; lia). rewrite nth_firstn by exact L. destruct (Nat.ltb_spec (S j) rank); [reflexivity|lia].
  - rewrite app_nth2 by (rewrite firstn_length; lia). rewrite nth_repeat_nil. destruct (Nat.ltb_spec (S j) rank); [symmetry; apply nth_overflow; lia|reflexivity].
Qed.
Definition rank_parts m spec rank := map (parts m) (supported_sharding spec rank).
Lemma rank_parts_nth m spec rank j : (1 <= rank)%nat -> (j < rank)%nat -> nth j (rank_parts m spec rank) 0%nat = if (S j <? rank)%nat then axis_parts m spec j else 1%nat.
Proof.
  intros H Hj. unfold rank_parts. rewrite (nth_indep _ 0%nat (parts m [])) by (rewrite map_length, supported_length by exact H; exact Hj). rewrite map_nth, supported_nth by exact H. destruct (S j <? rank)%nat; reflexivity.
Qed.
Lemma divides_iff m spec sh : (1 <= length sh)%nat -> (forallb (fun p => (fst p mod snd p =? 0)%nat) (combine sh (rank_parts m spec (length sh))) = true <-> divides_all (rank_parts m spec (length sh)) sh) /\
  (divides_all (rank_parts m spec (length sh)) sh <-> forall j, (S j < length sh)%nat -> (nth j sh 0 mod axis_parts m spec j = 0)%nat).
Proof.
  intros H. set (ps := rank_parts m spec (length sh)). assert (L : length sh = length ps) by (unfold ps, rank_parts; rewrite map_length, supported_length; [reflexivity|exact H]). split.
  - revert L. generalize ps. clear. induction sh as [|n sh IH]; intros [|p ps] L; try discriminate; [split; [constructor|reflexivity]|]. injection L as L. cbn [combine forallb fst snd]. rewrite andb_true_iff, Nat.eqb_eq, (IH ps L). split.
    + intros (A & B). constructor; assumption.
    + intros X. inversion X; subst. split; assumption.
  - split.
    + intros D j Hj. pose proof (F2_nth (fun n p => (n mod p = 0)%nat) _ _ 0%nat 0%nat D j ltac:(lia)) as X. cbn beta in X. unfold ps in X. rewrite rank_parts_nth in X by lia. destruct (Nat.ltb_spec (S j) (length sh)); [exact X|lia].
    + intros X. apply (F2_of_nth _ 0%nat 0%nat); [exact L|]. intros j Hj. unfold ps. rewrite rank_parts_nth by lia. destruct (Nat.ltb_spec (S j) (length sh)); [apply X; assumption|apply Nat.mod_1_r].
Qed.
Section Dist.
Variable f : tensor C -> res (tensor C).
Variable tr : list nat -> (list nat -> C) -> list nat -> C.
Hypothesis f_eq : forall t bs ns, length ns = 3%nat -> tshape t = bs ++ ns -> exists u, f t = Ok u /\ tshape u = bs ++ ns /\ forall b g, length b = length bs -> tget u (b ++ g) = tr ns (fun x => tget t (b ++ x)) g.
Hypothesis f_short : forall t, (ndim t < 3)%nat -> f t = Err ValueErr.
Hypothesis tr_ext : forall ns h h' g, (forall x, inb x ns -> h x = h' x) -> tr ns h g = tr ns h' g.
Hypothesis tr_transpose : forall ns h h', sumC (indices ns) (fun k => tr ns h k * h' k) = sumC (indices ns) (fun x => h x * tr ns h' x).
Hypothesis tr_lin : forall ns h h' c g, tr ns (fun x => h x + c * h' x) g = tr ns h g + c * tr ns h' g.
Hypothesis tr_delta : forall ns g, inb g ns -> tr ns (fun z => if list_eq_dec Nat.eq_dec z (repeat 0%nat (length ns)) then RtoC 1 else RtoC 0) g <> RtoC 0.
Lemma dist_iff m spec sh : (3 <= length sh)%nat -> Forall (fun n => (0 < n)%nat) sh ->
  (distributed_ok f (sharded_call f m spec) sh <-> (forall j, (S j < length sh)%nat -> (nth j sh 0 mod axis_parts m spec j = 0)%nat) /\ axis_parts m spec (length sh - 3) = 1%nat /\ axis_parts m spec (length sh - 2) = 1%nat).
Proof.
  intros H3 Hpos. destruct (divides_iff m spec sh ltac:(lia)) as (D1 & D2). set (ps := rank_parts m spec (length sh)) in *.
  assert (U : forall x, tshape x = sh -> sharded_call f m spec x = if forallb (fun p => (fst p mod snd p =? 0)%nat) (combine sh ps) then run_sharded f ps x else Err ValueErr) by (intros x Sx; unfold sharded_call, ndim; rewrite Sx; reflexivity).
  assert (Lp : length ps = length sh) by (unfold ps, rank_parts; rewrite map_length, supported_length; [reflexivity|lia]). split.
  - intros OK. assert (D : divides_all ps sh).
    { apply D1. destruct (forallb _ _) eqn:E; [reflexivity|]. destruct (OK (mkT sh (fun _ => RtoC 0)) eq_refl) as (y & u & Ey & _). rewrite U in Ey by reflexivity. discriminate. }
    split; [apply D2, D|]. apply D1 in D as Db.
    assert (X : forall j, (length sh - 3 <= j < length sh)%nat -> nth j ps 0%nat = 1%nat).
    { intros j Hj. destruct (Nat.eq_dec (nth j ps 0%nat) 1) as [E|N]; [exact E|exfalso]. destruct (sharded_split f tr f_eq f_short tr_ext tr_transpose tr_lin tr_delta sh ps j H3 Hpos D Hj N) as (x & y & u & i & Sx & Ey & Eu & Hi & Y & Z).
      destruct (OK x Sx) as (y' & u' & Ey' & Eu' & T). rewrite U, Db, Ey in Ey' by exact Sx. injection Ey' as <-. rewrite Eu in Eu'. injection Eu' as <-. apply Z. rewrite <- (proj2 T); [exact Y|].
      unfold run_sharded in Ey. destruct (existsb _ _) in Ey; [discriminate|]. apply (f_equal (fun r => match r with Ok t => tshape t | Err _ => [] end)) in Ey. cbn [tshape] in Ey. rewrite <- Ey, Sx. exact Hi. }
    split.
    + pose proof (X (length sh - 3)%nat ltac:(lia)) as Y. unfold ps in Y. rewrite rank_parts_nth in Y by lia. destruct (Nat.ltb_spec (S (length sh - 3)) (length sh)); [exact Y|lia].
    + pose proof (X (length sh - 2)%nat ltac:(lia)) as Y. unfold ps in Y. rewrite rank_parts_nth in Y by lia. destruct (Nat.ltb_spec (S (length sh - 2)) (length sh)); [exact Y|lia].
  - intros (D & P3 & P2) x Sx. rewrite U by exact Sx. apply D2, D1 in D. rewrite D. destruct (split3 sh H3) as (bs & ns & Es & Hn).
    assert (E : ps = firstn (length bs) ps ++ [1; 1; 1]%nat).
    { rewrite <- (firstn_skipn (length bs) ps) at 1. f_equal. assert (Lb : length sh = (length bs + 3)%nat) by (rewrite Es, app_length; lia). apply (nth_ext _ _ 0%nat 0%nat); [rewrite skipn_length; cbn [length]; lia|]. intros k Hk. rewrite skipn_length in Hk.
      assert (Q : nth k (skipn (length bs) ps) 0%nat = nth (length bs + k) ps 0%nat) by (rewrite <- (firstn_skipn (length bs) ps) at 2; rewrite app_nth2 by (rewrite firstn_length; lia); rewrite firstn_length; f_equal; lia).
      rewrite Q. unfold ps. rewrite rank_parts_nth by lia. assert (k = 0 \/ k = 1 \/ k = 2)%nat as [-> | [-> | ->]] by lia.
      - replace (length bs + 0)%nat with (length sh - 3)%nat by lia. rewrite P3. destruct (_ <? _)%nat; reflexivity.
      - replace (length bs + 1)%nat with (length sh - 2)%nat by lia. rewrite P2. destruct (_ <? _)%nat; reflexivity.
      - destruct (Nat.ltb_spec (S (length bs + 2)) (length sh)); [lia|reflexivity]. }
    rewrite E. refine (sharded_batch f tr f_eq f_short tr_ext tr_transpose tr_lin x bs ns (firstn (length bs) ps) Hn _ _); [rewrite Sx; exact Es|]. rewrite firstn_length, Lp, Es, app_length. lia.
Qed.
End Dist.
Definition fft_dist := dist_iff fftn3 dft fftn3_eq fft_short dft_ext dft_transpose dft_lin dft_delta.
Definition ifft_dist := dist_iff ifftn3 idft ifftn3_eq ifft_short idft_ext idft_transpose idft_lin idft_delta.
