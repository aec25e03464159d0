(** Proofs about the FFT rules and sharding. *)
From Coq Require Import Ascii String List Arith ZArith Reals Bool Lra Lia.
From Coquelicot Require Import Complex.
From Verif Require Import Base Sums Tensor DFT PadProofs PwModel PwProofs SpmdModel SpmdSpec.
From Coq Require Import List.
Import ListNotations.
Local Open Scope C_scope.

Lemma split3 {A} (l : list A) : (3 <= length l)%nat -> exists bs ns, l = bs ++ ns /\ length ns = 3%nat.
Proof. intros H. exists (firstn (length l - 3) l), (skipn (length l - 3) l). split; [symmetry; apply firstn_skipn|rewrite skipn_length; lia]. Qed.
Lemma split_index i bs (ns : list nat) : inb i (bs ++ ns) -> exists b g, i = b ++ g /\ inb b bs /\ inb g ns.
Proof. intros H. apply Forall2_app_inv_r in H. destruct H as (b & g & Hb & Hg & ->). exists b, g. auto. Qed.

Lemma F2_len {A B} (P : A -> B -> Prop) l m : Forall2 P l m -> length l = length m.
Proof. induction 1; cbn; congruence. Qed.
Lemma F2_nth {A B} (P : A -> B -> Prop) l m a b : Forall2 P l m -> forall i, (i < length l)%nat -> P (nth i l a) (nth i m b).
Proof. induction 1 as [|x y l m H F IH]; intros i Hi; [cbn in Hi; lia|]. destruct i as [|i]; [exact H|]. apply IH. cbn in Hi. lia. Qed.
Lemma F2_of_nth {A B} (P : A -> B -> Prop) a b l m : length l = length m -> (forall i, (i < length l)%nat -> P (nth i l a) (nth i m b)) -> Forall2 P l m.
Proof.
  revert m. induction l as [|x l IH]; intros [|y m] E H; try discriminate; [constructor|]. injection E as E. constructor; [apply (H 0%nat); cbn; lia|]. apply IH; [exact E|]. intros i Hi. apply (H (S i)). cbn. lia.
Qed.

Lemma zipw_app g a b c d : length a = length c -> zipw g (a ++ b) (c ++ d) = zipw g a c ++ zipw g b d.
Proof. revert c. induction a as [|x a IH]; intros [|y c] H; try discriminate; [reflexivity|]. injection H as H. unfold zipw in *. cbn [app combine map]. rewrite IH by exact H. reflexivity. Qed.
Lemma zipw_length g a b : length a = length b -> length (zipw g a b) = length a.
Proof. intros H. unfold zipw. rewrite map_length, combine_length. lia. Qed.
Lemma zipw_nth g a b j : (j < length a)%nat -> length a = length b -> nth j (zipw g a b) 0%nat = g (nth j a 0%nat) (nth j b 0%nat).
Proof. revert b j. induction a as [|x a IH]; intros [|y b] [|j] Hj H; cbn [length] in *; try lia; [reflexivity|]. unfold zipw in *. cbn [combine map nth]. apply IH; lia. Qed.
Lemma recombine i ls : length i = length ls -> zipw Nat.add (zipw Nat.mul (zipw Nat.div i ls) ls) (zipw Nat.modulo i ls) = i.
Proof.
  revert ls. induction i as [|a i IH]; intros [|l ls] H; try discriminate; [reflexivity|]. injection H as H. unfold zipw in *. cbn [combine map fst snd]. rewrite IH by exact H. f_equal.
  destruct l as [|l]; [cbn; lia|]. rewrite Nat.mul_comm. symmetry. apply Nat.div_mod. lia.
Qed.
Lemma div_small g ns : inb g ns -> zipw Nat.div g ns = repeat 0%nat (length ns) /\ zipw Nat.modulo g ns = g.
Proof.
  induction 1 as [|a n g ns Ha H IH]; [split; reflexivity|]. destruct IH as (I1 & I2). unfold zipw in *. cbn [combine map fst snd length repeat]. rewrite I1, I2, Nat.div_small, Nat.mod_small by exact Ha. split; reflexivity.
Qed.
Lemma zero_block ns z : length z = length ns -> zipw Nat.add (zipw Nat.mul (repeat 0%nat (length ns)) ns) z = z.
Proof. revert z. induction ns as [|n ns IH]; intros [|a z] H; try discriminate; [reflexivity|]. injection H as H. unfold zipw in *. cbn [length repeat combine map fst snd]. rewrite IH by exact H. reflexivity. Qed.
Lemma div_ones ns : zipw Nat.div ns (repeat 1%nat (length ns)) = ns.
Proof. induction ns as [|n ns IH]; [reflexivity|]. unfold zipw in *. cbn [length repeat combine map fst snd]. rewrite IH, Nat.div_1_r. reflexivity. Qed.

(** ** Rules of one transform, given by its action on the last three axes *)
Section Rules.
Variable f : tensor C -> res (tensor C).
Variable tr : list nat -> (list nat -> C) -> list nat -> C.
Hypothesis f_eq : forall t bs ns, length ns = 3%nat -> tshape t = bs ++ ns -> exists u, f t = Ok u /\ tshape u = bs ++ ns /\ forall b g, length b = length bs -> tget u (b ++ g) = tr ns (fun x => tget t (b ++ x)) g.
Hypothesis f_short : forall t, (ndim t < 3)%nat -> f t = Err ValueErr.
Hypothesis tr_ext : forall ns h h' g, (forall x, inb x ns -> h x = h' x) -> tr ns h g = tr ns h' g.
Hypothesis tr_transpose : forall ns h h', sumC (indices ns) (fun k => tr ns h k * h' k) = sumC (indices ns) (fun x => h x * tr ns h' x).
Hypothesis tr_lin : forall ns h h' c g, tr ns (fun x => h x + c * h' x) g = tr ns h g + c * tr ns h' g.

Lemma f_ok t u : f t = Ok u -> exists bs ns, length ns = 3%nat /\ tshape t = bs ++ ns /\ tshape u = bs ++ ns /\ forall b g, length b = length bs -> tget u (b ++ g) = tr ns (fun x => tget t (b ++ x)) g.
Proof.
  intros E. destruct (le_lt_dec 3 (ndim t)) as [H|H]; [|rewrite f_short in E by exact H; discriminate]. destruct (split3 _ H) as (bs & ns & Es & Hn).
  destruct (f_eq t bs ns Hn Es) as (u' & E' & S & G). rewrite E in E'. injection E' as <-. exists bs, ns. auto.
Qed.
Lemma f_returns t : (exists u, f t = Ok u) <-> (3 <= ndim t)%nat.
Proof.
  split; [intros (u & E); destruct (le_lt_dec 3 (ndim t)) as [H|H]; [exact H|rewrite f_short in E by exact H; discriminate]|].
  intros H. destruct (split3 _ H) as (bs & ns & Es & Hn). destruct (f_eq t bs ns Hn Es) as (u & E & _). exists u. exact E.
Qed.
Lemma f_shape t u : f t = Ok u -> tshape u = tshape t.
Proof. intros E. destruct (f_ok t u E) as (bs & ns & _ & S & S' & _). congruence. Qed.

Lemma transpose_pairing x y Fx : tshape x = tshape y -> f x = Ok Fx -> exists Fy, f y = Ok Fy /\ tshape Fy = tshape y /\ pairing Fx y = pairing x Fy.
Proof.
  intros S E. destruct (f_ok x Fx E) as (bs & ns & Hn & Sx & SF & G). destruct (f_eq y bs ns Hn (eq_trans (eq_sym S) Sx)) as (Fy & Ey & Sy & Gy). exists Fy. split; [exact Ey|]. split; [congruence|].
  unfold pairing. rewrite SF, Sx, !sumC_indices_app. apply sumC_ext. intros b Hb. apply in_indices, inb_length in Hb.
  rewrite (sumC_ext _ _ (fun k => tr ns (fun x0 => tget x (b ++ x0)) k * tget y (b ++ k))) by (intros k _; rewrite G by exact Hb; reflexivity).
  rewrite tr_transpose. apply sumC_ext. intros k _. rewrite Gy by exact Hb. reflexivity.
Qed.
Definition delta_at (sh : list nat) (j : list nat) : tensor C := mkT sh (fun i => if list_eq_dec Nat.eq_dec i j then RtoC 1 else RtoC 0).
Lemma pairing_delta sh j z : inb j sh -> pairing (delta_at sh j) z = tget z j.
Proof.
  intros Hj. unfold pairing. cbn [delta_at tshape tget]. rewrite (sumC_single _ j).
  - destruct (list_eq_dec Nat.eq_dec j j); [ring|contradiction].
  - apply NoDup_indices.
  - apply in_indices, Hj.
  - intros i _ Hi. destruct (list_eq_dec Nat.eq_dec i j); [contradiction|ring].
Qed.
Lemma transpose_unique y z : (3 <= ndim y)%nat -> tshape z = tshape y ->
  ((forall x, tshape x = tshape y -> exists Fx, f x = Ok Fx /\ pairing Fx y = pairing x z) <-> exists Fy, f y = Ok Fy /\ teq z Fy).
Proof.
  intros H3 Sz. split.
  - intros H. destruct (proj2 (f_returns y) H3) as (Fy & Ey). exists Fy. split; [exact Ey|]. split; [rewrite Sz; symmetry; apply f_shape, Ey|].
    intros j Hj. rewrite Sz in Hj. destruct (H (delta_at (tshape y) j) eq_refl) as (Fx & Ex & P). destruct (transpose_pairing (delta_at (tshape y) j) y Fx eq_refl Ex) as (Fy' & Ey' & _ & P').
    rewrite Ey in Ey'. injection Ey' as <-. rewrite P in P'. rewrite !pairing_delta in P' by exact Hj. exact P'.
  - intros (Fy & Ey & Q) x Sx. assert (H : (3 <= ndim x)%nat) by (unfold ndim in *; rewrite Sx; exact H3). destruct (proj2 (f_returns x) H) as (Fx & Ex). exists Fx. split; [exact Ex|].
    destruct (transpose_pairing x y Fx Sx Ex) as (Fy' & Ey' & _ & P). rewrite Ey in Ey'. injection Ey' as <-. rewrite P. unfold pairing. apply sumC_ext. intros i Hi. apply in_indices in Hi. rewrite (proj2 Q) by (rewrite Sz, <- Sx; exact Hi). reflexivity.
Qed.
Lemma jvp_exact x v y dy : tshape v = tshape x -> f x = Ok y -> f v = Ok dy -> forall t, exists u, f (along x v t) = Ok u /\ teq u (along y dy t).
Proof.
  intros S E E' t. destruct (f_ok x y E) as (bs & ns & Hn & Sx & Sy & G). destruct (f_eq v bs ns Hn (eq_trans S Sx)) as (dy' & Ev & Sv & Gv). rewrite E' in Ev. injection Ev as <-.
  destruct (f_eq (along x v t) bs ns Hn Sx) as (u & Eu & Su & Gu). exists u. split; [exact Eu|]. split; [cbn [along tshape]; congruence|].
  intros i Hi. rewrite Su in Hi. destruct (split_index _ _ _ Hi) as (b & g & -> & Hb & Hg). apply inb_length in Hb. rewrite Gu by exact Hb. cbn [along tget]. rewrite tr_lin, G, Gv by exact Hb. reflexivity.
Qed.

(** ** Batching *)
Lemma remove_length {A} d (l : list A) : (d < length l)%nat -> length (remove_at d l) = (length l - 1)%nat.
Proof. intros H. unfold remove_at. rewrite app_length, firstn_length, skipn_length. lia. Qed.
Lemma batch_rule x bd : (bd < ndim x)%nat -> (4 <= ndim x)%nat -> exists y, f (moveaxis0 x bd) = Ok y /\ maps_slices f x bd y.
Proof.
  intros Hb H4. destruct (split3 (remove_at bd (tshape x))) as (bs & ns & Es & Hn); [rewrite remove_length by exact Hb; unfold ndim in H4; lia|].
  destruct (f_eq (moveaxis0 x bd) (nth bd (tshape x) 0%nat :: bs) ns Hn) as (y & Ey & Sy & Gy); [cbn [moveaxis0 tshape]; rewrite Es; reflexivity|].
  exists y. split; [exact Ey|]. split; [rewrite Sy, Es; reflexivity|]. intros i Hi. destruct (f_eq (slice x bd i) bs ns Hn Es) as (u & Eu & Su & Gu). exists u. split; [exact Eu|].
  assert (S0 : remove_at 0 (tshape y) = bs ++ ns) by (rewrite Sy; reflexivity).
  split; [cbn [slice tshape]; rewrite S0, Su; reflexivity|]. cbn [slice tshape]. rewrite S0. intros j Hj. destruct (split_index _ _ _ Hj) as (b & g & -> & Hbb & Hg). apply inb_length in Hbb.
  rewrite Gu by exact Hbb. cbn [slice tget insert_at firstn skipn]. change (insert_at 0 i (b ++ g)) with ((i :: b) ++ g). rewrite Gy by (cbn [length]; rewrite Hbb; reflexivity). apply tr_ext. intros z _. reflexivity.
Qed.

(** ** Blocks *)
Lemma no_err ps ls x : (3 <= length ls)%nat -> existsb (fun b => is_err (f (block ls x b))) (indices ps) = false.
Proof.
  intros H. apply Bool.not_true_iff_false. intros E. apply existsb_exists in E. destruct E as (b & _ & E). destruct (proj2 (f_returns (block ls x b)) H) as (u & Eu). rewrite Eu in E. discriminate.
Qed.
Lemma sharded_batch x bs ns pb : length ns = 3%nat -> tshape x = bs ++ ns -> length pb = length bs ->
  exists y u, run_sharded f (pb ++ [1; 1; 1]%nat) x = Ok y /\ f x = Ok u /\ teq y u.
Proof.
  intros Hn Sx Hp. destruct (f_eq x bs ns Hn Sx) as (u & Eu & Su & Gu). unfold run_sharded. rewrite Sx.
  assert (L : zipw Nat.div (bs ++ ns) (pb ++ [1; 1; 1]%nat) = zipw Nat.div bs pb ++ ns).
  { rewrite zipw_app by (symmetry; exact Hp). f_equal. change [1; 1; 1]%nat with (repeat 1%nat 3). rewrite <- Hn. apply div_ones. }
  rewrite L. set (lb := zipw Nat.div bs pb). assert (Hl : length lb = length bs) by (apply zipw_length; symmetry; exact Hp).
  rewrite no_err by (rewrite app_length; lia). eexists. exists u. split; [reflexivity|]. split; [exact Eu|]. split; [cbn [tshape]; symmetry; exact Su|].
  cbn [tshape tget]. intros i Hi. destruct (split_index _ _ _ Hi) as (b & g & -> & Hb & Hg). pose proof (inb_length _ _ Hb) as Lb. pose proof (inb_length _ _ Hg) as Lg.
  destruct (div_small g ns Hg) as (D & M). rewrite !zipw_app by lia. rewrite D, M.
  set (bk := block (lb ++ ns) x (zipw Nat.div b lb ++ repeat 0%nat (length ns))). destruct (f_eq bk lb ns Hn eq_refl) as (v & Ev & Sv & Gv). rewrite Ev.
  rewrite Gv by (rewrite zipw_length; lia). rewrite Gu by exact Lb. apply tr_ext. intros z Hz. apply inb_length in Hz. unfold bk, block. cbn [tget]. f_equal.
  rewrite !zipw_app by (rewrite ?zipw_length; rewrite ?zipw_length; lia). rewrite recombine by lia. rewrite zero_block by lia. reflexivity.
Qed.

Hypothesis tr_delta : forall ns g, inb g ns -> tr ns (fun z => if list_eq_dec Nat.eq_dec z (repeat 0%nat (length ns)) then RtoC 1 else RtoC 0) g <> RtoC 0.
Lemma tr_zero ns h g : (forall z, inb z ns -> h z = RtoC 0) -> tr ns h g = RtoC 0.
Proof.
  intros H. rewrite (tr_ext ns h (fun x => RtoC 0 + RtoC (-1) * RtoC 0) g) by (intros x Hx; rewrite H by exact Hx; ring). rewrite tr_lin. 
  replace (RtoC (-1)) with (- RtoC 1) by (rewrite <- RtoC_opp; f_equal; ring). ring.
Qed.
Lemma nth_repeat0 j n : nth j (repeat 0%nat n) 0%nat = 0%nat.
Proof. revert j. induction n as [|n IH]; intros [|j]; try reflexivity. cbn. apply IH. Qed.
Lemma sharded_split sh ps j : (3 <= length sh)%nat -> Forall (fun n => (0 < n)%nat) sh -> divides_all ps sh -> (length sh - 3 <= j < length sh)%nat -> nth j ps 0%nat <> 1%nat ->
  exists x y u i, tshape x = sh /\ run_sharded f ps x = Ok y /\ f x = Ok u /\ inb i sh /\ tget y i = RtoC 0 /\ tget u i <> RtoC 0.
Proof.
  intros H3 Hpos Hd Hj Hp. assert (Lp : length ps = length sh) by (symmetry; apply (F2_len _ _ _ Hd)).
  assert (Hdj : (nth j sh 0 mod nth j ps 0 = 0)%nat) by (apply (F2_nth (fun n p => (n mod p = 0)%nat) _ _ 0%nat 0%nat Hd); lia).
  assert (Hnj : (0 < nth j sh 0)%nat) by (rewrite Forall_forall in Hpos; apply Hpos, nth_In; lia).
  set (n := nth j sh 0%nat) in *. set (p := nth j ps 0%nat) in *. assert (Hp2 : (2 <= p)%nat) by (destruct p as [|[|p]]; [cbn in Hdj; lia|lia|lia]).
  set (l := (n / p)%nat). assert (Hl : n = (p * l)%nat) by (apply Nat.div_exact; lia). assert (Hl0 : (0 < l)%nat) by (destruct l; nia). assert (Hln : (l < n)%nat) by nia.
  set (o := repeat 0%nat (length sh)). set (x := mkT sh (fun i => if list_eq_dec Nat.eq_dec i o then RtoC 1 else RtoC 0)).
  set (i := repeat 0%nat j ++ l :: repeat 0%nat (length sh - S j)).
  assert (Li : length i = length sh) by (unfold i; rewrite app_length, repeat_length; cbn [length]; rewrite repeat_length; lia).
  assert (Ij : nth j i 0%nat = l) by (unfold i; rewrite app_nth2 by (rewrite repeat_length; lia); rewrite repeat_length, Nat.sub_diag; reflexivity).
  assert (Io : forall k, k <> j -> nth k i 0%nat = 0%nat).
  { intros k Hk. unfold i. destruct (lt_dec k j) as [Hlt|Hge]; [rewrite app_nth1 by (rewrite repeat_length; lia); apply nth_repeat0|]. rewrite app_nth2 by (rewrite repeat_length; lia). rewrite repeat_length. replace (k - j)%nat with (S (k - j - 1))%nat by lia. cbn [nth]. apply nth_repeat0. }
  assert (Ii : inb i sh).
  { apply (F2_of_nth lt 0%nat 0%nat); [exact Li|]. intros k Hk. destruct (Nat.eq_dec k j) as [->|Hne]; [rewrite Ij; exact Hln|]. rewrite Io by exact Hne. rewrite Forall_forall in Hpos. apply Hpos, nth_In. lia. }
  destruct (proj2 (f_returns x) H3) as (u & Eu). set (ls := zipw Nat.div sh ps). assert (Ls : length ls = length sh) by (apply zipw_length; symmetry; exact Lp).
  exists x. eexists. exists u, i. split; [reflexivity|]. split; [unfold run_sharded; change (tshape x) with sh; fold ls; rewrite no_err by lia; reflexivity|]. split; [exact Eu|]. split; [exact Ii|]. split.
  - cbn [tget]. set (bk := block ls x (zipw Nat.div i ls)). destruct (split3 ls ltac:(lia)) as (lb & ns & El & Hn). destruct (f_eq bk lb ns Hn El) as (v & Ev & Sv & Gv). rewrite Ev.
    assert (Lm : length (zipw Nat.modulo i ls) = length ls) by (rewrite zipw_length; lia). rewrite <- (firstn_skipn (length lb) (zipw Nat.modulo i ls)). rewrite Gv by (rewrite firstn_length, Lm, El, app_length; lia).
    apply tr_zero. intros z Hz. apply inb_length in Hz. unfold bk, block, x. cbn [tget]. match goal with |- context [list_eq_dec Nat.eq_dec ?a o] => set (w := a); destruct (list_eq_dec Nat.eq_dec w o) as [E|]; [exfalso|reflexivity] end.
    assert (Lz : length (firstn (length lb) (zipw Nat.modulo i ls) ++ z) = length ls) by (rewrite app_length, firstn_length, Lm, El, app_length; lia).
    assert (X : nth j w 0%nat = 0%nat) by (rewrite E; apply nth_repeat0). unfold w in X. rewrite zipw_nth in X by (rewrite ?zipw_length; rewrite ?zipw_length; lia). rewrite zipw_nth in X by (rewrite ?zipw_length; lia). rewrite zipw_nth in X by lia.
    rewrite Ij in X. unfold ls in X. rewrite !zipw_nth in X by lia. fold n p l in X. rewrite Nat.div_same in X by lia. lia.
  - destruct (split3 sh H3) as (bs & ns & Es & Hn). destruct (f_eq x bs ns Hn Es) as (u' & Eu' & Su & Gu). rewrite Eu in Eu'. injection Eu' as <-.
    assert (Lbn : length sh = (length bs + 3)%nat) by (rewrite Es, app_length, Hn; reflexivity).
    rewrite <- (firstn_skipn (length bs) i). rewrite Gu by (rewrite firstn_length; lia). rewrite Es in Ii. destruct (split_index _ _ _ Ii) as (b & g & Ei & Hb & Hg). pose proof (inb_length _ _ Hb) as Lb.
    assert (Eb : b = repeat 0%nat (length bs)).
    { apply (nth_ext _ _ 0%nat 0%nat); [rewrite repeat_length; exact Lb|]. intros k Hk. rewrite nth_repeat0, <- (app_nth1 b g 0%nat Hk), <- Ei. apply Io. lia. }
    rewrite Ei, firstn_app_len, skipn_app_len by exact Lb. intros X. apply (tr_delta ns g Hg). etransitivity; [|exact X]. apply tr_ext. intros z Hz. apply inb_length in Hz. unfold x. cbn [tget].
    assert (Eo : o = b ++ repeat 0%nat (length ns)) by (unfold o; rewrite Eb, <- repeat_app, <- app_length, <- Es; reflexivity). rewrite Eo.
    destruct (list_eq_dec Nat.eq_dec z (repeat 0%nat (length ns))) as [Z|Hne]; destruct (list_eq_dec Nat.eq_dec (b ++ z) (b ++ repeat 0%nat (length ns))) as [E|N]; try reflexivity; [contradiction N; rewrite Z; reflexivity|apply app_inv_head in E; contradiction].
Qed.
End Rules.
