(** Gram-Schmidt meets the contracts of the QR decomposition (C144). *)
From Coq Require Import Reals Lra Lia.
From Coquelicot Require Import Coquelicot.
From Coq Require Import List Arith Bool.
From Verif Require Import Base Sums Tensor PwSpec ReachSpec ReachProofs.
Import ListNotations.
Local Open Scope C_scope.

Definition vec := nat -> C.
Definition zv : vec := fun _ => RtoC 0.
Definition ip (M : nat) (u v : vec) : C := sumC (seq 0 M) (fun i => Cconj (u i) * v i).
Definition nrm (M : nat) (v : vec) : R := sumR (seq 0 M) (fun i => Cnorm2 (v i)).
Definition resid (M : nat) (qs : list vec) (v : vec) : vec := fun i => v i - sumC (seq 0 (length qs)) (fun l => nth l qs zv i * ip M (nth l qs zv) v).
Definition axis (j : nat) : vec := fun i => if Nat.eqb i j then RtoC 1 else RtoC 0.
Definition outside (M : nat) (qs : list vec) (j : nat) : bool := if Req_EM_T (nrm M (resid M qs (axis j))) 0 then false else true.
Definition next (M : nat) (qs : list vec) (v : vec) : vec :=
  let r := if Req_EM_T (nrm M (resid M qs v)) 0 then match find (outside M qs) (seq 0 M) with Some j => resid M qs (axis j) | None => v end else resid M qs v in
  fun i => r i * RtoC (/ sqrt (nrm M r)).
Fixpoint gs (M : nat) (qs vs : list vec) : list vec := match vs with [] => qs | v :: vs => gs M (qs ++ [next M qs v]) vs end.

Definition orth (M : nat) (qs : list vec) : Prop := forall a b, (a < length qs)%nat -> (b < length qs)%nat -> ip M (nth a qs zv) (nth b qs zv) = RtoC (if Nat.eqb a b then 1 else 0).

Lemma ip_self M v : ip M v v = RtoC (nrm M v).
Proof. unfold ip, nrm. rewrite <- sumC_RtoC. apply sumC_ext. intros i _. apply Cconj_mult_self. Qed.
Lemma ip_conj M u v : Cconj (ip M u v) = ip M v u.
Proof. unfold ip. rewrite Cconj_sum. apply sumC_ext. intros i _. rewrite Cconj_mult, Cconj_conj. ring. Qed.
Lemma ip_resid M qs u v : ip M u (resid M qs v) = ip M u v - sumC (seq 0 (length qs)) (fun l => ip M u (nth l qs zv) * ip M (nth l qs zv) v).
Proof.
  unfold ip at 1. unfold resid. transitivity (sumC (seq 0 M) (fun i => Cconj (u i) * v i - sumC (seq 0 (length qs)) (fun l => Cconj (u i) * nth l qs zv i * ip M (nth l qs zv) v))).
  - apply sumC_ext. intros i _. rewrite (sumC_ext (seq 0 (length qs)) (fun l => Cconj (u i) * nth l qs zv i * ip M (nth l qs zv) v) (fun l => Cconj (u i) * (nth l qs zv i * ip M (nth l qs zv) v))) by (intros; ring). rewrite sumC_scal. ring.
  - rewrite sumC_minus. f_equal. rewrite sumC_swap. apply sumC_ext. intros l _. rewrite sumC_scal_r. reflexivity.
Qed.
Lemma resid_orth M qs v a : orth M qs -> (a < length qs)%nat -> ip M (nth a qs zv) (resid M qs v) = RtoC 0.
Proof.
  intros Ho Ha. rewrite ip_resid. rewrite (sumC_single (seq 0 (length qs)) a _ (seq_NoDup _ _)); [|apply in_seq; lia|].
  - rewrite (Ho a a Ha Ha), Nat.eqb_refl. ring.
  - intros l Hl Hne. apply in_seq in Hl. rewrite (Ho a l) by lia. destruct (Nat.eqb_spec a l) as [E|_]; [congruence|ring].
Qed.
Lemma nrm_resid M qs v : orth M qs -> nrm M (resid M qs v) = (nrm M v - sumR (seq 0 (length qs)) (fun l => Cnorm2 (ip M (nth l qs zv) v)))%R.
Proof.
  intros Ho. apply RtoC_inj. rewrite <- ip_self, ip_resid. rewrite (sumC_zero (seq 0 (length qs))).
  2:{ intros l Hl. apply in_seq in Hl. rewrite <- ip_conj, resid_orth by (try assumption; lia). rewrite Cconj_R. ring. }
  transitivity (Cconj (ip M v (resid M qs v))); [rewrite ip_conj; ring|]. rewrite ip_resid. unfold Cminus. rewrite Cconj_plus, Cconj_opp, Cconj_sum, ip_self, Cconj_R.
  unfold Rminus. rewrite RtoC_plus, RtoC_opp, <- sumC_RtoC. f_equal. f_equal. apply sumC_ext. intros l _. rewrite Cconj_mult, !ip_conj. rewrite <- (ip_conj M (nth l qs zv) v). apply Cconj_norm.
Qed.
Lemma ip_axis M u j : (j < M)%nat -> ip M u (axis j) = Cconj (u j).
Proof.
  intros Hj. unfold ip. rewrite (sumC_single (seq 0 M) j _ (seq_NoDup _ _)); [|apply in_seq; lia|].
  - unfold axis. rewrite Nat.eqb_refl. ring.
  - intros i _ Hne. unfold axis. destruct (Nat.eqb_spec i j) as [E|_]; [congruence|ring].
Qed.
Lemma nrm_axis M j : (j < M)%nat -> nrm M (axis j) = 1%R.
Proof. intros Hj. apply RtoC_inj. rewrite <- ip_self, ip_axis by exact Hj. unfold axis. rewrite Nat.eqb_refl. apply Cconj_R. Qed.
Lemma nrm_nonneg M v : (0 <= nrm M v)%R.
Proof. apply sumR_nonneg. intros. apply Cnorm2_nonneg. Qed.
(** Fewer than M orthonormal vectors leave one of the axes out. *)
Lemma room M qs : orth M qs -> (length qs < M)%nat -> exists j, find (outside M qs) (seq 0 M) = Some j /\ nrm M (resid M qs (axis j)) <> 0%R.
Proof.
  intros Ho Hl. destruct (find (outside M qs) (seq 0 M)) as [j|] eqn:E.
  - exists j. split; [reflexivity|]. apply find_some in E. destruct E as [_ E]. unfold outside in E. destruct (Req_EM_T _ _); [discriminate|assumption].
  - exfalso. assert (Z : forall j, In j (seq 0 M) -> nrm M (resid M qs (axis j)) = 0%R).
    { intros j Hj. pose proof (find_none _ _ E j Hj) as H. unfold outside in H. destruct (Req_EM_T _ _); [assumption|discriminate]. }
    assert (S : sumR (seq 0 M) (fun j => nrm M (resid M qs (axis j))) = (INR M - INR (length qs))%R).
    { transitivity (sumR (seq 0 M) (fun j => 1 - sumR (seq 0 (length qs)) (fun l => Cnorm2 (nth l qs zv j)))%R).
      - apply sumR_ext. intros j Hj. apply in_seq in Hj. rewrite nrm_resid, nrm_axis by (assumption || lia). f_equal. apply sumR_ext. intros l _. rewrite ip_axis by lia. destruct (nth l qs zv j) as [x y]. unfold Cnorm2, Cconj. cbn [fst snd]. ring.
      - rewrite sumR_minus, sumR_const, seq_length, Rmult_1_r. f_equal. rewrite sumR_swap. transitivity (sumR (seq 0 (length qs)) (fun _ => 1%R)); [|rewrite sumR_const, seq_length; ring].
        apply sumR_ext. intros l Hl'. apply in_seq in Hl'. apply RtoC_inj. change (sumR (seq 0 M) (fun x => Cnorm2 (nth l qs zv x))) with (nrm M (nth l qs zv)). rewrite <- ip_self, (Ho l l) by lia. rewrite Nat.eqb_refl. reflexivity. }
    rewrite (sumR_zero (seq 0 M)) in S by exact Z. apply lt_INR in Hl. lra.
Qed.
Lemma sumR_single_le M (f : nat -> R) k : (forall i, (0 <= f i)%R) -> (k < M)%nat -> (f k <= sumR (seq 0 M) f)%R.
Proof.
  intros Hf Hk. assert (Hi : In k (seq 0 M)) by (apply in_seq; lia). induction (seq 0 M) as [|a l IH]; [destruct Hi|]. cbn [sumR]. pose proof (sumR_nonneg l f (fun x _ => Hf x)) as P. pose proof (Hf a) as Pa.
  destruct Hi as [->|Hi]; [lra|]. specialize (IH Hi). lra.
Qed.
Lemma ip_scal M u (r : vec) c : ip M u (fun i => r i * c) = ip M u r * c.
Proof. unfold ip. rewrite <- sumC_scal_r. apply sumC_ext. intros i _. ring. Qed.
Lemma next_spec M qs v : orth M qs -> (length qs < M)%nat -> orth M (qs ++ [next M qs v]) /\
  forall i, v i = sumC (seq 0 (S (length qs))) (fun l => nth l (qs ++ [next M qs v]) zv i * ip M (nth l (qs ++ [next M qs v]) zv) v) \/ (M <= i)%nat.
Proof.
  intros Ho Hl. destruct (room M qs Ho Hl) as (j & Ej & Nj). unfold next. cbv zeta. set (n := length qs). rewrite Ej.
  set (r := if Req_EM_T (nrm M (resid M qs v)) 0 then resid M qs (axis j) else resid M qs v).
  assert (Nr : nrm M r <> 0%R) by (unfold r; destruct (Req_EM_T _ _); assumption). assert (Pr : (0 < sqrt (nrm M r))%R) by (apply sqrt_lt_R0; pose proof (nrm_nonneg M r); lra).
  assert (Or : forall a, (a < n)%nat -> ip M (nth a qs zv) r = RtoC 0) by (intros a Ha; unfold r; destruct (Req_EM_T _ _); apply resid_orth; assumption).
  change (orth M (qs ++ [(fun i => r i * RtoC (/ sqrt (nrm M r))) : vec]) /\ forall i, v i = sumC (seq 0 (S n)) (fun l => nth l (qs ++ [(fun i => r i * RtoC (/ sqrt (nrm M r))) : vec]) zv i * ip M (nth l (qs ++ [(fun i => r i * RtoC (/ sqrt (nrm M r))) : vec]) zv) v) \/ (M <= i)%nat).
  set (q := (fun i => r i * RtoC (/ sqrt (nrm M r))) : vec).
  assert (Oq : forall a, (a < n)%nat -> ip M (nth a qs zv) q = RtoC 0) by (intros a Ha; unfold q; rewrite ip_scal, Or by exact Ha; ring).
  assert (Oq' : forall a, (a < n)%nat -> ip M q (nth a qs zv) = RtoC 0) by (intros a Ha; rewrite <- ip_conj, Oq by exact Ha; apply Cconj_R).
  assert (Sq : forall u, ip M q u = RtoC (/ sqrt (nrm M r)) * ip M r u).
  { intros u. unfold q, ip. rewrite <- sumC_scal. apply sumC_ext. intros i _. rewrite Cconj_mult, Cconj_R. ring. }
  assert (Rr : (/ sqrt (nrm M r) * (/ sqrt (nrm M r)) * nrm M r = 1)%R).
  { rewrite <- (sqrt_sqrt (nrm M r)) at 3 by apply nrm_nonneg. field. lra. }
  assert (Nq : ip M q q = RtoC 1).
  { rewrite Sq. unfold q. rewrite ip_scal, ip_self. rewrite <- !RtoC_mult. f_equal. lra. }
  split.
  - intros a b. rewrite app_length. cbn [length]. intros Ha Hb. assert (Ca : (a < n \/ a = n)%nat) by (fold n in Ha; lia). assert (Cb : (b < n \/ b = n)%nat) by (fold n in Hb; lia).
    assert (En : nth n (qs ++ [q]) zv = q) by (rewrite app_nth2 by (fold n; lia); fold n; rewrite Nat.sub_diag; reflexivity).
    destruct Ca as [Ca|Ca], Cb as [Cb|Cb]; try rewrite (app_nth1 qs [q] zv Ca); try rewrite (app_nth1 qs [q] zv Cb); try (rewrite Ca); try (rewrite Cb); try rewrite En.
    + apply Ho; assumption.
    + rewrite Oq by exact Ca. destruct (Nat.eqb_spec a n); [lia|reflexivity].
    + rewrite Oq' by exact Cb. destruct (Nat.eqb_spec n b); [lia|reflexivity].
    + rewrite Nat.eqb_refl. exact Nq.
  - intros i. destruct (Nat.lt_ge_cases i M) as [Hi|Hi]; [left|right; exact Hi]. rewrite seq_S, sumC_app. cbn [sumC plus]. fold q. rewrite (app_nth2 qs) by (fold n; lia). fold n. rewrite Nat.sub_diag. cbn [nth].
    rewrite (sumC_ext (seq 0 n) _ (fun l => nth l qs zv i * ip M (nth l qs zv) v)) by (intros l Hl'; apply in_seq in Hl'; rewrite app_nth1 by (fold n; lia); reflexivity).
    assert (D : v i = resid M qs v i + sumC (seq 0 n) (fun l => nth l qs zv i * ip M (nth l qs zv) v)) by (unfold resid; fold n; ring).
    assert (E : resid M qs v i = q i * ip M q v); [|rewrite D at 1; rewrite E; ring].
    assert (F : ip M q v = ip M q (resid M qs v)).
    { rewrite ip_resid. rewrite (sumC_zero (seq 0 (length qs))); [ring|]. intros l Hl'. apply in_seq in Hl'. rewrite Oq' by (fold n in Hl'; lia). ring. }
    rewrite F. unfold r in *. destruct (Req_EM_T (nrm M (resid M qs v)) 0) as [Z|Z].
    + assert (Zi : forall i, (i < M)%nat -> resid M qs v i = RtoC 0).
      { intros k Hk. apply Cnorm2_zero. pose proof (Cnorm2_nonneg (resid M qs v k)) as P1. pose proof (sumR_single_le M (fun i => Cnorm2 (resid M qs v i)) k (fun i => Cnorm2_nonneg _) Hk) as P2. unfold nrm in Z. lra. }
      rewrite Zi by exact Hi. unfold ip. rewrite (sumC_zero (seq 0 M)); [ring|]. intros k Hk. apply in_seq in Hk. rewrite Zi by lia. ring.
    + rewrite Sq, ip_self. unfold q. transitivity (resid M qs v i * RtoC (/ sqrt (nrm M (resid M qs v)) * / sqrt (nrm M (resid M qs v)) * nrm M (resid M qs v))); [rewrite Rr; ring|]. rewrite !RtoC_mult. ring.
Qed.
Lemma gs_spec M vs : forall qs, orth M qs -> (length qs + length vs <= M)%nat -> exists rest, gs M qs vs = qs ++ rest /\ length rest = length vs /\ orth M (qs ++ rest) /\
  forall j i, (j < length vs)%nat -> (i < M)%nat -> nth j vs zv i = sumC (seq 0 (length qs + S j)) (fun l => nth l (qs ++ rest) zv i * ip M (nth l (qs ++ rest) zv) (nth j vs zv)).
Proof.
  induction vs as [|v vs IH]; intros qs Ho Hl; cbn [gs length] in *.
  - exists []. rewrite app_nil_r. split; [reflexivity|]. split; [reflexivity|]. split; [exact Ho|]. intros j i Hj. lia.
  - destruct (next_spec M qs v Ho ltac:(lia)) as (Ho' & Hv). set (q := next M qs v) in *. destruct (IH (qs ++ [q]) Ho') as (rest & -> & Lr & Or & Hr); [rewrite app_length; cbn [length]; lia|].
    exists (q :: rest). change (q :: rest) with ([q] ++ rest). rewrite app_assoc. split; [reflexivity|]. split; [cbn; congruence|]. split; [exact Or|]. intros [|j] i Hj Hi.
    + cbn [nth]. destruct (Hv i) as [E|E]; [|lia]. rewrite E at 1. rewrite Nat.add_1_r. apply sumC_ext. intros l Hl'. apply in_seq in Hl'. rewrite (app_nth1 (qs ++ [q])) by (rewrite app_length; cbn [length]; lia). reflexivity.
    + cbn [nth]. rewrite (Hr j i) by lia. rewrite app_length. cbn [length]. replace (length qs + 1 + S j)%nat with (length qs + S (S j))%nat by lia. reflexivity.
Qed.

Definition column (w : tensor C) (b : list nat) (j : nat) : vec := fun i => tget w (b ++ [i; j]).
Definition gs_columns (w : tensor C) (b : list nat) (M m : nat) : list vec := gs M [] (map (column w b) (seq 0 (Nat.min M m))).
Definition gs_qr (w : tensor C) : tensor C := let n := (length (tshape w) - 2)%nat in let M := nth n (tshape w) 0%nat in let m := nth (S n) (tshape w) 0%nat in
  mkT (firstn n (tshape w) ++ [M; Nat.min M m]) (fun i => nth (nth (S n) i 0%nat) (gs_columns w (firstn n i) M m) zv (nth n i 0%nat)).
Lemma gs_qr_shape w bs M m : tshape w = bs ++ [M; m] -> tshape (gs_qr w) = bs ++ [M; Nat.min M m] /\
  forall b i j, inb b bs -> tget (gs_qr w) (b ++ [i; j]) = nth j (gs_columns w b M m) zv i.
Proof.
  intros E. unfold gs_qr. rewrite E, app_length. cbn [length]. rewrite Nat.add_sub. cbn [tshape tget]. rewrite (app_nth2 bs [M; m]) by lia. rewrite (app_nth2 bs [M; m]) by lia. rewrite Nat.sub_diag. replace (S (length bs) - length bs)%nat with 1%nat by lia. cbn [nth].
  rewrite firstn_app, Nat.sub_diag, firstn_all, firstn_O, app_nil_r. split; [reflexivity|]. intros b i j Hb. pose proof (inb_length _ _ Hb) as L.
  rewrite <- L. rewrite (app_nth2 b [i; j]) by lia. rewrite (app_nth2 b [i; j]) by lia. rewrite Nat.sub_diag. replace (S (length b) - length b)%nat with 1%nat by lia. cbn [nth].
  rewrite firstn_app, Nat.sub_diag, firstn_all, firstn_O, app_nil_r. reflexivity.
Qed.
Lemma gs_columns_spec w b M m : exists qs, gs_columns w b M m = qs /\ length qs = Nat.min M m /\ orth M qs /\
  forall j i, (j < Nat.min M m)%nat -> (i < M)%nat -> tget w (b ++ [i; j]) = sumC (seq 0 (S j)) (fun l => nth l qs zv i * ip M (nth l qs zv) (fun i => tget w (b ++ [i; j]))).
Proof.
  unfold gs_columns. set (vs := map (column w b) (seq 0 (Nat.min M m))). assert (Lv : length vs = Nat.min M m) by (unfold vs; rewrite map_length, seq_length; reflexivity).
  assert (O0 : orth M []) by (intros a b' Ha; cbn in Ha; lia). assert (L0 : (length (@nil vec) + length vs <= M)%nat) by (rewrite Lv; cbn; lia).
  destruct (gs_spec M vs [] O0 L0) as (rest & -> & Lr & Or & Hr). cbn [app] in *. exists rest. split; [reflexivity|]. split; [congruence|]. split; [exact Or|].
  intros j i Hj Hi. assert (En : nth j vs zv = column w b j).
  { unfold vs. rewrite (nth_indep _ zv (column w b 0%nat)) by (rewrite map_length, seq_length; exact Hj). rewrite map_nth, seq_nth by exact Hj. reflexivity. }
  rewrite <- Lv in Hj. specialize (Hr j i Hj Hi). rewrite En in Hr. exact Hr.
Qed.
Lemma gs_qr_orthonormal : complex_qr gs_qr.
Proof.
  intros w bs M m E. destruct (gs_qr_shape w bs M m E) as (S & G). split; [exact S|]. intros b j l Hb Hj Hl. destruct (gs_columns_spec w b M m) as (qs & Eq & Lq & Oq & _).
  rewrite (sumC_ext _ _ (fun i => Cconj (nth j qs zv i) * nth l qs zv i)) by (intros i _; rewrite !G by exact Hb; rewrite Eq; reflexivity). apply Oq; lia.
Qed.
Lemma gs_qr_factors : qr_factors gs_qr.
Proof.
  intros w bs M m b E Hb. destruct (gs_qr_shape w bs M m E) as (_ & G). destruct (gs_columns_spec w b M m) as (qs & Eq & Lq & _ & Hq).
  exists (fun l j => if (j <? l)%nat then RtoC 0 else ip M (nth l qs zv) (fun i => tget w (b ++ [i; j]))). split.
  - intros l j H. apply Nat.ltb_lt in H. rewrite H. reflexivity.
  - intros i j Hi Hj. rewrite (Hq j i Hj Hi). replace (seq 0 (Nat.min M m)) with (seq 0 (S j) ++ seq (S j) (Nat.min M m - S j)) by (rewrite <- seq_app; f_equal; lia).
    rewrite sumC_app. rewrite (sumC_zero (seq (S j) _)).
    + rewrite Cplus_0_r. apply sumC_ext. intros l Hl. apply in_seq in Hl. rewrite G by exact Hb. rewrite Eq. destruct (Nat.ltb_spec j l); [lia|reflexivity].
    + intros l Hl. apply in_seq in Hl. destruct (Nat.ltb_spec j l); [ring|lia].
Qed.
