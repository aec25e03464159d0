(** Gram-Schmidt on real matrices meets the contracts of the QR decomposition (C149). *)
From Coq Require Import Reals Lra Lia.
From Coquelicot Require Import Coquelicot.
From Coq Require Import List Arith Bool.
From Verif Require Import Base Sums Tensor PwSpec OccModel OccSpec IdemSpec IdemProofs ReachSpec ReachProofs ReachProofs2.
Import ListNotations.
Local Open Scope R_scope.

Definition isreal (z : C) : Prop := snd z = 0.
Definition realv (v : vec) : Prop := forall i, isreal (v i).
Lemma isreal_RtoC x : isreal (RtoC x).
Proof. reflexivity. Qed.
Lemma isreal_mult a b : isreal a -> isreal b -> isreal (Cmult a b).
Proof. unfold isreal. destruct a as [a a'], b as [b b']. cbn. intros -> ->. ring. Qed.
Lemma isreal_minus a b : isreal a -> isreal b -> isreal (Cminus a b).
Proof. unfold isreal. destruct a as [a a'], b as [b b']. cbn. intros -> ->. ring. Qed.
Lemma isreal_plus a b : isreal a -> isreal b -> isreal (Cplus a b).
Proof. unfold isreal. destruct a as [a a'], b as [b b']. cbn. intros -> ->. ring. Qed.
Lemma isreal_conj a : isreal a -> isreal (Cconj a).
Proof. unfold isreal. destruct a as [a a']. cbn. intros ->. ring. Qed.
Lemma isreal_sum {A} (l : list A) f : (forall x, isreal (f x)) -> isreal (sumC l f).
Proof. intros H. induction l as [|a l IH]; [reflexivity|]. cbn [sumC fold_right]. apply isreal_plus; [apply H|exact IH]. Qed.
Lemma isreal_eq a : isreal a -> a = RtoC (fst a).
Proof. destruct a as [a a']. unfold isreal. cbn. intros ->. reflexivity. Qed.

Lemma real_nth qs l : (forall q, In q qs -> realv q) -> realv (nth l qs zv).
Proof. intros H. destruct (nth_in_or_default l qs zv) as [Hi| ->]; [apply H; exact Hi|intros i; reflexivity]. Qed.
Lemma real_ip M u v : realv u -> realv v -> isreal (ip M u v).
Proof. intros Hu Hv. unfold ip. apply isreal_sum. intros i. apply isreal_mult; [apply isreal_conj, Hu|apply Hv]. Qed.
Lemma real_resid M qs v : (forall q, In q qs -> realv q) -> realv v -> realv (resid M qs v).
Proof.
  intros Hq Hv i. unfold resid. apply isreal_minus; [apply Hv|]. apply isreal_sum. intros l. apply isreal_mult; [apply real_nth; exact Hq|].
  apply real_ip; [apply real_nth; exact Hq|exact Hv].
Qed.
Lemma real_axis j : realv (axis j).
Proof. intros i. unfold axis. destruct (Nat.eqb i j); reflexivity. Qed.
Lemma real_next M qs v : (forall q, In q qs -> realv q) -> realv v -> realv (next M qs v).
Proof.
  intros Hq Hv i. unfold next. cbv zeta. apply isreal_mult; [|apply isreal_RtoC].
  destruct (Req_EM_T _ _); [|apply real_resid; assumption]. destruct (find _ _); [|apply Hv]. apply real_resid; [exact Hq|apply real_axis].
Qed.
Lemma real_gs M vs : forall qs, (forall q, In q qs -> realv q) -> (forall v, In v vs -> realv v) -> forall q, In q (gs M qs vs) -> realv q.
Proof.
  induction vs as [|v vs IH]; intros qs Hq Hv; cbn [gs]; [exact Hq|]. apply IH.
  - intros q Hi. apply in_app_or in Hi. destruct Hi as [Hi|[<-|[]]]; [apply Hq; exact Hi|]. apply real_next; [exact Hq|apply Hv; left; reflexivity].
  - intros u Hu. apply Hv. right. exact Hu.
Qed.

Definition real_gs_qr (w : tensor R) : tensor R := tmap fst (gs_qr (tmap RtoC w)).
Lemma real_gs_qr_real (w : tensor R) M m i j : tshape w = [M; m] -> tget (gs_qr (tmap RtoC w)) [i; j] = RtoC (tget (real_gs_qr w) [i; j]).
Proof.
  intros Hw. unfold real_gs_qr. cbn [tmap tget]. apply isreal_eq.
  destruct (gs_qr_shape (tmap RtoC w) [] M m) as [_ G]; [exact Hw|]. pose proof (G [] i j (Forall2_nil _)) as E. cbn [app] in E.
  change (isreal (tget (gs_qr (tmap RtoC w)) [i; j])). rewrite E. apply (real_nth (gs_columns (tmap RtoC w) [] M m) j). unfold gs_columns. apply real_gs; [intros q []|].
  intros v Hv. apply in_map_iff in Hv. destruct Hv as (k & <- & _). intros n. reflexivity.
Qed.
Lemma real_gs_qr_ok : reduced_qr real_gs_qr.
Proof.
  intros w M m Hw. destruct (gs_qr_orthonormal (tmap RtoC w) [] M m Hw) as [S O]. split; [exact S|]. intros j l Hj Hl.
  apply RtoC_inj. rewrite <- sumC_RtoC. etransitivity; [|exact (O [] j l (Forall2_nil _) Hj Hl)]. apply sumC_ext. intros i _. cbn [app].
  rewrite !(real_gs_qr_real w M m) by exact Hw. rewrite Cconj_R, RtoC_mult. reflexivity.
Qed.
Lemma real_gs_qr_product : qr_product real_gs_qr.
Proof.
  intros w M m Hw. destruct (gs_qr_factors (tmap RtoC w) [] M m [] Hw (Forall2_nil _)) as (r & _ & E).
  exists (fun l j => fst (r l j)). intros i j Hi Hj. specialize (E i j Hi Hj). cbn [app tmap tget] in E.
  apply (f_equal fst) in E. cbn [fst RtoC] in E. rewrite E.
  rewrite (sumC_ext _ _ (fun l => Cmult (RtoC (tget (real_gs_qr w) [i; l])) (r l j))) by (intros l _; rewrite (real_gs_qr_real w M m) by exact Hw; reflexivity).
  clear E. induction (seq 0 (Nat.min M m)) as [|a l IH]; [reflexivity|]. cbn [sumC sumR fold_right]. rewrite <- IH. destruct (r a j) as [x y]. cbn. ring.
Qed.

(** One full and one empty band at each of two k-points: the insulator that the capped-simplex method misses. *)
Definition insulator : tensor R := mkT [2; 2; 2]%nat (fun i => if Nat.eqb (nth 2 i 0%nat) 0 then 1 / 2 else 0).
Lemma insulator_fits : tshape insulator = [2; 2; 2]%nat /\ within 0 (1 / INR 2) insulator /\ channel insulator 0 = INR 1 /\ channel insulator 1 = INR 1.
Proof.
  split; [reflexivity|]. split.
  - intros i Hi. cbn [insulator tget]. cbn [INR]. destruct (Nat.eqb _ _); lra.
  - rewrite !(channel_of insulator 2 2) by reflexivity. cbn. split; lra.
Qed.
