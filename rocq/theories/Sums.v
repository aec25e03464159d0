(** Finite sums over lists, in R and in C, and the lemmas used about them. *)
From Coq Require Import List Reals Lra Lia Permutation.
From Coquelicot Require Import Complex.
Import ListNotations.
Local Open Scope R_scope.

Section RSum.
Context {X : Type}.

(** [sumR l f] is the sum of [f x] for [x] in the list [l]. *)
Fixpoint sumR (l : list X) (f : X -> R) : R :=
  match l with [] => 0 | x :: l' => f x + sumR l' f end.

Lemma sumR_ext l f g : (forall x, In x l -> f x = g x) -> sumR l f = sumR l g.
Proof.
  induction l as [|a l IH]; simpl; intros H; [reflexivity|].
  rewrite (H a), IH; auto.
Qed.

Lemma sumR_app l1 l2 f : sumR (l1 ++ l2) f = sumR l1 f + sumR l2 f.
Proof. induction l1 as [|a l IH]; simpl; [ring| rewrite IH; ring]. Qed.

Lemma sumR_0 l : sumR l (fun _ => 0) = 0.
Proof. induction l as [|a l IH]; simpl; [reflexivity| rewrite IH; ring]. Qed.

Lemma sumR_zero l f : (forall x, In x l -> f x = 0) -> sumR l f = 0.
Proof. intros H. rewrite (sumR_ext l f (fun _ => 0) H). apply sumR_0. Qed.

Lemma sumR_plus l f g : sumR l (fun x => f x + g x) = sumR l f + sumR l g.
Proof. induction l as [|a l IH]; simpl; [ring| rewrite IH; ring]. Qed.

Lemma sumR_opp l f : sumR l (fun x => - f x) = - sumR l f.
Proof. induction l as [|a l IH]; simpl; [ring| rewrite IH; ring]. Qed.

Lemma sumR_minus l f g : sumR l (fun x => f x - g x) = sumR l f - sumR l g.
Proof. induction l as [|a l IH]; simpl; [ring| rewrite IH; ring]. Qed.

Lemma sumR_scal l c f : sumR l (fun x => c * f x) = c * sumR l f.
Proof. induction l as [|a l IH]; simpl; [ring| rewrite IH; ring]. Qed.

Lemma sumR_scal_r l c f : sumR l (fun x => f x * c) = sumR l f * c.
Proof. induction l as [|a l IH]; simpl; [ring| rewrite IH; ring]. Qed.

Lemma sumR_const l c : sumR l (fun _ => c) = INR (length l) * c.
Proof.
  induction l as [|a l IH]; [simpl; ring|].
  cbn [sumR length]. rewrite IH, S_INR. ring.
Qed.

Lemma sumR_nonneg l f : (forall x, In x l -> 0 <= f x) -> 0 <= sumR l f.
Proof.
  induction l as [|a l IH]; simpl; intros H; [lra|].
  pose proof (H a (or_introl eq_refl)). assert (0 <= sumR l f) by (apply IH; auto). lra.
Qed.

Lemma sumR_le l f g : (forall x, In x l -> f x <= g x) -> sumR l f <= sumR l g.
Proof.
  induction l as [|a l IH]; simpl; intros H; [lra|].
  pose proof (H a (or_introl eq_refl)).
  assert (sumR l f <= sumR l g) by (apply IH; auto). lra.
Qed.

Lemma sumR_nonneg_zero l f :
  (forall x, In x l -> 0 <= f x) -> sumR l f = 0 -> forall x, In x l -> f x = 0.
Proof.
  induction l as [|a l IH]; simpl; intros H H0 x Hx; [contradiction|].
  assert (0 <= sumR l f) by (apply sumR_nonneg; auto).
  pose proof (H a (or_introl eq_refl)).
  destruct Hx as [<-|Hx]; [lra|]. apply IH; auto. lra.
Qed.

Lemma sumR_ge_term l f x :
  (forall y, In y l -> 0 <= f y) -> In x l -> f x <= sumR l f.
Proof.
  induction l as [|a l IH]; simpl; intros H Hx; [contradiction|].
  assert (0 <= sumR l f) by (apply sumR_nonneg; auto).
  pose proof (H a (or_introl eq_refl)).
  destruct Hx as [<-|Hx]; [lra|]. assert (f x <= sumR l f) by (apply IH; auto). lra.
Qed.

Lemma sumR_perm l l' f : Permutation l l' -> sumR l f = sumR l' f.
Proof. induction 1; simpl; lra. Qed.

Lemma sumR_filter l p f :
  sumR (filter p l) f = sumR l (fun x => if p x then f x else 0).
Proof.
  induction l as [|a l IH]; simpl; [reflexivity|].
  destruct (p a); simpl; rewrite IH; ring.
Qed.
End RSum.

Lemma sumR_map {X Y} (h : X -> Y) l f : sumR (map h l) f = sumR l (fun x => f (h x)).
Proof. induction l as [|a l IH]; simpl; [reflexivity| rewrite IH; reflexivity]. Qed.

Lemma sumR_flat_map {X Y} (h : X -> list Y) l f :
  sumR (flat_map h l) f = sumR l (fun x => sumR (h x) f).
Proof.
  induction l as [|a l IH]; simpl; [reflexivity|].
  rewrite sumR_app, IH. reflexivity.
Qed.

Lemma sumR_swap {X Y} (l : list X) (m : list Y) f :
  sumR l (fun x => sumR m (f x)) = sumR m (fun y => sumR l (fun x => f x y)).
Proof.
  induction l as [|a l IH]; simpl.
  - symmetry. apply sumR_0.
  - rewrite IH, sumR_plus. reflexivity.
Qed.

(** A sum with at most one nonzero term, at [x0]. *)
Lemma sumR_single {X} (l : list X) x0 f :
  NoDup l -> In x0 l -> (forall x, In x l -> x <> x0 -> f x = 0) -> sumR l f = f x0.
Proof.
  induction l as [|a l IH]; simpl; intros Hn Hin H; [contradiction|].
  inversion Hn as [|a' l' Ha Hl]; subst.
  destruct Hin as [->|Hin].
  - rewrite (sumR_zero l); [ring|]. intros x Hx. apply H; auto.
    intros ->. contradiction.
  - rewrite IH; auto. rewrite H; [ring|auto|]. intros ->. contradiction.
Qed.


Local Open Scope C_scope.

Section CSum.
Context {X : Type}.

(** [sumC l f] is the complex sum of [f x] for [x] in the list [l]. *)
Fixpoint sumC (l : list X) (f : X -> C) : C :=
  match l with [] => 0 | x :: l' => f x + sumC l' f end.

Lemma sumC_ext l (f g : X -> C) : (forall x, In x l -> f x = g x) -> sumC l f = sumC l g.
Proof.
  induction l as [|a l IH]; simpl; intros H; [reflexivity|].
  rewrite (H a), IH; auto.
Qed.

Lemma sumC_app l1 l2 (f : X -> C) : sumC (l1 ++ l2) f = sumC l1 f + sumC l2 f.
Proof. induction l1 as [|a l IH]; simpl; [ring| rewrite IH; ring]. Qed.

Lemma sumC_0 l : sumC l (fun _ => RtoC 0) = 0.
Proof. induction l as [|a l IH]; simpl; [reflexivity| rewrite IH; ring]. Qed.

Lemma sumC_zero l (f : X -> C) : (forall x, In x l -> f x = 0) -> sumC l f = 0.
Proof. intros H. rewrite (sumC_ext l f (fun _ => RtoC 0) H). apply sumC_0. Qed.

Lemma sumC_plus l (f g : X -> C) : sumC l (fun x => f x + g x) = sumC l f + sumC l g.
Proof. induction l as [|a l IH]; simpl; [ring| rewrite IH; ring]. Qed.

Lemma sumC_opp l (f : X -> C) : sumC l (fun x => - f x) = - sumC l f.
Proof. induction l as [|a l IH]; simpl; [ring| rewrite IH; ring]. Qed.

Lemma sumC_minus l (f g : X -> C) : sumC l (fun x => f x - g x) = sumC l f - sumC l g.
Proof. induction l as [|a l IH]; simpl; [ring| rewrite IH; ring]. Qed.

Lemma sumC_scal l (c : C) (f : X -> C) : sumC l (fun x => c * f x) = c * sumC l f.
Proof. induction l as [|a l IH]; simpl; [ring| rewrite IH; ring]. Qed.

Lemma sumC_scal_r l (c : C) (f : X -> C) : sumC l (fun x => f x * c) = sumC l f * c.
Proof. induction l as [|a l IH]; simpl; [ring| rewrite IH; ring]. Qed.

Lemma sumC_const l (c : C) : sumC l (fun _ => c) = RtoC (INR (length l)) * c.
Proof.
  induction l as [|a l IH]; [simpl; ring|].
  cbn [sumC length]. rewrite IH, S_INR, RtoC_plus. ring.
Qed.

Lemma sumC_perm l l' (f : X -> C) : Permutation l l' -> sumC l f = sumC l' f.
Proof. induction 1; simpl; try congruence; try ring. Qed.

Lemma sumC_filter l p (f : X -> C) :
  sumC (filter p l) f = sumC l (fun x => if p x then f x else 0).
Proof.
  induction l as [|a l IH]; simpl; [reflexivity|].
  destruct (p a); simpl; rewrite IH; ring.
Qed.

Lemma Re_sumC l (f : X -> C) : Re (sumC l f) = sumR l (fun x => Re (f x)).
Proof. induction l as [|a l IH]; simpl; [reflexivity|]. rewrite <- IH. reflexivity. Qed.

Lemma Im_sumC l (f : X -> C) : Im (sumC l f) = sumR l (fun x => Im (f x)).
Proof. induction l as [|a l IH]; simpl; [reflexivity|]. rewrite <- IH. reflexivity. Qed.

Lemma sumC_RtoC l (f : X -> R) : sumC l (fun x => RtoC (f x)) = RtoC (sumR l f).
Proof. induction l as [|a l IH]; simpl; [reflexivity|]. rewrite IH, RtoC_plus. reflexivity. Qed.
End CSum.

Lemma sumC_map {X Y} (h : X -> Y) l (f : Y -> C) : sumC (map h l) f = sumC l (fun x => f (h x)).
Proof. induction l as [|a l IH]; simpl; [reflexivity| rewrite IH; reflexivity]. Qed.

Lemma sumC_flat_map {X Y} (h : X -> list Y) l (f : Y -> C) :
  sumC (flat_map h l) f = sumC l (fun x => sumC (h x) f).
Proof.
  induction l as [|a l IH]; simpl; [reflexivity|].
  rewrite sumC_app, IH. reflexivity.
Qed.

Lemma sumC_swap {X Y} (l : list X) (m : list Y) (f : X -> Y -> C) :
  sumC l (fun x => sumC m (f x)) = sumC m (fun y => sumC l (fun x => f x y)).
Proof.
  induction l as [|a l IH]; simpl.
  - symmetry. apply sumC_0.
  - rewrite IH, sumC_plus. reflexivity.
Qed.

Lemma sumC_single {X} (l : list X) x0 (f : X -> C) :
  NoDup l -> In x0 l -> (forall x, In x l -> x <> x0 -> f x = 0) -> sumC l f = f x0.
Proof.
  induction l as [|a l IH]; simpl; intros Hn Hin H; [contradiction|].
  inversion Hn as [|a' l' Ha Hl]; subst.
  destruct Hin as [->|Hin].
  - rewrite (sumC_zero l); [ring|]. intros x Hx. apply H; auto.
    intros ->. contradiction.
  - rewrite IH; auto. rewrite H; [ring|auto|]. intros ->. contradiction.
Qed.

Lemma sumC_mult {X Y} (l : list X) (m : list Y) (f : X -> C) (g : Y -> C) :
  sumC l f * sumC m g = sumC l (fun x => sumC m (fun y => f x * g y)).
Proof.
  rewrite <- sumC_scal_r. apply sumC_ext. intros x _. rewrite sumC_scal. reflexivity.
Qed.

(** Conjugation. *)
Lemma Cconj_plus a b : Cconj (a + b) = Cconj a + Cconj b.
Proof. unfold Cconj, Cplus; simpl. apply injective_projections; simpl; ring. Qed.
Lemma Cconj_mult a b : Cconj (a * b) = Cconj a * Cconj b.
Proof. unfold Cconj, Cmult; simpl. apply injective_projections; simpl; ring. Qed.
Lemma Cconj_opp a : Cconj (- a) = - Cconj a.
Proof. unfold Cconj, Copp; simpl. apply injective_projections; simpl; ring. Qed.
Lemma Cconj_minus a b : Cconj (a - b) = Cconj a - Cconj b.
Proof. unfold Cminus. rewrite Cconj_plus, Cconj_opp. reflexivity. Qed.
Lemma Cconj_conj a : Cconj (Cconj a) = a.
Proof. destruct a as [x y]. unfold Cconj; simpl. f_equal. ring. Qed.
Lemma Cconj_R (r : R) : Cconj (RtoC r) = RtoC r.
Proof. unfold Cconj, RtoC; simpl. f_equal. ring. Qed.
Lemma Cconj_sum {X} (l : list X) (f : X -> C) : Cconj (sumC l f) = sumC l (fun x => Cconj (f x)).
Proof.
  induction l as [|a l IH]; simpl; [apply Cconj_R|]. rewrite Cconj_plus, IH. reflexivity.
Qed.
(** |z|^2 as a real number. *)
Definition Cnorm2 (z : C) : R := (fst z * fst z + snd z * snd z)%R.
Lemma Cconj_mult_self z : Cconj z * z = RtoC (Cnorm2 z).
Proof.
  destruct z as [x y]. unfold Cconj, Cmult, RtoC, Cnorm2; simpl.
  apply injective_projections; simpl; ring.
Qed.
Lemma Cnorm2_nonneg z : (0 <= Cnorm2 z)%R.
Proof. destruct z as [x y]; unfold Cnorm2; simpl. nra. Qed.
Lemma Cnorm2_mult a b : Cnorm2 (a * b) = (Cnorm2 a * Cnorm2 b)%R.
Proof. destruct a as [x y], b as [u v]; unfold Cnorm2; simpl. ring. Qed.
Lemma Cnorm2_Cmod z : Cnorm2 z = (Cmod z * Cmod z)%R.
Proof.
  unfold Cmod. rewrite sqrt_sqrt; [unfold Cnorm2; ring|].
  destruct z as [x y]; simpl; nra.
Qed.
Lemma Cnorm2_zero z : Cnorm2 z = 0%R <-> z = 0.
Proof.
  destruct z as [x y]; unfold Cnorm2; simpl. split.
  - intros H. assert (x = 0)%R by nra. assert (y = 0)%R by nra. subst. reflexivity.
  - intros H. injection H as -> ->. ring.
Qed.
