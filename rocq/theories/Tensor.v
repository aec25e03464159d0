(** Arrays: a shape and an entry function on multi-indices, with the numpy/jax
    operations the modelled code uses (definitions and basic lemmas). *)
From Coq Require Import List Arith ZArith Lia Reals Permutation Bool.
From Coquelicot Require Import Complex.
From Verif Require Import Base Sums.
Import ListNotations.
Local Open Scope nat_scope.

(** All multi-indices of an array of shape [sh], in row-major (C) order. *)
Fixpoint indices (sh : list nat) : list (list nat) :=
  match sh with
  | [] => [[]]
  | n :: sh' => flat_map (fun i => map (cons i) (indices sh')) (seq 0 n)
  end.

(** Number of entries: numpy.prod(shape). *)
Fixpoint nprod (sh : list nat) : nat :=
  match sh with [] => 1 | n :: sh' => n * nprod sh' end.

Record tensor (A : Type) := mkT { tshape : list nat; tget : list nat -> A }.
Arguments mkT {A}. Arguments tshape {A}. Arguments tget {A}.

(** Valid index of a shape. *)
Definition inb (i sh : list nat) : Prop := Forall2 lt i sh.

(** Two arrays are equal: same shape, same entries. *)
Definition teq {A} (a b : tensor A) : Prop :=
  tshape a = tshape b /\ forall i, inb i (tshape a) -> tget a i = tget b i.

Definition tmap {A B} (f : A -> B) (t : tensor A) : tensor B :=
  mkT (tshape t) (fun i => f (tget t i)).

(** numpy broadcasting of two shapes, on reversed shapes. *)
Fixpoint bshape_rev (a b : list nat) : option (list nat) :=
  match a, b with
  | [], _ => Some b
  | _, [] => Some a
  | x :: a', y :: b' =>
      match bshape_rev a' b' with
      | None => None
      | Some s => if x =? y then Some (x :: s)
                  else if x =? 1 then Some (y :: s)
                  else if y =? 1 then Some (x :: s)
                  else None
      end
  end.
Definition bshape (a b : list nat) : option (list nat) :=
  option_map (@rev nat) (bshape_rev (rev a) (rev b)).

(** Index into an operand of shape [sh] that was broadcast to the (longer) index [i]:
    leading axes are dropped, axes of length 1 are read at 0. *)
Fixpoint clip1 (sh i : list nat) : list nat :=
  match sh, i with
  | n :: sh', k :: i' => (if n =? 1 then 0 else k) :: clip1 sh' i'
  | _, _ => []
  end.
Definition bidx (sh i : list nat) : list nat :=
  clip1 sh (skipn (length i - length sh) i).

(** Elementwise binary operation with broadcasting; incompatible shapes raise
    (numpy raises ValueError, jax TypeError: both are ValueErr here). *)
Definition tzip {A B D} (f : A -> B -> D) (a : tensor A) (b : tensor B) : res (tensor D) :=
  match bshape (tshape a) (tshape b) with
  | None => Err ValueErr
  | Some s => Ok (mkT s (fun i => f (tget a (bidx (tshape a) i)) (tget b (bidx (tshape b) i))))
  end.

(** Sum over axis 0. *)
Definition tsum0 (t : tensor C) : tensor C :=
  match tshape t with
  | [] => t
  | n :: sh => mkT sh (fun i => sumC (seq 0 n) (fun k => tget t (k :: i)))
  end.

(** Sum of all entries. *)
Definition tsum_all (t : tensor C) : C := sumC (indices (tshape t)) (tget t).

Definition ndim {A} (t : tensor A) : nat := length (tshape t).

(** ** Lemmas *)

Lemma in_indices sh i : In i (indices sh) <-> inb i sh.
Proof.
  revert i. induction sh as [|n sh IH]; intros i; simpl.
  - split.
    + intros [<-|[]]. constructor.
    + intros H. inversion H. auto.
  - rewrite in_flat_map. split.
    + intros [k [Hk Hi]]. apply in_seq in Hk. apply in_map_iff in Hi.
      destruct Hi as [r [<- Hr]]. constructor; [lia|]. apply IH. exact Hr.
    + intros H. inversion H as [|k m r sh' Hk Hr]; subst.
      exists k. split; [apply in_seq; lia|]. apply in_map. apply IH. exact Hr.
Qed.

Lemma NoDup_flat_map_disjoint {A B} (f : A -> list B) (l : list A) :
  NoDup l -> (forall a, In a l -> NoDup (f a)) ->
  (forall a b x, In a l -> In b l -> In x (f a) -> In x (f b) -> a = b) ->
  NoDup (flat_map f l).
Proof.
  induction l as [|a l IH]; simpl; intros Hn Hf Hd; [constructor|].
  inversion Hn as [|a' l' Ha Hl]; subst.
  assert (IHl : NoDup (flat_map f l)).
  { apply IH; auto. intros; eapply Hd; eauto. }
  clear IH.
  assert (Hfa := Hf a (or_introl eq_refl)).
  assert (Hdis : forall x, In x (f a) -> ~ In x (flat_map f l)).
  { intros x Hx Hx'. apply in_flat_map in Hx'. destruct Hx' as [b [Hb Hxb]].
    assert (a = b) by (eapply Hd; eauto). subst. contradiction. }
  induction (f a) as [|y ys IHy]; simpl; [exact IHl|].
  inversion Hfa; subst. constructor.
  - rewrite in_app_iff. intros [H|H]; [contradiction|]. exact (Hdis y (or_introl eq_refl) H).
  - apply IHy; auto. intros x Hx. apply Hdis. right. exact Hx.
Qed.

Lemma NoDup_indices sh : NoDup (indices sh).
Proof.
  induction sh as [|n sh IH]; simpl; [constructor; [auto|constructor]|].
  apply NoDup_flat_map_disjoint.
  - apply seq_NoDup.
  - intros a _. apply FinFun.Injective_map_NoDup; [|exact IH].
    intros x y H. injection H. auto.
  - intros a b x _ _ Ha Hb. apply in_map_iff in Ha. apply in_map_iff in Hb.
    destruct Ha as [r [<- _]]. destruct Hb as [r' [H _]]. injection H. auto.
Qed.

Lemma length_indices sh : length (indices sh) = nprod sh.
Proof.
  induction sh as [|n sh IH]; [reflexivity|]. cbn [indices nprod].
  assert (H : forall s, length (flat_map (fun i => map (cons i) (indices sh)) (seq s n)) = (n * nprod sh)%nat).
  { induction n as [|n IHn]; intros s; simpl; [reflexivity|].
    rewrite app_length, map_length, IH, IHn. reflexivity. }
  apply H.
Qed.

Lemma inb_length i sh : inb i sh -> length i = length sh.
Proof. induction 1; simpl; auto. Qed.

Lemma inb_app i j s t : inb i s -> inb j t -> inb (i ++ j) (s ++ t).
Proof. apply Forall2_app. Qed.

Lemma inb_app_inv i j s t : length i = length s -> inb (i ++ j) (s ++ t) -> inb i s /\ inb j t.
Proof.
  revert s. induction i as [|a i IH]; intros [|b s]; simpl; intros Hl H; try discriminate.
  - split; [constructor|exact H].
  - inversion H; subst. injection Hl as Hl. destruct (IH s Hl) as [H1 H2]; auto.
    split; auto. constructor; auto.
Qed.

Lemma inb_split i s t : inb i (s ++ t) ->
  exists a b, i = a ++ b /\ inb a s /\ inb b t.
Proof.
  intros H. apply Forall2_app_inv_r in H. destruct H as [a [b [Ha [Hb ->]]]].
  exists a, b. auto.
Qed.

Lemma sumC_indices_cons n sh (f : list nat -> C) :
  sumC (indices (n :: sh)) f = sumC (seq 0 n) (fun i => sumC (indices sh) (fun r => f (i :: r))).
Proof.
  cbn [indices]. rewrite sumC_flat_map. apply sumC_ext. intros i _. apply sumC_map.
Qed.

Lemma sumR_indices_cons n sh (f : list nat -> R) :
  sumR (indices (n :: sh)) f = sumR (seq 0 n) (fun i => sumR (indices sh) (fun r => f (i :: r))).
Proof.
  cbn [indices]. rewrite sumR_flat_map. apply sumR_ext. intros i _. apply sumR_map.
Qed.

Lemma sumC_indices_app s t (f : list nat -> C) :
  sumC (indices (s ++ t)) f = sumC (indices s) (fun i => sumC (indices t) (fun j => f (i ++ j))).
Proof.
  revert f. induction s as [|n s IH]; intros f.
  - simpl. rewrite Cplus_0_r. reflexivity.
  - cbn [app]. rewrite !sumC_indices_cons. apply sumC_ext. intros k _. rewrite IH. reflexivity.
Qed.

Lemma sumR_indices_app s t (f : list nat -> R) :
  sumR (indices (s ++ t)) f = sumR (indices s) (fun i => sumR (indices t) (fun j => f (i ++ j))).
Proof.
  revert f. induction s as [|n s IH]; intros f.
  - simpl. rewrite Rplus_0_r. reflexivity.
  - cbn [app]. rewrite !sumR_indices_cons. apply sumR_ext. intros k _. rewrite IH. reflexivity.
Qed.

(** Broadcasting lemmas. *)
Lemma bshape_rev_refl a : bshape_rev a a = Some a.
Proof. induction a as [|x a IH]; simpl; [reflexivity|]. rewrite IH, Nat.eqb_refl. reflexivity. Qed.
Lemma bshape_refl a : bshape a a = Some a.
Proof. unfold bshape. rewrite bshape_rev_refl. simpl. rewrite rev_involutive. reflexivity. Qed.
Lemma clip1_inb sh i : inb i sh -> clip1 sh i = i.
Proof.
  intros H. induction H as [|k n i sh Hk H IH]; simpl; [reflexivity|].
  rewrite IH. destruct (Nat.eqb_spec n 1); [f_equal; lia|reflexivity].
Qed.
Lemma bidx_inb sh i : inb i sh -> bidx sh i = i.
Proof.
  intros H. unfold bidx. rewrite (inb_length _ _ H), Nat.sub_diag. simpl. apply clip1_inb. exact H.
Qed.
Lemma bidx_suffix sh b i : inb i sh -> bidx sh (b ++ i) = i.
Proof.
  intros H. unfold bidx. rewrite app_length, (inb_length _ _ H).
  replace (length b + length sh - length sh)%nat with (length b) by lia.
  rewrite skipn_app, Nat.sub_diag, skipn_all. simpl. apply clip1_inb. exact H.
Qed.
Lemma bshape_rev_prefix a b : bshape_rev (a ++ b) a = Some (a ++ b).
Proof. induction a as [|x a IH]; simpl; [destruct b; reflexivity|]. rewrite IH, Nat.eqb_refl. reflexivity. Qed.
Lemma bshape_rev_prefix2 a b : bshape_rev a (a ++ b) = Some (a ++ b).
Proof. induction a as [|x a IH]; simpl; [destruct b; reflexivity|]. rewrite IH, Nat.eqb_refl. reflexivity. Qed.
(** A suffix shape broadcasts against the full shape. *)
Lemma bshape_suffix b s : bshape (b ++ s) s = Some (b ++ s).
Proof. unfold bshape. rewrite rev_app_distr, bshape_rev_prefix. simpl. rewrite rev_app_distr, !rev_involutive. reflexivity. Qed.
Lemma bshape_suffix2 b s : bshape s (b ++ s) = Some (b ++ s).
Proof. unfold bshape. rewrite rev_app_distr, bshape_rev_prefix2. simpl. rewrite rev_app_distr, !rev_involutive. reflexivity. Qed.

Lemma teq_refl {A} (a : tensor A) : teq a a.
Proof. split; auto. Qed.
