(** How the matrix of projector strengths is read (C67). *)
From Coq Require Import Reals List Arith.
From Verif Require Import Base NlocModel.
Import ListNotations.

Lemma matrix_entry : forall (D : list (list R)) i j row x, nth_error D i = Some row -> nth_error row j = Some x -> mat D i j = x.
Proof. intros D i j row x Hi Hj. unfold mat. rewrite (nth_error_nth _ _ [] Hi). apply (nth_error_nth _ _ 0%R Hj). Qed.
