(** What is raised for an augmentation whose numbers are missing (C142). *)
From Coq Require Import Reals Ascii String List Arith ZArith Bool.
From Verif Require Import Base UpfModel UpfSpec UpfSpec2 UpfProofs UpfProofs2 UpfProofs3 UpfProofs4 UpfProofs6.
Import ListNotations.
Local Open Scope nat_scope.

Lemma missing_number pi pf e beta dij a : numbered e "PP_BETA" (says_beta pf) beta -> optional e "PP_DIJ" (has_numbers pf) dij -> has_section e "PP_AUGMENTATION" a ->
  (has_attribute a "nqf" None -> parse_pp_nonlocal pi pf e = Err TypeErr) /\
  (has_integer pi a "nqf" -> has_attribute a "nqlc" None -> parse_pp_nonlocal pi pf e = Err TypeErr) /\
  (forall t, has_attribute a "nqf" (Some t) -> pi t = None -> parse_pp_nonlocal pi pf e = Err ValueErr) /\
  (forall t, has_integer pi a "nqf" -> has_attribute a "nqlc" (Some t) -> pi t = None -> parse_pp_nonlocal pi pf e = Err ValueErr).
Proof.
  intros H1 H2 H3. rewrite nonlocal_alt. apply (numbered_iff (parse_beta pf)) in H1; [|intros; apply beta_iff]. apply (optional_iff (fun c => floats pf (Some c))) in H2; [|intros; apply floats_iff].
  rewrite H1. cbn [bind]. rewrite H2. cbn [bind]. apply child_iff in H3. rewrite H3. unfold parse_aug. cbv zeta. split; [|split; [|split]].
  - intros H. apply attr_iff in H. unfold int_attr at 1. rewrite H. reflexivity.
  - intros Hi H. apply integer_iff in Hi. destruct Hi as [z Hz]. rewrite Hz. cbn [bind]. apply attr_iff in H. unfold int_attr at 1. rewrite H. reflexivity.
  - intros t H Hp. apply attr_iff in H. unfold int_attr at 1. rewrite H. unfold of_text. rewrite Hp. reflexivity.
  - intros t Hi H Hp. apply integer_iff in Hi. destruct Hi as [z Hz]. rewrite Hz. cbn [bind]. apply attr_iff in H. unfold int_attr at 1. rewrite H. unfold of_text. rewrite Hp. reflexivity.
Qed.
