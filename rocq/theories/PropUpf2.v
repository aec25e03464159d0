(** C142: what is read from a pseudopotential file. *)
From Coq Require Import Reals Lra Lia Ascii String List Arith ZArith Bool.
From Verif Require Import Base Tensor UpfModel UpfSpec UpfSpec2 UpfProofs UpfProofs2 UpfProofs3 UpfProofs4 UpfProofs6 UpfProofs8.
Import ListNotations.
Local Open Scope nat_scope.

(** C142.  The reader returns [u] exactly if [u] is what the file says, section by section; in particular
    it returns exactly if every section it needs is there and readable. *)
Theorem C142_file : forall pi pf root u, parse_upf pi pf root = Ok u <-> says_file pi pf root u.
Proof. exact file_iff. Qed.
Print Assumptions C142_file.
(** The nonlocal section, with the augmentation of an ultrasoft file. *)
Theorem C142_nonlocal : forall pi pf e n, parse_pp_nonlocal pi pf e = Ok n <-> says_nonlocal pi pf e n.
Proof. exact nonlocal_iff. Qed.
Print Assumptions C142_nonlocal.
(** An augmentation without one of its two integers raises TypeError; one where it is not the text of
    an integer raises ValueError. *)
Theorem C142_missing_number : forall pi pf e beta dij a, numbered e "PP_BETA" (says_beta pf) beta -> optional e "PP_DIJ" (has_numbers pf) dij -> has_section e "PP_AUGMENTATION" a ->
  (has_attribute a "nqf" None -> parse_pp_nonlocal pi pf e = Err TypeErr) /\
  (has_integer pi a "nqf" -> has_attribute a "nqlc" None -> parse_pp_nonlocal pi pf e = Err TypeErr) /\
  (forall t, has_attribute a "nqf" (Some t) -> pi t = None -> parse_pp_nonlocal pi pf e = Err ValueErr) /\
  (forall t, has_integer pi a "nqf" -> has_attribute a "nqlc" (Some t) -> pi t = None -> parse_pp_nonlocal pi pf e = Err ValueErr).
Proof. exact missing_number. Qed.
Print Assumptions C142_missing_number.
Example C142_missing_number_example : forall pi pf, let a := El "PP_AUGMENTATION" [("q_with_l", "T")]%string None [] in let e := El "PP_NONLOCAL" [] None [a] in
  numbered e "PP_BETA" (says_beta pf) None /\ optional e "PP_DIJ" (has_numbers pf) None /\ has_section e "PP_AUGMENTATION" a /\ has_attribute a "nqf" None /\ parse_pp_nonlocal pi pf e = Err TypeErr.
Proof.
  intros pi pf a e. split; [exists []; split; [constructor; [intros (r & H); discriminate H|constructor]|reflexivity]|]. split; [intros d [<-|[]]; discriminate|].
  split; [exists [], []; split; [reflexivity|]; split; [reflexivity|intros d []]|]. split; [intros kv [<-|[]]; discriminate|reflexivity].
Qed.
(** The ten leading lines of the description and its last line. *)
Theorem C142_info : forall pi pf text i, parse_pp_info pi pf text = Ok i -> says_info text i.
Proof. exact info_says. Qed.
Print Assumptions C142_info.

(** Numbers are separated by spaces, tabs and line breaks of every kind (and the four separator
    characters). *)
Theorem C142_spaces : forall a, is_space a = true <-> In (nat_of_ascii a) [9; 10; 11; 12; 13; 28; 29; 30; 31; 32].
Proof. exact spaces. Qed.
Print Assumptions C142_spaces.

(** A file with two projectors is read; an ultrasoft section with one function, its two indices apart. *)
Example C142_example : exists u, says_file pi1 pf1 two_upf u.
Proof. destruct two_created as (u & c & H & _). exists u. apply file_iff. exact H. Qed.
Example C142_example_ultrasoft : let q := El "PP_QIJ.1.2" [("first_index", "1"); ("second_index", "2"); ("angular_momentum", "0")]%string (Some "3.0 4.0"%string) [] in
  let a := El "PP_AUGMENTATION" [("q_with_l", "T"); ("nqf", "1"); ("nqlc", "0")]%string None [q] in
  exists n g, parse_pp_nonlocal (fun _ => Some 1%Z) (fun _ => Some 2%R) (El "PP_NONLOCAL" [] None [a]) = Ok n /\ n_beta n = None /\ n_aug n = Some g /\ a_with_l g = true /\ a_q g = None /\
    option_map (map q_first) (a_qij g) = Some [Some "1"%string] /\ option_map (map q_second) (a_qij g) = Some [Some "2"%string].
Proof. cbv zeta. eexists. eexists. split; [reflexivity|]. repeat split. Qed.
