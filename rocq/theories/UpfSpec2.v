(** What a pseudopotential file says, section by section (C142). *)
From Coq Require Import Reals Ascii String List Arith ZArith Bool.
From Verif Require Import Base UpfModel.
Import ListNotations.
Local Open Scope nat_scope.

Definition attributes_of (e : elem) : list (string * string) := let 'El _ a _ _ := e in a.
(** The element [e] has the attribute [key] with the text [t] (its first occurrence), or [o] is None
    and it has no such attribute. *)
Definition has_attribute (e : elem) (key : string) (o : option string) : Prop :=
  match o with
  | Some t => exists before after, attributes_of e = before ++ (key, t) :: after /\ forall kv, In kv before -> fst kv <> key
  | None => forall kv, In kv (attributes_of e) -> fst kv <> key
  end.
(** [c] is the first section of [e] with the given name; [e] has no such section. *)
Definition has_section (e : elem) (name : string) (c : elem) : Prop :=
  exists before after, children_of e = before ++ c :: after /\ tag_of c = name /\ forall d, In d before -> tag_of d <> name.
Definition no_section (e : elem) (name : string) : Prop := forall d, In d (children_of e) -> tag_of d <> name.
(** The text of [e] is the numbers [xs]. *)
Definition has_numbers (pf : string -> option R) (e : elem) (xs : list R) : Prop :=
  exists t, text_of e = Some t /\ Forall2 (fun w x => pf w = Some x) (words t) xs.
(** [l'] is the members of [l] with [P], in order. *)
Inductive members {A} (P : A -> Prop) : list A -> list A -> Prop :=
| members_nil : members P [] []
| members_in a l l' : P a -> members P l l' -> members P (a :: l) (a :: l')
| members_out a l l' : ~ P a -> members P l l' -> members P (a :: l) l'.
Definition named (prefix : string) (e : elem) : Prop := exists rest, tag_of e = append prefix rest.
(** The sections of [e] whose name begins with [prefix], each read by [P]; None if there is none. *)
Definition numbered {A} (e : elem) (prefix : string) (P : elem -> A -> Prop) (o : option (list A)) : Prop :=
  exists cs, members (named prefix) (children_of e) cs /\
    match o with None => cs = [] | Some xs => cs <> [] /\ Forall2 P cs xs end.
(** The section, if there is one, read by [P]. *)
Definition optional {A} (e : elem) (name : string) (P : elem -> A -> Prop) (o : option A) : Prop :=
  match o with None => no_section e name | Some x => exists c, has_section e name c /\ P c x end.

Section Says.
Variables (pi : string -> option Z) (pf : string -> option R).
Definition says_beta (e : elem) (b : beta_entry) : Prop :=
  has_attribute e "angular_momentum" (b_l b) /\ has_attribute e "cutoff_radius" (b_cutoff b) /\ has_numbers pf e (b_values b).
Definition says_qij (e : elem) (q : qij_entry) : Prop :=
  has_attribute e "first_index" (q_first q) /\ has_attribute e "second_index" (q_second q) /\ has_attribute e "angular_momentum" (q_l q) /\ has_numbers pf e (q_values q).
Definition has_integer (e : elem) (key : string) : Prop := exists t z, has_attribute e key (Some t) /\ pi t = Some z.
Definition says_augmentation (e : elem) (a : augmentation) : Prop :=
  (a_with_l a = true <-> exists t, has_attribute e "q_with_l" (Some t) /\ In t ["true"; "True"; "T"; "t"; "1"; "TRUE"]%string) /\
  has_integer e "nqf" /\ has_integer e "nqlc" /\ optional e "PP_Q" (has_numbers pf) (a_q a) /\ numbered e "PP_QIJ" says_qij (a_qij a).
Definition says_nonlocal (e : elem) (n : pp_nonlocal) : Prop :=
  numbered e "PP_BETA" says_beta (n_beta n) /\ optional e "PP_DIJ" (has_numbers pf) (n_dij n) /\ optional e "PP_AUGMENTATION" says_augmentation (n_aug n).
(** The leading lines and the last line of the description. *)
Definition says_info (text : string) (i : pp_info) : Prop :=
  let lines := split_on newline text in
  (forall k, k < 8 -> exists line, nth_error lines k = Some line /\ nth_error (i_fields i) k = Some (extract_value line)) /\ length (i_fields i) = 8 /\
  (exists line, nth_error lines 8 = Some line /\ i_relativistic i = strip line) /\
  (exists line, nth_error lines 9 = Some line /\ i_local i = extract_value line) /\
  (exists line before, lines = before ++ [line] /\ i_generation i = strip line).
(** The whole file. *)
Definition says_file (root : elem) (u : upf) : Prop :=
  (exists e t info, has_section root "PP_INFO" e /\ text_of e = Some t /\ parse_pp_info pi pf (strip t) = Ok info /\ u_valence u = i_valence info) /\
  (exists e, has_section root "PP_HEADER" e /\ forall key, has_attribute e key (u_header u key)) /\
  (exists e r rab, has_section root "PP_MESH" e /\ has_section e "PP_R" r /\ has_numbers pf r (u_r u) /\ has_section e "PP_RAB" rab /\ has_numbers pf rab (u_rab u)) /\
  (exists e, has_section root "PP_NONLOCAL" e /\ says_nonlocal e (u_nonlocal u)) /\
  (exists e, has_section root "PP_LOCAL" e /\ has_numbers pf e (u_local u)).
End Says.
