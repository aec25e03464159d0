(** Reading a pseudopotential file section by section (C142). *)
From Coq Require Import Reals Lra Lia Ascii String List Arith ZArith Bool FunctionalExtensionality.
From Verif Require Import Base Tensor UpfModel UpfSpec UpfSpec2 UpfProofs UpfProofs2 UpfProofs3 UpfProofs4.
Import ListNotations.
Local Open Scope nat_scope.

Lemma find_first {A} (p : A -> bool) l x : List.find p l = Some x <-> exists before after, l = before ++ x :: after /\ p x = true /\ forall y, In y before -> p y = false.
Proof.
  split.
  - induction l as [|a l IH]; cbn [List.find]; [discriminate|]. destruct (p a) eqn:E.
    + intros H. injection H as <-. exists [], l. repeat split; [exact E|intros y []].
    + intros H. destruct (IH H) as (b & c & -> & Hx & Hb). exists (a :: b), c. repeat split; [exact Hx|]. intros y [<-|Hy]; [exact E|apply Hb; exact Hy].
  - intros (b & c & -> & Hx & Hb). induction b as [|a b IH]; cbn [app List.find]; [rewrite Hx; reflexivity|]. rewrite (Hb a (or_introl eq_refl)). apply IH. intros y Hy. apply Hb. right. exact Hy.
Qed.
Lemma find_nothing {A} (p : A -> bool) l : List.find p l = None <-> forall y, In y l -> p y = false.
Proof.
  split; [intros H y Hy; exact (find_none p l H y Hy)|]. induction l as [|a l IH]; intros H; [reflexivity|]. cbn [List.find]. rewrite (H a (or_introl eq_refl)). apply IH. intros y Hy. apply H. right. exact Hy.
Qed.
Lemma attr_iff e key o : attr e key = o <-> has_attribute e key o.
Proof.
  destruct e as [tg a tx ch]. unfold has_attribute. cbn [attr attributes_of]. destruct o as [t|].
  - split.
    + destruct (List.find _ a) as [[k v]|] eqn:E; cbn [option_map snd]; [|discriminate]. intros H. injection H as <-. apply find_first in E. destruct E as (b & c & -> & Hx & Hb). cbn [fst] in Hx. apply String.eqb_eq in Hx. subst k.
      exists b, c. split; [reflexivity|]. intros kv Hkv E. apply Hb in Hkv. apply String.eqb_neq in Hkv. apply Hkv. symmetry. exact E.
    + intros (b & c & Ha & Hb). assert (E : List.find (fun kv : string * string => String.eqb key (fst kv)) a = Some (key, t)).
      { apply find_first. exists b, c. split; [exact Ha|]. split; [apply String.eqb_refl|]. intros kv Hkv. apply String.eqb_neq. intros E. exact (Hb kv Hkv (eq_sym E)). }
      rewrite E. reflexivity.
  - split.
    + destruct (List.find _ a) as [[k v]|] eqn:E; cbn [option_map]; [discriminate|]. intros _ kv Hkv F. pose proof (proj1 (find_nothing _ _) E kv Hkv) as N. apply String.eqb_neq in N. exact (N (eq_sym F)).
    + intros H. assert (E : List.find (fun kv : string * string => String.eqb key (fst kv)) a = None).
      { apply find_nothing. intros kv Hkv. apply String.eqb_neq. intros F. exact (H kv Hkv (eq_sym F)). } rewrite E. reflexivity.
Qed.
Lemma child_iff e name c : child e name = Some c <-> has_section e name c.
Proof.
  unfold child. rewrite find_first. unfold has_section. split; intros (b & a & H1 & H2 & H3); exists b, a; (split; [exact H1|]).
  - apply String.eqb_eq in H2. split; [exact H2|]. intros d Hd. apply String.eqb_neq, H3, Hd.
  - split; [apply String.eqb_eq; exact H2|]. intros d Hd. apply String.eqb_neq, H3, Hd.
Qed.
Lemma child_none e name : child e name = None <-> no_section e name.
Proof. unfold child. rewrite find_nothing. unfold no_section. split; intros H d Hd; apply String.eqb_neq, H, Hd. Qed.
Lemma of_text_iff {A} (f : string -> option A) s a : of_text f s = Ok a <-> f s = Some a.
Proof. unfold of_text. destruct (f s); split; intros H; try discriminate; congruence. Qed.
Lemma Forall2_iff {A B} (P Q : A -> B -> Prop) l l' : (forall a b, P a b <-> Q a b) -> Forall2 P l l' <-> Forall2 Q l l'.
Proof. intros H. split; intros F; induction F; constructor; try assumption; apply H; assumption. Qed.
Lemma floats_iff pf e xs : floats pf (Some e) = Ok xs <-> has_numbers pf e xs.
Proof.
  unfold floats, has_numbers. destruct (text_of e) as [t|].
  - rewrite mapM_Forall2, (Forall2_iff _ (fun w x => pf w = Some x)) by (intros; apply of_text_iff). split; [intros H; exists t; auto|intros (t' & E & H); injection E as <-; exact H].
  - split; [discriminate|intros (t & E & _); discriminate].
Qed.
Lemma floats_child pf e name xs : floats pf (child e name) = Ok xs <-> exists c, has_section e name c /\ has_numbers pf c xs.
Proof.
  destruct (child e name) as [c|] eqn:E.
  - rewrite floats_iff. apply child_iff in E. split; [intros H; exists c; auto|]. intros (c' & H1 & H2). apply child_iff in E. apply child_iff in H1. congruence.
  - split; [discriminate|]. intros (c & H & _). apply child_iff in H. congruence.
Qed.
Lemma members_filter {A} (P : A -> Prop) (p : A -> bool) l l' : (forall a, p a = true <-> P a) -> members P l l' <-> filter p l = l'.
Proof.
  intros H. split.
  - intros M. induction M as [|a l l' Ha M IH|a l l' Ha M IH]; cbn [filter]; [reflexivity| |].
    + rewrite (proj2 (H a) Ha), IH. reflexivity.
    + destruct (p a) eqn:E; [exfalso; apply Ha, H; exact E|exact IH].
  - intros <-. induction l as [|a l IH]; cbn [filter]; [constructor|]. destruct (p a) eqn:E; constructor; try exact IH; [apply H; exact E|]. intros Q. apply H in Q. congruence.
Qed.
Lemma named_iff pre e : startswith (tag_of e) pre = true <-> named pre e.
Proof. apply prefix_iff. Qed.
Lemma numbered_iff {A} (f : elem -> res A) (P : elem -> A -> Prop) e pre o : (forall c x, f c = Ok x <-> P c x) ->
  match filter (fun c => startswith (tag_of c) pre) (children_of e) with [] => Ok None | _ => rmap Some (mapM f (filter (fun c => startswith (tag_of c) pre) (children_of e))) end = Ok o <-> numbered e pre P o.
Proof.
  intros H. unfold numbered. set (cs := filter _ _).
  assert (M : members (named pre) (children_of e) cs) by (apply (members_filter _ (fun c => startswith (tag_of c) pre)); [intros a; apply named_iff|reflexivity]).
  assert (U : forall cs', members (named pre) (children_of e) cs' -> cs' = cs).
  { intros cs' M'. apply (members_filter _ (fun c => startswith (tag_of c) pre)) in M'; [|intros a; apply named_iff]. symmetry. exact M'. }
  split.
  - intros E. exists cs. split; [exact M|]. destruct cs as [|c cs0] eqn:Ec; [injection E as <-; reflexivity|]. destruct (mapM f (c :: cs0)) as [xs|] eqn:Em; [|discriminate]. cbn [rmap] in E. injection E as <-. split; [discriminate|].
    apply mapM_Forall2 in Em. apply (Forall2_iff (fun a b => f a = Ok b) P); [intros; apply H|exact Em].
  - intros (cs' & M' & E). rewrite (U cs' M') in E. destruct o as [xs|].
    + destruct E as [N F]. assert (Em : mapM f cs = Ok xs). { apply mapM_Forall2. apply (Forall2_iff _ P); [intros; apply H|exact F]. }
      destruct cs as [|c cs0]; [contradiction|]. rewrite Em. reflexivity.
    + rewrite E. reflexivity.
Qed.
Lemma optional_iff {A} (f : elem -> res A) (P : elem -> A -> Prop) e name o : (forall c x, f c = Ok x <-> P c x) ->
  match child e name with None => Ok None | Some d => rmap Some (f d) end = Ok o <-> optional e name P o.
Proof.
  intros H. unfold optional. destruct (child e name) as [c|] eqn:E.
  - destruct o as [x|].
    + split.
      * destruct (f c) as [y|] eqn:F; cbn [rmap]; [|discriminate]. intros Q. injection Q as ->. exists c. split; [apply child_iff; exact E|apply H; exact F].
      * intros (c' & H1 & H2). apply child_iff in H1. rewrite E in H1. injection H1 as <-. apply H in H2. rewrite H2. reflexivity.
    + split; [destruct (f c); discriminate|]. intros N. apply child_none in N. congruence.
  - apply child_none in E. destruct o as [x|]; [split; [discriminate|]|split; auto]. intros (c & H1 & _). apply child_iff in H1. apply child_none in E. congruence.
Qed.
Lemma beta_iff pf e b : parse_beta pf e = Ok b <-> says_beta pf e b.
Proof.
  unfold parse_beta, says_beta. rewrite bind_ok. split.
  - intros (v & Hv & H). injection H as <-. cbn [b_l b_cutoff b_values]. rewrite <- !attr_iff, <- floats_iff. auto.
  - rewrite <- !attr_iff, <- floats_iff. intros (H1 & H2 & H3). exists (b_values b). split; [exact H3|]. rewrite H1, H2. destruct b. reflexivity.
Qed.
Lemma qij_iff pf e q : parse_qij pf e = Ok q <-> says_qij pf e q.
Proof.
  unfold parse_qij, says_qij. rewrite bind_ok. split.
  - intros (v & Hv & H). injection H as <-. cbn [q_first q_second q_l q_values]. rewrite <- !attr_iff, <- floats_iff. auto.
  - rewrite <- !attr_iff, <- floats_iff. intros (H1 & H2 & H3 & H4). exists (q_values q). split; [exact H4|]. rewrite H1, H2, H3. destruct q. reflexivity.
Qed.
Lemma integer_iff pi e key : (exists z, int_attr pi e key = Ok z) <-> has_integer pi e key.
Proof.
  unfold int_attr, has_integer. split.
  - intros (z & H). destruct (attr e key) as [t|] eqn:E; [|discriminate]. exists t, z. split; [apply attr_iff; exact E|apply of_text_iff; exact H].
  - intros (t & z & H1 & H2). apply attr_iff in H1. rewrite H1. exists z. apply of_text_iff. exact H2.
Qed.
Definition parse_aug pi pf (a : elem) : res augmentation :=
  let wl := match attr a "q_with_l" with Some t => existsb (String.eqb t) ["true"; "True"; "T"; "t"; "1"; "TRUE"]%string | None => false end in
  do _ <- int_attr pi a "nqf"; do _ <- int_attr pi a "nqlc";
  do q <- match child a "PP_Q" with None => Ok None | Some q => rmap Some (floats pf (Some q)) end;
  let qs := filter (fun c => startswith (tag_of c) "PP_QIJ") (children_of a) in
  do qij <- match qs with [] => Ok None | _ => rmap Some (mapM (parse_qij pf) qs) end;
  Ok (Aug wl q qij).
Lemma with_l_iff a : match attr a "q_with_l" with Some t => existsb (String.eqb t) ["true"; "True"; "T"; "t"; "1"; "TRUE"]%string | None => false end = true <->
  exists t, has_attribute a "q_with_l" (Some t) /\ In t ["true"; "True"; "T"; "t"; "1"; "TRUE"]%string.
Proof.
  split.
  - destruct (attr a "q_with_l") as [t|] eqn:E; [|discriminate]. intros H. apply existsb_exists in H. destruct H as (x & Hx & Ex). apply String.eqb_eq in Ex. subst x. exists t. split; [apply attr_iff; exact E|exact Hx].
  - intros (t & H1 & H2). apply attr_iff in H1. rewrite H1. apply existsb_exists. exists t. split; [exact H2|apply String.eqb_refl].
Qed.
Lemma aug_iff pi pf e a : parse_aug pi pf e = Ok a <-> says_augmentation pi pf e a.
Proof.
  unfold parse_aug, says_augmentation. cbv zeta. pose proof (with_l_iff e) as W. set (wl := match attr e "q_with_l" with Some _ => _ | None => _ end) in *. rewrite <- !integer_iff. split.
  - intros H. apply bind_ok in H. destruct H as (z1 & H1 & H). apply bind_ok in H. destruct H as (z2 & H2 & H). apply bind_ok in H. destruct H as (q & H3 & H). apply bind_ok in H. destruct H as (qij & H4 & H). injection H as <-. cbn [a_with_l a_q a_qij].
    split; [exact W|]. split; [exists z1; exact H1|]. split; [exists z2; exact H2|]. split.
    + apply (optional_iff (fun c => floats pf (Some c))); [intros; apply floats_iff|exact H3].
    + apply (numbered_iff (parse_qij pf)); [intros; apply qij_iff|exact H4].
  - intros (H0 & (z1 & H1) & (z2 & H2) & H3 & H4). rewrite H1, H2. cbn [bind].
    apply (optional_iff (fun c => floats pf (Some c))) in H3; [|intros; apply floats_iff]. rewrite H3. cbn [bind].
    apply (numbered_iff (parse_qij pf)) in H4; [|intros; apply qij_iff]. rewrite H4. cbn [bind].
    assert (E : a_with_l a = wl). { destruct (a_with_l a), wl; try reflexivity; [symmetry; apply W, H0; reflexivity|apply H0, W; reflexivity]. } destruct a. cbn in *. subst. reflexivity.
Qed.
Lemma nonlocal_alt pi pf e : parse_pp_nonlocal pi pf e =
  (do beta <- match filter (fun c => startswith (tag_of c) "PP_BETA") (children_of e) with [] => Ok None | _ => rmap Some (mapM (parse_beta pf) (filter (fun c => startswith (tag_of c) "PP_BETA") (children_of e))) end;
   do dij <- match child e "PP_DIJ" with None => Ok None | Some d => rmap Some (floats pf (Some d)) end;
   do aug <- match child e "PP_AUGMENTATION" with None => Ok None | Some a => rmap Some (parse_aug pi pf a) end;
   Ok (PPNonlocal beta dij aug)).
Proof.
  unfold parse_pp_nonlocal. cbv zeta. destruct (match filter _ _ with [] => _ | _ => _ end) as [beta|]; [|reflexivity]. cbn [bind]. destruct (match child e "PP_DIJ" with Some _ => _ | None => _ end) as [dij|]; [|reflexivity]. cbn [bind].
  destruct (child e "PP_AUGMENTATION") as [a|]; [|reflexivity]. unfold parse_aug. cbv zeta. destruct (int_attr pi a "nqf"); [|reflexivity]. cbn [bind]. destruct (int_attr pi a "nqlc"); [|reflexivity]. cbn [bind].
  destruct (match child a "PP_Q" with Some _ => _ | None => _ end); [|reflexivity]. cbn [bind]. destruct (match filter (fun c => startswith (tag_of c) "PP_QIJ") (children_of a) with [] => _ | _ => _ end); reflexivity.
Qed.
Lemma nonlocal_iff pi pf e n : parse_pp_nonlocal pi pf e = Ok n <-> says_nonlocal pi pf e n.
Proof.
  rewrite nonlocal_alt. unfold says_nonlocal. split.
  - intros H. apply bind_ok in H. destruct H as (b & H1 & H). apply bind_ok in H. destruct H as (d & H2 & H). apply bind_ok in H. destruct H as (a & H3 & H). injection H as <-. cbn [n_beta n_dij n_aug]. split; [|split].
    + apply (numbered_iff (parse_beta pf)); [intros; apply beta_iff|exact H1].
    + apply (optional_iff (fun c => floats pf (Some c))); [intros; apply floats_iff|exact H2].
    + apply (optional_iff (parse_aug pi pf)); [intros; apply aug_iff|exact H3].
  - intros (H1 & H2 & H3). apply (numbered_iff (parse_beta pf)) in H1; [|intros; apply beta_iff]. apply (optional_iff (fun c => floats pf (Some c))) in H2; [|intros; apply floats_iff]. apply (optional_iff (parse_aug pi pf)) in H3; [|intros; apply aug_iff].
    rewrite H1. cbn [bind]. rewrite H2. cbn [bind]. rewrite H3. cbn [bind]. destruct n. reflexivity.
Qed.
Lemma file_iff pi pf root u : parse_upf pi pf root = Ok u <-> says_file pi pf root u.
Proof.
  unfold parse_upf, says_file. split.
  - intros H. apply bind_ok in H. destruct H as (info & H1 & H). apply bind_ok in H. destruct H as (hd & H2 & H). apply bind_ok in H. destruct H as (mesh & H3 & H). apply bind_ok in H. destruct H as (nl & H4 & H). apply bind_ok in H. destruct H as (loc & H5 & H). injection H as <-.
    cbn [u_valence u_header u_r u_rab u_nonlocal u_local]. split; [|split; [|split; [|split]]].
    + destruct (child root "PP_INFO") as [e|] eqn:E; [|discriminate]. destruct (text_of e) as [t|] eqn:T; [|discriminate]. exists e, t, info. split; [apply child_iff; exact E|]. auto.
    + destruct (child root "PP_HEADER") as [e|] eqn:E; [|discriminate]. injection H2 as <-. exists e. split; [apply child_iff; exact E|]. intros key. apply attr_iff. reflexivity.
    + destruct (child root "PP_MESH") as [e|] eqn:E; [|discriminate]. unfold parse_pp_mesh in H3. apply bind_ok in H3. destruct H3 as (r & Hr & H3). apply bind_ok in H3. destruct H3 as (rab & Hrab & H3). injection H3 as <-. cbn [fst snd].
      apply floats_child in Hr. destruct Hr as (er & Hr1 & Hr2). apply floats_child in Hrab. destruct Hrab as (eb & Hb1 & Hb2). exists e, er, eb. split; [apply child_iff; exact E|]. auto.
    + destruct (child root "PP_NONLOCAL") as [e|] eqn:E; [|discriminate]. exists e. split; [apply child_iff; exact E|apply nonlocal_iff; exact H4].
    + apply floats_child in H5. exact H5.
  - intros ((e1 & t & info & A1 & A2 & A3 & A4) & (e2 & B1 & B2) & (e3 & r & rab & C1 & C2 & C3 & C4 & C5) & (e4 & D1 & D2) & L).
    apply child_iff in A1. rewrite A1, A2, A3. cbn [bind]. apply child_iff in B1. rewrite B1. cbn [bind]. apply child_iff in C1. rewrite C1. unfold parse_pp_mesh.
    rewrite (proj2 (floats_child pf e3 "PP_R" (u_r u)) (ex_intro _ r (conj C2 C3))). cbn [bind]. rewrite (proj2 (floats_child pf e3 "PP_RAB" (u_rab u)) (ex_intro _ rab (conj C4 C5))). cbn [bind].
    apply child_iff in D1. rewrite D1, (proj2 (nonlocal_iff pi pf e4 _) D2). cbn [bind]. rewrite (proj2 (floats_child pf root "PP_LOCAL" (u_local u)) L). cbn [bind fst snd]. rewrite <- A4.
    assert (E : attr e2 = u_header u) by (apply functional_extensionality; intros key; apply attr_iff, B2). rewrite E. destruct u. reflexivity.
Qed.
Lemma index_iff {A} (l : list A) i a : index l i = Ok a <-> nth_error l i = Some a.
Proof. unfold index. destruct (nth_error l i); split; intros H; try discriminate; congruence. Qed.
Lemma info_says pi pf text i : parse_pp_info pi pf text = Ok i -> says_info text i.
Proof.
  unfold parse_pp_info, says_info. cbv zeta. set (lines := split_on newline text). destruct (find_block 0 lines (0, 0)) as [v e]. intros H.
  apply bind_ok in H. destruct H as (f & H1 & H). apply bind_ok in H. destruct H as (rel & H2 & H). apply bind_ok in H. destruct H as (loc & H3 & H). apply bind_ok in H. destruct H as (val & H4 & H). injection H as <-.
  cbn [i_fields i_relativistic i_local i_generation]. apply mapM_Forall2 in H1.
  assert (L : length f = 8) by (pose proof (proj1 (proj1 (Forall2_nth_iff _ _ _ 0 EmptyString) H1)) as Q; rewrite seq_length in Q; lia).
  split; [|split; [exact L|split; [|split]]].
  - intros k Hk. rewrite (Forall2_nth_iff _ _ _ 0 EmptyString) in H1. destruct H1 as [_ H1]. specialize (H1 k ltac:(rewrite seq_length; exact Hk)). rewrite seq_nth in H1 by exact Hk. cbn [plus] in H1.
    destruct (index lines k) as [line|] eqn:E; [|discriminate]. cbn [rmap] in H1. injection H1 as H1. exists line. split; [apply index_iff; exact E|]. rewrite H1. apply nth_error_nth'. lia.
  - destruct (index lines 8) as [line|] eqn:E; [|discriminate]. injection H2 as <-. exists line. split; [apply index_iff; exact E|reflexivity].
  - destruct (index lines 9) as [line|] eqn:E; [|discriminate]. injection H3 as <-. exists line. split; [apply index_iff; exact E|reflexivity].
  - assert (N : lines <> []). { intros E. rewrite E in H2. discriminate. } exists (last lines EmptyString), (removelast lines). split; [apply app_removelast_last; exact N|reflexivity].
Qed.
Lemma spaces a : is_space a = true <-> In (nat_of_ascii a) [9; 10; 11; 12; 13; 28; 29; 30; 31; 32].
Proof.
  unfold is_space. cbv zeta. rewrite orb_true_iff, !andb_true_iff, !Nat.leb_le. cbn [In]. lia.
Qed.
