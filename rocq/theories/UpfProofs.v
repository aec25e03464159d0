From Coq Require Import Reals Lra Lia Ascii String List Arith ZArith Bool Permutation.
From Verif Require Import Base Tensor UpfModel UpfSpec.
Import ListNotations.
Local Open Scope nat_scope.

(** ** Strings *)
Lemma append_assoc' a b c : append (append a b) c = append a (append b c).
Proof. induction a as [|x a IH]; cbn; [reflexivity|]. rewrite IH. reflexivity. Qed.
Lemma append_nil_r s : append s EmptyString = s.
Proof. induction s as [|x s IH]; cbn; [reflexivity|]. rewrite IH. reflexivity. Qed.
Lemma prefix_cons a b s t : prefix (String a s) (String b t) = if Ascii.ascii_dec a b then prefix s t else false.
Proof. reflexivity. Qed.
Lemma prefix_iff s : forall t, prefix s t = true <-> exists r, t = append s r.
Proof.
  induction s as [|a s IH]; intros t.
  - split; [intros _; exists t; reflexivity|]. intros _. destruct t; reflexivity.
  - destruct t as [|b t]; [split; [discriminate|intros [r H]; discriminate]|]. rewrite prefix_cons.
    destruct (Ascii.ascii_dec a b) as [->|N].
    + rewrite IH. split; intros [r H]; exists r; [rewrite H; reflexivity|injection H; auto].
    + split; [discriminate|]. intros [r H]. injection H. intros. congruence.
Qed.
Lemma contains_iff s : forall t, contains s t = true <-> exists a b, t = append a (append s b).
Proof.
  induction t as [|c t IH]; cbn [contains].
  - rewrite orb_false_r, prefix_iff. split.
    + intros [r H]. exists EmptyString, r. exact H.
    + intros (a & b & H). destruct a; [exists b; exact H|discriminate].
  - rewrite orb_true_iff, prefix_iff, IH. split.
    + intros [[r H]|(a & b & H)]; [exists EmptyString, r; exact H|]. exists (String c a), b. rewrite H. reflexivity.
    + intros (a & b & H). destruct a as [|x a]; [left; exists b; exact H|right; exists a, b; injection H; auto].
Qed.
Lemma srev_append s : forall acc, srev s acc = append (srev s EmptyString) acc.
Proof.
  induction s as [|a s IH]; intros acc; cbn; [reflexivity|]. rewrite IH, (IH (String a EmptyString)), append_assoc'. reflexivity.
Qed.
Lemma srev_app a b : srev (append a b) EmptyString = append (srev b EmptyString) (srev a EmptyString).
Proof.
  induction a as [|x a IH]; cbn; [rewrite append_nil_r; reflexivity|]. rewrite srev_append, IH, append_assoc', <- (srev_append a). reflexivity.
Qed.
Lemma srev_srev s : srev (srev s EmptyString) EmptyString = s.
Proof. induction s as [|a s IH]; cbn; [reflexivity|]. rewrite (srev_append s (String a EmptyString)), srev_app, IH. reflexivity. Qed.
Lemma endswith_iff t s : endswith t s = true <-> exists p, t = append p s.
Proof.
  unfold endswith. rewrite prefix_iff. split; intros [r H].
  - exists (srev r EmptyString). rewrite <- (srev_srev t), H, srev_app, srev_srev. reflexivity.
  - exists (srev r EmptyString). rewrite H, srev_app. reflexivity.
Qed.
Lemma mentions_iff p l : contains p (lower l) = true <-> mentions p l.
Proof. apply contains_iff. Qed.

(** ** words *)
Lemma words_space a sp b : is_space sp = true -> words (append a (String sp b)) = words a ++ words b.
Proof.
  intros Hs. unfold words. enough (G : forall cur, words_aux (append a (String sp b)) cur = words_aux a cur ++ words_aux b EmptyString) by apply G.
  induction a as [|x a IH]; intros cur; cbn [append words_aux].
  - rewrite Hs. destruct cur; reflexivity.
  - destruct (is_space x); [|apply IH]. destruct cur; [apply IH|]. cbn [app]. rewrite IH. reflexivity.
Qed.
Lemma words_one w : w <> EmptyString -> no_space w -> words w = [w].
Proof.
  intros Hn Hw. unfold words.
  assert (G : forall w cur, no_space w -> words_aux w cur = match append (srev cur EmptyString) w with EmptyString => [] | x => [x] end).
  { clear. induction w as [|a w IH]; intros cur H; cbn [words_aux].
    - rewrite append_nil_r. destruct cur as [|c cur]; [reflexivity|].
      destruct (srev (String c cur) EmptyString) eqn:E; [|reflexivity].
      apply (f_equal (fun x => srev x EmptyString)) in E. rewrite srev_srev in E. discriminate.
    - destruct H as [Ha Hw]. rewrite Ha, IH by exact Hw. cbn [srev]. rewrite srev_append, append_assoc'. reflexivity. }
  rewrite G by exact Hw. cbn [srev append]. destruct w; [congruence|reflexivity].
Qed.
Lemma words_nil s : words s = [] <-> all_space s.
Proof.
  unfold words.
  assert (N : forall s cur, cur <> EmptyString -> words_aux s cur <> []).
  { clear. induction s as [|a s IH]; intros cur H; cbn [words_aux]; [destruct cur; [congruence|discriminate]|].
    destruct (is_space a); [destruct cur; [congruence|discriminate]|]. apply IH. discriminate. }
  induction s as [|a s IH]; cbn [words_aux all_space]; [tauto|].
  destruct (is_space a) eqn:E; [rewrite IH; tauto|]. split; [|intros [H _]; discriminate].
  intros H. exfalso. revert H. apply N. discriminate.
Qed.

(** ** strip *)
Lemma lstrip_spec s : exists p, s = append p (lstrip s) /\ all_space p /\ match lstrip s with EmptyString => True | String a _ => is_space a = false end.
Proof.
  induction s as [|a s IH]; cbn [lstrip]; [exists EmptyString; repeat split|].
  destruct (is_space a) eqn:E; [|exists EmptyString; split; [reflexivity|split; [exact I|exact E]]].
  destruct IH as (p & H & Hp & Hl). exists (String a p). split; [cbn; rewrite <- H; reflexivity|]. split; [split; assumption|exact Hl].
Qed.
Lemma all_space_app a b : all_space (append a b) <-> all_space a /\ all_space b.
Proof. induction a as [|x a IH]; cbn; [tauto|]. rewrite IH. tauto. Qed.
Lemma all_space_srev s : all_space s -> all_space (srev s EmptyString).
Proof.
  induction s as [|a s IH]; cbn; [auto|]. intros [Ha Hs]. rewrite srev_append. apply all_space_app. split; [auto|]. cbn. auto.
Qed.
(** The stripped text: white space removed at both ends, nothing else. *)
Lemma strip_spec s : exists p q, s = append p (append (strip s) q) /\ all_space p /\ all_space q /\
  (forall a r, strip s = String a r -> is_space a = false) /\ (forall r a, strip s = append r (String a EmptyString) -> is_space a = false).
Proof.
  unfold strip. destruct (lstrip_spec s) as (p & H1 & Hp & Hl). set (t := lstrip s) in *. clearbody t.
  destruct (lstrip_spec (srev t EmptyString)) as (q & H2 & Hq & Hr). set (u := lstrip (srev t EmptyString)) in *. clearbody u.
  assert (Ht : t = append (srev u EmptyString) (srev q EmptyString)) by (rewrite <- (srev_srev t), H2, srev_app; reflexivity).
  exists p, (srev q EmptyString). split; [rewrite H1, Ht; reflexivity|]. split; [exact Hp|]. split; [apply all_space_srev; exact Hq|]. split.
  - intros a r E. rewrite E in Ht. rewrite Ht in Hl. exact Hl.
  - intros r a E. apply (f_equal (fun x => srev x EmptyString)) in E. rewrite srev_srev, srev_app in E. cbn in E. rewrite E in Hr. exact Hr.
Qed.
Lemma strip_empty s : strip s = EmptyString <-> all_space s.
Proof.
  split.
  - intros E. destruct (strip_spec s) as (p & q & H & Hp & Hq & _). rewrite E in H. rewrite H. apply all_space_app. split; [exact Hp|]. exact Hq.
  - intros H. unfold strip. assert (E : lstrip s = EmptyString).
    { clear - H. induction s as [|a s IH]; [reflexivity|]. destruct H as [Ha Hs]. cbn. rewrite Ha. auto. }
    rewrite E. reflexivity.
Qed.
Lemma after_spec a b : (forall x y, a <> append x (append ":" y)) -> after ":" (append a (String ":" b)) = Some b.
Proof.
  induction a as [|c a IH]; intros H; cbn [append after]; [rewrite Ascii.eqb_refl; reflexivity|].
  destruct (Ascii.eqb_spec c ":"%char) as [->|N].
  - exfalso. apply (H EmptyString a). reflexivity.
  - apply IH. intros x y E. apply (H (String c x) y). rewrite E. reflexivity.
Qed.
Lemma after_none s : (forall x y, s <> append x (append ":" y)) -> after ":" s = None.
Proof.
  induction s as [|c s IH]; intros H; [reflexivity|]. cbn [after]. destruct (Ascii.eqb_spec c ":"%char) as [->|N].
  - exfalso. apply (H EmptyString s). reflexivity.
  - apply IH. intros x y E. apply (H (String c x) y). rewrite E. reflexivity.
Qed.
Lemma extract_value_colon a b : (forall x y, a <> append x (append ":" y)) -> extract_value (append a (append ":" b)) = strip b.
Proof. intros H. unfold extract_value. cbn [append]. rewrite after_spec by exact H. reflexivity. Qed.
Lemma extract_value_plain s : (forall x y, s <> append x (append ":" y)) -> extract_value s = strip s.
Proof. intros H. unfold extract_value. rewrite after_none by exact H. reflexivity. Qed.

(** ** The valence table *)
Section Parse.
Variables (pi : string -> option Z) (pf : string -> option R).

Lemma index_ok {A} (l : list A) i a : index l i = Ok a <-> nth_error l i = Some a.
Proof. unfold index. destruct (nth_error l i); split; intros H; congruence. Qed.
Lemma of_text_ok {A} (f : string -> option A) s a : of_text f s = Ok a <-> f s = Some a.
Proof. unfold of_text. destruct (f s); split; intros H; congruence. Qed.
Lemma bind_ok {A B} (r : res A) (f : A -> res B) b : bind r f = Ok b <-> exists a, r = Ok a /\ f a = Ok b.
Proof. destruct r; cbn; split; [eauto|intros (a' & E & H); congruence|discriminate|intros (a' & E & H); discriminate]. Qed.

Lemma parse_row_spec line os : parse_row pi pf line = Ok os ->
  (data_row line /\ exists o, os = [o] /\ reads_as pi pf line o) \/ (~ data_row line /\ os = []).
Proof.
  unfold parse_row. intros H. destruct (negb _ && negb _) eqn:E.
  - apply andb_true_iff in E. destruct E as [E1 E2]. apply negb_true_iff in E1, E2.
    apply String.eqb_neq in E1. destruct (words line) as [|w ws] eqn:Ew.
    + exfalso. apply E1. apply strip_empty, words_nil. exact Ew.
    + destruct (String.eqb_spec w "nl") as [->|Hn]; cbn [negb] in H.
      * right. injection H as <-. split; [|reflexivity]. intros [(w' & ws' & E' & Hw') _]. rewrite Ew in E'. congruence.
      * left. split.
        { split; [exists w, ws; split; [exact Ew|exact Hn]|]. intros Hr. apply prefix_iff in Hr. unfold startswith in E2. congruence. }
        repeat setoid_rewrite bind_ok in H. repeat setoid_rewrite index_ok in H. repeat setoid_rewrite of_text_ok in H.
        destruct H as (pn & (tpn & T1 & P1) & l & (tl & T2 & P2) & occ & (tocc & T3 & P3) & rc & (trc & T4 & P4) & rcu & (trcu & T5 & P5) & e & (te & T6 & P6) & H).
        injection H as <-. eexists. split; [reflexivity|]. unfold reads_as. cbn [o_nl o_pn o_l o_occ o_rcut o_rcut_us o_epseu].
        destruct ws as [|a1 [|a2 [|a3 [|a4 [|a5 [|a6 ws]]]]]]; cbn in *; try discriminate.
        injection T1 as ->. injection T2 as ->. injection T3 as ->. injection T4 as ->. injection T5 as ->. injection T6 as ->.
        rewrite Ew. exists tpn, tl, tocc, trc, trcu, te, ws. repeat split; assumption.
  - right. injection H as <-. split; [|reflexivity]. intros [(w & ws & Ew & _) Hg]. apply andb_false_iff in E.
    destruct E as [E|E]; apply negb_false_iff in E.
    + apply String.eqb_eq, strip_empty, words_nil in E. congruence.
    + apply Hg. apply prefix_iff. exact E.
Qed.

Lemma parse_table_spec lines os : parse_valence_configuration pi pf lines = Ok os ->
  exists rows, Forall2 (reads_as pi pf) rows os /\ 
    (exists keep, length keep = length lines /\ rows = map snd (filter fst (combine keep lines)) /\
       forall i line, nth_error lines i = Some line -> (nth i keep false = true <-> data_row line)).
Proof.
  unfold parse_valence_configuration. rewrite bind_ok. intros (rs & Hr & H). injection H as <-.
  revert rs Hr. induction lines as [|line lines IH]; intros rs Hr.
  - injection Hr as <-. exists []. split; [constructor|]. exists []. repeat split; destruct i; discriminate.
  - cbn [mapM] in Hr. apply bind_ok in Hr. destruct Hr as (os & Ho & Hr). apply bind_ok in Hr. destruct Hr as (rs' & Hrs & E). injection E as <-.
    destruct (IH _ Hrs) as (rows & H2 & keep & Hl & -> & Hk).
    destruct (parse_row_spec _ _ Ho) as [[Hd (o & -> & Hra)]|[Hd ->]]; cbn [concat app].
    + exists (line :: map snd (filter fst (combine keep lines))). split; [constructor; assumption|].
      exists (true :: keep). cbn. split; [lia|]. split; [reflexivity|]. intros [|i] l E; cbn in *; [injection E as <-; tauto|apply Hk; exact E].
    + exists (map snd (filter fst (combine keep lines))). split; [exact H2|].
      exists (false :: keep). cbn. split; [lia|]. split; [reflexivity|].
      intros [|i] l E; cbn in *; [injection E as <-; split; [discriminate|tauto]|apply Hk; exact E].
Qed.

(** ** The scan *)
Definition vc := "valence configuration"%string.
Definition gc := "generation configuration"%string.
(** last position (from [idx]) of a line mentioning the table title; [v0] if none *)
Lemma find_block_spec lines : forall idx v0 e0, lines <> [] ->
  let '(v, e) := find_block idx lines (v0, e0) in
  (e = if negb (v =? 0) && contains gc (lower (last lines EmptyString)) then idx + length lines - 1 else v) /\
  ((v = v0 /\ forall i line, nth_error lines i = Some line -> ~ mentions vc line) \/
   (exists i line, v = idx + i /\ nth_error lines i = Some line /\ mentions vc line /\
      forall j line', i < j -> nth_error lines j = Some line' -> ~ mentions vc line')).
Proof.
  induction lines as [|l0 lines IH]; intros idx v0 e0 Hn; [congruence|]. cbn [find_block].
  destruct lines as [|l1 lines].
  - cbn [find_block fst last length]. fold vc. fold gc. destruct (contains vc (lower l0)) eqn:Ec.
    + split; [destruct (_ && _); lia|]. right. exists 0, l0. split; [lia|]. split; [reflexivity|]. split; [apply mentions_iff; exact Ec|].
      intros [|j] l' Hj E; [lia|]. destruct j; discriminate.
    + split; [destruct (_ && _); lia|]. left. split; [reflexivity|]. intros [|i] l E; [|destruct i; discriminate]. injection E as <-.
      rewrite <- mentions_iff, Ec. discriminate.
  - fold vc gc. set (v1 := if contains vc (lower l0) then idx else fst (v0, e0)). set (e1 := if _ && _ then idx else v1).
    specialize (IH (S idx) v1 e1 ltac:(discriminate)). destruct (find_block (S idx) (l1 :: lines) (v1, e1)) as [v e].
    destruct IH as [He Hv]. split.
    + rewrite He. change (last (l0 :: l1 :: lines) EmptyString) with (last (l1 :: lines) EmptyString). cbn [length].
      clear. destruct (negb (v =? 0) && _); [lia|reflexivity].
    + destruct Hv as [[-> Hno]|(i & line & -> & Hi & Hm & Hlast)].
      * unfold v1. cbn [fst]. destruct (contains vc (lower l0)) eqn:Ec.
        { right. exists 0, l0. split; [lia|]. split; [reflexivity|]. split; [apply mentions_iff; exact Ec|].
          intros [|j] l' Hj E; [lia|]. cbn in E. apply (Hno _ _ E). }
        { left. split; [reflexivity|]. intros [|i] l E; [injection E as <-; rewrite <- mentions_iff, Ec; discriminate|]. apply (Hno i). exact E. }
      * right. exists (S i), line. split; [lia|]. split; [exact Hi|]. split; [exact Hm|].
        intros [|j] l' Hj E; [lia|]. apply (Hlast j l'); [lia|exact E].
Qed.

Lemma split_nonempty c s : split_on c s <> [].
Proof. destruct s as [|a s]; cbn; [discriminate|]. destruct (Ascii.eqb a c); [discriminate|]. destruct (split_on c s); discriminate. Qed.

Lemma table_nil : parse_valence_configuration pi pf [] = Ok [].
Proof. reflexivity. Qed.

Lemma pp_info_valence text out : parse_pp_info pi pf text = Ok out ->
  let lines := split_on newline text in let n := length lines in
  10 <= n /\
  (~ mentions gc (last lines EmptyString) -> i_valence out = []) /\
  ((forall i line, 1 <= i -> nth_error lines i = Some line -> ~ mentions vc line) -> i_valence out = []) /\
  (mentions gc (last lines EmptyString) -> forall v line, 1 <= v -> nth_error lines v = Some line -> mentions vc line ->
     (forall j line', v < j -> nth_error lines j = Some line' -> ~ mentions vc line') ->
     parse_valence_configuration pi pf (lines_between (v + 2) (n - 1) lines) = Ok (i_valence out)).
Proof.
  unfold parse_pp_info. intros H. cbv zeta. set (lines := split_on newline text) in *.
  assert (Hne : lines <> []) by apply split_nonempty. clearbody lines.
  pose proof (find_block_spec lines 0 0 0 Hne) as Hf. destruct (find_block 0 lines (0, 0)) as [v e]. destruct Hf as [He Hv].
  repeat setoid_rewrite bind_ok in H. destruct H as (f & _ & rel & _ & loc & Hloc & val & Hval & H). injection H as <-. cbn [i_valence].
  assert (Hval' : parse_valence_configuration pi pf (slice (v + 2) e lines) = Ok val) by (apply bind_ok; exact Hval). clear Hval.
  split. { destruct Hloc as (l9 & E & _). apply index_ok in E.
    assert (9 < length lines) by (apply nth_error_Some; rewrite E; discriminate). lia. }
  assert (Hnil : e <= v + 2 -> val = []).
  { intros Hle. unfold slice in Hval'. replace (e - (v + 2)) with 0 in Hval' by lia. cbn [firstn] in Hval'. rewrite table_nil in Hval'. injection Hval'. auto. }
  split; [|split].
  - intros Hg. apply Hnil. rewrite He. destruct (contains gc _) eqn:Ec; [apply mentions_iff in Ec; contradiction|]. rewrite andb_false_r. lia.
  - intros Hno. apply Hnil. assert (v = 0) as ->.
    { destruct Hv as [[-> _]|(i & line & -> & Hi & Hm & _)]; [reflexivity|]. destruct i as [|i]; [reflexivity|]. exfalso. apply (Hno (S i) line); [lia|exact Hi|exact Hm]. }
    rewrite He. cbn. lia.
  - intros Hg v' line Hv' Hl Hm Hlast.
    assert (v = v') as ->.
    { destruct Hv as [[-> Hno]|(i & line2 & -> & Hi & Hm2 & Hlast2)]; [exfalso; apply (Hno _ _ Hl Hm)|]. cbn [Nat.add].
      destruct (Nat.lt_trichotomy i v') as [F|[F|F]]; [exfalso; apply (Hlast2 _ _ F Hl Hm)|exact F|exfalso; apply (Hlast _ _ F Hi Hm2)]. }
    apply mentions_iff in Hg. rewrite Hg, andb_true_r in He. destruct (Nat.eqb_spec v' 0); [lia|]. cbn [negb] in He. rewrite He in Hval'.
    unfold slice in Hval'. cbn [Nat.add] in Hval'. exact Hval'.
Qed.
End Parse.

(** ** find_upf *)
Lemma upf_matches_iff atom name : upf_matches atom name = true <-> upf_name atom name.
Proof.
  unfold upf_matches, upf_name, startswith. rewrite andb_true_iff, prefix_iff, endswith_iff.
  split; intros [[r H] E]; (split; [exists r|exact E]); rewrite H; [rewrite append_assoc'; reflexivity|rewrite append_assoc'; reflexivity].
Qed.
Lemma find_upf_ok names dir atom p : find_upf names dir atom = Ok p -> exists name, In name names /\ upf_name atom name /\ p = append dir name.
Proof.
  unfold find_upf. destruct (List.find _ names) as [n|] eqn:E; [|discriminate]. intros H. injection H as <-.
  apply find_some in E. destruct E as [E1 E2]. exists n. split; [exact E1|]. split; [apply upf_matches_iff; exact E2|reflexivity].
Qed.
Lemma find_upf_raises names dir atom : raises (find_upf names dir atom) <-> forall name, In name names -> ~ upf_name atom name.
Proof.
  unfold find_upf, raises. destruct (List.find _ names) as [n|] eqn:E.
  - apply find_some in E. destruct E as [E1 E2]. split; [intros [e H]; discriminate|]. intros H. exfalso. apply (H n E1). apply upf_matches_iff. exact E2.
  - split; [|eauto]. intros _ n Hn Hm. apply upf_matches_iff in Hm. rewrite (find_none _ _ E n Hn) in Hm. discriminate.
Qed.
Lemma find_upf_only names dir atom name : In name names -> upf_name atom name ->
  (forall n, In n names -> upf_name atom n -> n = name) -> find_upf names dir atom = Ok (append dir name).
Proof.
  intros Hi Hm Hu. unfold find_upf. destruct (List.find _ names) as [n|] eqn:E.
  - apply find_some in E. destruct E as [E1 E2]. rewrite (Hu n E1); [reflexivity|]. apply upf_matches_iff. exact E2.
  - apply upf_matches_iff in Hm. rewrite (find_none _ _ E _ Hi) in Hm. discriminate.
Qed.
Lemma lower_char_dot a : lower_char a = "."%char -> a = "."%char.
Proof.
  unfold lower_char. destruct ((65 <=? nat_of_ascii a) && (nat_of_ascii a <=? 90)) eqn:E; [|auto]. intros H.
  apply andb_true_iff in E. destruct E as [E1 E2]. apply Nat.leb_le in E1, E2.
  apply (f_equal nat_of_ascii) in H. rewrite nat_ascii_embedding in H by lia. cbn in H. lia.
Qed.
Lemma lower_char_is_dot : lower_char "." = "."%char. Proof. reflexivity. Qed.
(** The part of the name before its first dot is the element symbol. *)
Lemma stem atom : forall name, no_dot atom -> (exists rest, lower name = append (lower atom) (append "." rest)) ->
  exists s rest, name = append s (append "." rest) /\ no_dot s /\ lower s = lower atom.
Proof.
  induction atom as [|a atom IH]; intros name Hd [rest H].
  - cbn in H. destruct name as [|c name]; [discriminate|]. cbn in H. injection H as H1 H2. apply lower_char_dot in H1. subst c.
    exists EmptyString, name. split; [reflexivity|]. split; [|reflexivity]. intros x y E. destruct x; discriminate.
  - destruct name as [|c name]; [discriminate|]. cbn in H. injection H as H1 H2.
    assert (Hd' : no_dot atom) by (intros x y E; apply (Hd (String a x) y); cbn; rewrite E; reflexivity).
    destruct (IH name Hd' (ex_intro _ rest H2)) as (s & r & -> & Hs & Hl).
    exists (String c s), r. split; [reflexivity|]. split; [|cbn; rewrite H1, Hl; reflexivity].
    intros x y E. destruct x as [|x0 x]; cbn in E; injection E as E1 E2; [|apply (Hs x y E2)].
    subst c. rewrite lower_char_is_dot in H1. symmetry in H1. apply lower_char_dot in H1. subst a. apply (Hd EmptyString atom). reflexivity.
Qed.
