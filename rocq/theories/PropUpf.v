(** C63, C64, C65, C70, C96, C97, C98, C126: reading pseudopotential files. *)
From Coq Require Import Reals Lra Lia Ascii String List Arith ZArith Bool Permutation.
From Verif Require Import Base Tensor UpfModel UpfSpec UpfProofs UpfProofs2 UpfProofs3 UpfProofs4 UpfProofs5.
Import ListNotations.
Local Open Scope nat_scope.

(** ** C63: the valence table *)
(** What is reported: the rows from two lines below the last title line (not the first line of
    the text) up to the last line, provided the last line mentions the generation
    configuration; nothing in every other case. *)
Theorem C63_block : forall pi pf text out, parse_pp_info pi pf text = Ok out ->
  let lines := split_on newline text in let n := length lines in
  10 <= n /\
  (~ mentions "generation configuration" (last lines EmptyString) -> i_valence out = []) /\
  ((forall i line, 1 <= i -> nth_error lines i = Some line -> ~ mentions "valence configuration" line) -> i_valence out = []) /\
  (mentions "generation configuration" (last lines EmptyString) ->
     forall v line, 1 <= v -> nth_error lines v = Some line -> mentions "valence configuration" line ->
     (forall j line', v < j -> nth_error lines j = Some line' -> ~ mentions "valence configuration" line') ->
     parse_valence_configuration pi pf (lines_between (v + 2) (n - 1) lines) = Ok (i_valence out)).
Proof. exact pp_info_valence. Qed.
Print Assumptions C63_block.

(** The rows: exactly the data rows, in order, each read word by word. *)
Theorem C63_rows : forall pi pf lines os, parse_valence_configuration pi pf lines = Ok os ->
  exists rows, Forall2 (reads_as pi pf) rows os /\
    (exists keep, length keep = length lines /\ rows = map snd (filter fst (combine keep lines)) /\
       forall i line, nth_error lines i = Some line -> (nth i keep false = true <-> data_row line)).
Proof. exact parse_table_spec. Qed.
Print Assumptions C63_rows.

Example C63_block_example : exists out, parse_pp_info pi1 pf1 good_info = Ok out /\ map o_nl (i_valence out) = ["2S"; "2P"]%string /\ map o_l (i_valence out) = [0; 1]%Z.
Proof. eexists. split; [vm_compute; reflexivity|]. split; reflexivity. Qed.

(** Files usually continue after the generation line; then the table is lost, although a title
    line, its rows and a generation line are all there. *)
Theorem C63_rows_before_generation_refuted : ~ (forall pi pf text out v g line gline,
  let lines := split_on newline text in
  parse_pp_info pi pf text = Ok out -> 1 <= v < g ->
  nth_error lines v = Some line -> mentions "valence configuration" line ->
  (forall j line', v < j -> nth_error lines j = Some line' -> ~ mentions "valence configuration" line') ->
  nth_error lines g = Some gline -> mentions "generation configuration" gline ->
  parse_valence_configuration pi pf (lines_between (v + 2) g lines) = Ok (i_valence out)).
Proof. exact generation_refuted. Qed.
Print Assumptions C63_rows_before_generation_refuted.

(** ** C64: finding the file *)
Theorem C64_found : forall names dir atom p, find_upf names dir atom = Ok p ->
  exists name, In name names /\ upf_name atom name /\ p = append dir name.
Proof. exact find_upf_ok. Qed.
Print Assumptions C64_found.
Theorem C64_raises_iff : forall names dir atom,
  raises (find_upf names dir atom) <-> forall name, In name names -> ~ upf_name atom name.
Proof. exact find_upf_raises. Qed.
Print Assumptions C64_raises_iff.
(** For a symbol without a dot, the name up to its first dot is the symbol up to case: "C"
    never matches a file of "Cu" or "Ca". *)
Theorem C64_stem : forall atom name, no_dot atom -> upf_name atom name ->
  exists s rest, name = append s (append "." rest) /\ no_dot s /\ lower s = lower atom.
Proof. exact stem_of. Qed.
Print Assumptions C64_stem.
(** With one matching file the result does not depend on the order of the listing. *)
Theorem C64_unique_any_order : forall names dir atom name, In name names -> upf_name atom name ->
  (forall n, In n names -> upf_name atom n -> n = name) ->
  forall names', Permutation names names' -> find_upf names' dir atom = Ok (append dir name).
Proof. exact find_upf_perm. Qed.
Print Assumptions C64_unique_any_order.
Example C64_example : find_upf ["Cu.pbe.UPF"; "c.lda.upf"; "C.txt"]%string "pp/" "C" = Ok "pp/c.lda.upf"%string
  /\ raises (find_upf ["Cu.pbe.UPF"; "C.txt"]%string "pp/" "C").
Proof. split; [reflexivity|]. eexists. reflexivity. Qed.
(** The order of the listing decides when two files match, and no separator is added between
    directory and file name. *)
Theorem C64_order_independent_refuted : ~ (forall names names' dir atom, Permutation names names' -> find_upf names dir atom = find_upf names' dir atom).
Proof. exact find_upf_order. Qed.
Print Assumptions C64_order_independent_refuted.
Theorem C64_path_in_directory_refuted : ~ (forall names dir atom p, find_upf names dir atom = Ok p ->
  exists name, In name names /\ p = append dir (append "/" name)).
Proof. exact find_upf_separator. Qed.
Print Assumptions C64_path_in_directory_refuted.

(** ** C65: norm-conserving data *)
(** Every radial array holds the samples of the mesh points with r > 0, in order. *)
Theorem C65_aligned : forall pi pf junk pp c, nc_create_atom pi pf junk pp = Ok c ->
  let r := u_r pp in let ks := kept r in
  length (u_rab pp) = length r /\ length (u_local pp) = length r /\
  c_r c = map (fun i => nth i r 0%R) ks /\ c_rab c = map (fun i => nth i (u_rab pp) 0%R) ks /\
  c_local c = map (fun i => (nth i (u_local pp) 0 / 2)%R) ks /\ c_config c = u_valence pp /\
  match n_beta (u_nonlocal pp) with
  | Some betas => c_num_beta c = length betas /\ length (c_beta c) = length betas /\ length (c_l c) = length betas /\
      (forall b, b < length betas ->
         (length (b_values (nth b betas db)) = 1 \/ length (b_values (nth b betas db)) = length r) /\
         nth b (c_beta c) [] = map (fun i => (sample (b_values (nth b betas db)) i / nth i r 0)%R) ks /\
         exists t, b_l (nth b betas db) = Some t /\ pi t = Some (nth b (c_l c) 0%Z)) /\
      exists dij, n_dij (u_nonlocal pp) = Some dij /\ length dij = length betas * length betas /\
        length (c_d c) = length betas /\ Forall (fun row => length row = length betas) (c_d c) /\
        forall i j, i < length betas -> j < length betas -> nth j (nth i (c_d c) []) 0%R = (nth (i * length betas + j) dij 0 / 2)%R
  | None => c_num_beta c = 1 /\ c_beta c = [map (fun _ => 0%R) ks] /\ c_d c = [[0%R]] /\ c_l c = [0%Z]
  end.
Proof. exact nc_aligned. Qed.
Print Assumptions C65_aligned.
Theorem C65_kept_points : forall r i, In i (kept r) <-> i < length r /\ (0 < nth i r 0)%R.
Proof. exact kept_in. Qed.
Print Assumptions C65_kept_points.
(** Nothing that np.divide leaves unwritten at r = 0 reaches the result. *)
Theorem C65_no_uninitialised : forall pi pf junk junk' pp, nc_create_atom pi pf junk pp = nc_create_atom pi pf junk' pp.
Proof. exact nc_no_junk. Qed.
Print Assumptions C65_no_uninitialised.
(** One entry per atom, in the order of the atoms, each from a file of that element. *)
Theorem C65_per_atom : forall pi pf names parse junk dir symbols cs, nc_create pi pf names parse junk dir symbols = Ok cs ->
  Forall2 (fun s c => exists name pp, In name names /\ upf_name s name /\ parse (append dir name) = Ok pp /\
             forall j, nc_create_atom pi pf j pp = Ok c) symbols cs.
Proof. exact nc_create_each. Qed.
Print Assumptions C65_per_atom.
(** A file gives the data of an atom exactly if it is complete. *)
Theorem C65_returns : forall pi pf junk u, (exists b, nc_create_atom pi pf junk u = Ok b) <-> nc_readable pi pf u.
Proof. exact nc_returns. Qed.
Print Assumptions C65_returns.
Example C65_readable : nc_readable pi1 (fun _ => Some 4%R) pp1 /\ aug_readable pi3 (fun _ => 1%R) pp3 (Aug true (Some [1; 0; 0; 1]%R) (Some qs3)).
Proof.
  split.
  - apply (proj1 (nc_returns pi1 (fun _ => Some 4%R) (fun _ _ => 99%R) pp1)). destruct nc_example as (c & H & _). exists c. exact H.
  - apply (proj1 (us_returns pi3 (fun _ _ => 99%R) (fun _ => 1%R) pp3)); [|reflexivity]. destruct us_example3 as (u & H & _). eexists. exact H.
Qed.
Example C65_example : exists c, nc_create_atom pi1 (fun _ => Some 4%R) (fun _ _ => 99%R) pp1 = Ok c /\ c_r c = [1; 2]%R /\
  c_local c = [11; 12]%R /\ c_beta c = [[8; 5]]%R.
Proof. exact nc_example. Qed.

(** ** C70: padding *)
Theorem C70_padded : forall l out, stack_with_padding l = Ok out ->
  exists sh, tshape out = length l :: sh /\ (forall t, In t l -> length (tshape t) = length sh) /\
    (forall a, a < length sh -> largest a (map (@tshape R) l) (nth a sh 0)) /\
    (forall k i, k < length l -> inb i sh ->
       (inb i (tshape (nth k l dt)) -> tget out (k :: i) = tget (nth k l dt) i) /\
       (~ inb i (tshape (nth k l dt)) -> tget out (k :: i) = 0%R)).
Proof. exact stack_ok. Qed.
Print Assumptions C70_padded.
Theorem C70_raises_iff : forall l,
  raises (stack_with_padding l) <-> l = [] \/ exists t t', In t l /\ In t' l /\ length (tshape t) <> length (tshape t').
Proof. exact stack_raises. Qed.
Print Assumptions C70_raises_iff.
Example C70_example : exists out, stack_with_padding [mkT [2; 1] (fun _ => 5%R); mkT [1; 3] (fun _ => 7%R)] = Ok out /\ tshape out = [2; 2; 3] /\
  tget out [0; 1; 0] = 5%R /\ tget out [0; 1; 1] = 0%R /\ tget out [1; 0; 2] = 7%R /\ tget out [1; 1; 2] = 0%R.
Proof. eexists. split; [reflexivity|]. repeat split. Qed.

(** ** C96: mapping over atoms *)
(** Entry i of the result is the function of the i-th entries; surplus entries of the second
    list are ignored, missing ones raise IndexError. *)
Theorem C96_map_over_atoms : forall (A B C : Type) (f : A -> B -> C) xs ys,
  (length xs <= length ys -> map_over_atoms2 f xs ys = Ok (map (fun p => f (fst p) (snd p)) (combine xs ys))) /\
  (length ys < length xs -> map_over_atoms2 f xs ys = Err IndexErr).
Proof. exact (@map_over_ok). Qed.
Print Assumptions C96_map_over_atoms.
Example C96_example : map_over_atoms2 Nat.add [1; 2] [10; 20; 30] = Ok [11; 22].
Proof. reflexivity. Qed.

(** ** C97: ultrasoft augmentation functions *)
(** Symmetric in the two projector indices, one angular channel unless the file says so. *)
Theorem C97_symmetric : forall pi junk eigmax pp u, us_create_atom pi junk eigmax pp = Ok (Some u) ->
  exists nq nl, tshape (s_qij u) = [nq; nq; nl; length (u_r pp)] /\ length (s_q u) = nq /\
    (forall m n l k, tget (s_qij u) [m; n; l; k] = tget (s_qij u) [n; m; l; k]) /\ (s_with_l u = false -> nl = 1).
Proof. exact us_ok. Qed.
Print Assumptions C97_symmetric.
(** Where r > 0, the function of a pair of projectors and an angular momentum is the last entry of the file
    for that pair (in either order) divided by r^2, and zero if there is none. *)
Theorem C97_values : forall pi junk eigmax pp u a qs, us_create_atom pi junk eigmax pp = Ok (Some u) -> n_aug (u_nonlocal pp) = Some a -> a_qij a = Some qs ->
  exists nl, tshape (s_qij u) = [length (s_q u); length (s_q u); nl; length (u_r pp)] /\
  (a_with_l a = false -> nl = 1) /\ (a_with_l a = true -> exists t z, u_header pp "l_max_rho" = Some t /\ pi t = Some z /\ nl = Z.to_nat (z + 1)) /\
  forall m n l k, k < length (u_r pp) -> (0 < nth k (u_r pp) 0)%R ->
  ((forall e, In e qs -> ~ addresses pi (a_with_l a) (length (s_q u)) nl e m n l) -> tget (s_qij u) [m; n; l; k] = 0%R) /\
  (forall before e after, qs = before ++ e :: after -> addresses pi (a_with_l a) (length (s_q u)) nl e m n l ->
     (forall e', In e' after -> ~ addresses pi (a_with_l a) (length (s_q u)) nl e' m n l) -> length (q_values e) = length (u_r pp) ->
     tget (s_qij u) [m; n; l; k] = (nth k (q_values e) 0 / nth k (u_r pp) 0 ^ 2)%R).
Proof. exact us_values. Qed.
Print Assumptions C97_values.
(** The reading returns exactly for files whose augmentation, if any, can be stored. *)
Theorem C97_returns : forall pi junk eigmax pp, (exists o, us_create_atom pi junk eigmax pp = Ok o) <-> forall a, n_aug (u_nonlocal pp) = Some a -> aug_readable pi eigmax pp a.
Proof. exact us_returns. Qed.
Print Assumptions C97_returns.
Example C97_values_example : exists u, us_create_atom pi3 (fun _ _ => 99%R) (fun _ => 1%R) pp3 = Ok (Some u) /\ tshape (s_qij u) = [2; 2; 3; 2] /\
  addresses pi3 true 2 3 (nth 1 qs3 (Qij None None None [])) 0 1 1 /\ tget (s_qij u) [0; 1; 1; 1] = (8 / 2 ^ 2)%R /\ tget (s_qij u) [0; 1; 0; 1] = 0%R.
Proof. exact us_example3. Qed.
(** They keep all mesh points, while the mesh kept beside them drops those with r <= 0: the
    two have the same length only if no point was dropped. *)
Theorem C97_aligned_iff : forall pi pf junk junk' eigmax pp u c,
  us_create_atom pi junk eigmax pp = Ok (Some u) -> nc_create_atom pi pf junk' pp = Ok c ->
  (nth 3 (tshape (s_qij u)) 0 = length (c_r c) <-> Forall (fun x => (0 < x)%R) (u_r pp)).
Proof. exact us_aligned. Qed.
Print Assumptions C97_aligned_iff.
(** With a mesh point at r = 0 the stored function there is whatever was in memory. *)
Theorem C97_deterministic_refuted : ~ (forall pi junk junk' eigmax pp u u',
  us_create_atom pi junk eigmax pp = Ok (Some u) -> us_create_atom pi junk' eigmax pp = Ok (Some u') ->
  forall i, tget (s_qij u) i = tget (s_qij u') i).
Proof. exact us_junk. Qed.
Print Assumptions C97_deterministic_refuted.
Example C97_example : exists u, us_create_atom pi1 (fun _ _ => 99%R) (fun _ => 1%R) pp2 = Ok (Some u) /\ tshape (s_qij u) = [1; 1; 1; 2] /\
  tget (s_qij u) [0; 0; 0; 1] = (8 / (1 ^ 2))%R /\ tget (s_qij u) [0; 0; 0; 0] = 99%R.
Proof. exact us_example. Qed.

(** ** C98: text fields *)
Theorem C98_words_are_separated_by_spaces : forall a sp b, is_space sp = true -> words (append a (String sp b)) = words a ++ words b.
Proof. exact words_space. Qed.
Print Assumptions C98_words_are_separated_by_spaces.
Theorem C98_word : forall w, w <> EmptyString -> no_space w -> words w = [w].
Proof. exact words_one. Qed.
Print Assumptions C98_word.
Theorem C98_strip : forall s, exists p q, s = append p (append (strip s) q) /\ all_space p /\ all_space q /\
  (forall a r, strip s = String a r -> is_space a = false) /\ (forall r a, strip s = append r (String a EmptyString) -> is_space a = false).
Proof. exact strip_spec. Qed.
Print Assumptions C98_strip.
(** The value of a header line is what follows its first colon, stripped; the whole line if it
    has none.  Later colons stay in the value. *)
Theorem C98_value_after_colon : forall a b, (forall x y, a <> append x (append ":" y)) -> extract_value (append a (append ":" b)) = strip b.
Proof. exact extract_value_colon. Qed.
Print Assumptions C98_value_after_colon.
Theorem C98_value_without_colon : forall s, (forall x y, s <> append x (append ":" y)) -> extract_value s = strip s.
Proof. exact extract_value_plain. Qed.
Print Assumptions C98_value_without_colon.
(** Projectors are read in the order of the file, every number of each. *)
Theorem C98_projectors_in_order : forall pi pf e out, parse_pp_nonlocal pi pf e = Ok out ->
  let betas := filter (fun c => startswith (tag_of c) "PP_BETA") (children_of e) in
  (betas = [] -> n_beta out = None) /\
  (betas <> [] -> exists bs, n_beta out = Some bs /\
     Forall2 (fun c b => b_l b = attr c "angular_momentum" /\ exists t, text_of c = Some t /\ Forall2 (fun w x => pf w = Some x) (words t) (b_values b)) betas bs).
Proof. exact projectors_in_order. Qed.
Print Assumptions C98_projectors_in_order.
Example C98_example : extract_value "Date: 10:30 am " = "10:30 am"%string /\ words "  1.0  2.0 " = ["1.0"; "2.0"]%string.
Proof. split; reflexivity. Qed.
Example C98_projectors_example : exists out, parse_pp_nonlocal pi1 pf1 (El "PP_NONLOCAL" [] None [beta_elem "PP_BETA.2" "1" "3.0 4.0"; beta_elem "PP_BETA.1" "0" "5.0"]) = Ok out
  /\ option_map (map b_l) (n_beta out) = Some [Some "1"; Some "0"]%string.
Proof. eexists. split; reflexivity. Qed.

(** ** C126: the cutoff radii of the projectors *)
(** What is stored for an atom: the attribute of the last projector of the file, as text, and the
    number 0 for a file without projectors. *)
Theorem C126_last_projector : forall pi pf junk root u c, parse_upf pi pf root = Ok u -> nc_create_atom pi pf junk u = Ok c ->
  (projectors root = [] -> c_cutoff c = CutZero) /\
  (forall before b, projectors root = before ++ [b] -> c_cutoff c = CutText (attr b "cutoff_radius")).
Proof. exact cutoff_last. Qed.
Print Assumptions C126_last_projector.
(** The radii of the other projectors are lost. *)
Theorem C126_every_projector_refuted : ~ (forall pi pf junk root u c b t, parse_upf pi pf root = Ok u -> nc_create_atom pi pf junk u = Ok c ->
  In b (projectors root) -> attr b "cutoff_radius" = Some t -> c_cutoff c = CutText (Some t)).
Proof. exact cutoff_refuted. Qed.
Print Assumptions C126_every_projector_refuted.
(** A file with the radii "1.2" and "wide" is accepted. *)
Example C126_example : exists u c, parse_upf pi1 pf1 two_upf = Ok u /\ nc_create_atom pi1 pf1 (fun _ _ => 0%R) u = Ok c /\ c_cutoff c = CutText (Some "wide"%string).
Proof. destruct two_created as (u & c & H1 & H2). exists u, c. split; [exact H1|]. split; [exact H2|]. exact (two_last u c H1 H2). Qed.
