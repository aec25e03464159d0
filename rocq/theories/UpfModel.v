(** Model of jrystal/pseudopotential: load.py, dataclass.py, utils.py.
    Text is ASCII; Python's float() and int() on text are the parameters [pf], [pi]
    (None: ValueError).  Logging is left out. *)
From Coq Require Import Reals Ascii String List Arith ZArith Bool.
From Verif Require Import Base Tensor.
Import ListNotations.
Local Open Scope nat_scope.

(** ** str methods used by load.py *)
Definition lower_char (a : ascii) : ascii :=
  let n := nat_of_ascii a in if (65 <=? n) && (n <=? 90) then ascii_of_nat (n + 32) else a.
(** str.lower *)
Fixpoint lower (s : string) : string :=
  match s with EmptyString => EmptyString | String a s' => String (lower_char a) (lower s') end.
(** s in t *)
Fixpoint contains (s t : string) : bool :=
  prefix s t || match t with EmptyString => false | String _ t' => contains s t' end.
Fixpoint srev (s : string) (acc : string) : string :=
  match s with EmptyString => acc | String a s' => srev s' (String a acc) end.
(** t.startswith(s), t.endswith(s) *)
Definition startswith (t s : string) : bool := prefix s t.
Definition endswith (t s : string) : bool := prefix (srev s EmptyString) (srev t EmptyString).
(** str.isspace of one character. *)
Definition is_space (a : ascii) : bool :=
  let n := nat_of_ascii a in ((9 <=? n) && (n <=? 13)) || ((28 <=? n) && (n <=? 32)).
Fixpoint lstrip (s : string) : string :=
  match s with EmptyString => EmptyString | String a s' => if is_space a then lstrip s' else s end.
(** str.strip *)
Definition strip (s : string) : string := srev (lstrip (srev (lstrip s) EmptyString)) EmptyString.
(** str.split(c) for one separator character. *)
Fixpoint split_on (c : ascii) (s : string) : list string :=
  match s with
  | EmptyString => [EmptyString]
  | String a s' =>
      if Ascii.eqb a c then EmptyString :: split_on c s'
      else match split_on c s' with [] => [String a EmptyString] | w :: ws => String a w :: ws end
  end.
(** The text after the first [c], if there is one: s.split(c, 1)[1]. *)
Fixpoint after (c : ascii) (s : string) : option string :=
  match s with EmptyString => None | String a s' => if Ascii.eqb a c then Some s' else after c s' end.
(** str.split(): maximal runs of non-space characters. *)
Fixpoint words_aux (s : string) (cur : string) : list string :=
  match s with
  | EmptyString => match cur with EmptyString => [] | _ => [srev cur EmptyString] end
  | String a s' =>
      if is_space a then match cur with EmptyString => words_aux s' EmptyString | _ => srev cur EmptyString :: words_aux s' EmptyString end
      else words_aux s' (String a cur)
  end.
Definition words (s : string) : list string := words_aux s EmptyString.
Definition newline : ascii := ascii_of_nat 10.

Definition index {A} (l : list A) (i : nat) : res A := match nth_error l i with Some a => Ok a | None => Err IndexErr end.
Definition of_text {A} (f : string -> option A) (s : string) : res A := match f s with Some a => Ok a | None => Err ValueErr end.

(** ** load.py *)
(** load.py 26-29, [extract_value]. *)
Definition extract_value (line : string) : string :=
  match after ":" line with Some v => strip v | None => strip line end.

Record orbital := Orbital { o_nl : string; o_pn : Z; o_l : Z; o_occ : R; o_rcut : R; o_rcut_us : R; o_epseu : R }.

Section Parse.
Variables (pi : string -> option Z) (pf : string -> option R).

(** load.py 82-100, [parse_valence_configuration]; one row. *)
Definition parse_row (line : string) : res (list orbital) :=
  if negb (String.eqb (strip line) "") && negb (startswith line "Generation configuration") then
    let w := words line in
    match w with
    | [] => Ok []
    | w0 :: _ =>
        if negb (String.eqb w0 "nl") then
          do pn <- bind (index w 1) (of_text pi);
          do l <- bind (index w 2) (of_text pi);
          do occ <- bind (index w 3) (of_text pf);
          do rc <- bind (index w 4) (of_text pf);
          do rcu <- bind (index w 5) (of_text pf);
          do e <- bind (index w 6) (of_text pf);
          Ok [Orbital w0 pn l occ rc rcu e]
        else Ok []
    end
  else Ok [].
Definition parse_valence_configuration (valence_lines : list string) : res (list orbital) :=
  do rows <- mapM parse_row valence_lines; Ok (concat rows).

(** load.py 36-45: the scan for the block; state (index, end_index), [end] being reassigned
    on every line. *)
Fixpoint find_block (idx : nat) (lines : list string) (st : nat * nat) : nat * nat :=
  match lines with
  | [] => st
  | line :: lines' =>
      let v := if contains "valence configuration" (lower line) then idx else fst st in
      let e := if negb (v =? 0) && contains "generation configuration" (lower line) then idx else v in
      find_block (S idx) lines' (v, e)
  end.
(** l[a:b] *)
Definition slice {A} (a b : nat) (l : list A) : list A := firstn (b - a) (skipn a l).

Record pp_info := PPInfo { i_fields : list string; i_relativistic : string; i_local : string;
  i_valence : list orbital; i_generation : string }.
(** load.py 32-79, [parse_pp_info]: the ten leading lines, the valence table, the last line. *)
Definition parse_pp_info (text : string) : res pp_info :=
  let lines := split_on newline text in
  let '(v, e) := find_block 0 lines (0, 0) in
  do f <- mapM (fun i => rmap extract_value (index lines i)) (seq 0 8);
  do rel <- rmap strip (index lines 8);
  do loc <- rmap extract_value (index lines 9);
  do val <- parse_valence_configuration (slice (v + 2) e lines);
  Ok (PPInfo f rel loc val (strip (last lines EmptyString))).

(** xml.etree elements. *)
Inductive elem := El (tag : string) (attrs : list (string * string)) (text : option string) (children : list elem).
Definition tag_of (e : elem) := let 'El t _ _ _ := e in t.
Definition text_of (e : elem) := let 'El _ _ t _ := e in t.
Definition children_of (e : elem) := let 'El _ _ _ c := e in c.
(** elem.get(key) *)
Definition attr (e : elem) (key : string) : option string :=
  let 'El _ a _ _ := e in
  option_map snd (List.find (fun kv => String.eqb key (fst kv)) a).
(** parent.find(tag): first child with that tag. *)
Definition child (e : elem) (tag : string) : option elem := List.find (fun c => String.eqb (tag_of c) tag) (children_of e).
(** elem.text.split() with float() on each word; None has no attribute text / split. *)
Definition floats (e : option elem) : res (list R) :=
  match e with
  | Some e => match text_of e with Some t => mapM (of_text pf) (words t) | None => Err AttributeErr end
  | None => Err AttributeErr
  end.

(** load.py 108-113, [parse_pp_mesh] (the arrays). *)
Definition parse_pp_mesh (m : elem) : res (list R * list R) :=
  do r <- floats (child m "PP_R"); do rab <- floats (child m "PP_RAB"); Ok (r, rab).

(** One PP_BETA entry: the attributes used downstream and the samples. *)
Record beta_entry := Beta { b_l : option string; b_cutoff : option string; b_values : list R }.
Record qij_entry := Qij { q_first : option string; q_second : option string; q_l : option string; q_values : list R }.
Record augmentation := Aug { a_with_l : bool; a_q : option (list R); a_qij : option (list qij_entry) }.
Record pp_nonlocal := PPNonlocal { n_beta : option (list beta_entry); n_dij : option (list R); n_aug : option augmentation }.

(** load.py 116-178, [parse_pp_nonlocal]: a missing entry is None (the key is absent). *)
Definition parse_beta (b : elem) : res beta_entry :=
  do v <- floats (Some b); Ok (Beta (attr b "angular_momentum") (attr b "cutoff_radius") v).
Definition parse_qij (b : elem) : res qij_entry :=
  do v <- floats (Some b); Ok (Qij (attr b "first_index") (attr b "second_index") (attr b "angular_momentum") v).
Definition int_attr (e : elem) (key : string) : res Z :=
  match attr e key with Some t => of_text pi t | None => Err TypeErr end.
Definition parse_pp_nonlocal (e : elem) : res pp_nonlocal :=
  let betas := filter (fun c => startswith (tag_of c) "PP_BETA") (children_of e) in
  do beta <- match betas with [] => Ok None | _ => rmap Some (mapM parse_beta betas) end;
  do dij <- match child e "PP_DIJ" with None => Ok None | Some d => rmap Some (floats (Some d)) end;
  do aug <- match child e "PP_AUGMENTATION" with
            | None => Ok None
            | Some a =>
                let wl := match attr a "q_with_l" with
                          | Some t => existsb (String.eqb t) ["true"; "True"; "T"; "t"; "1"; "TRUE"]%string | None => false end in
                do _ <- int_attr a "nqf"; do _ <- int_attr a "nqlc";
                do q <- match child a "PP_Q" with None => Ok None | Some q => rmap Some (floats (Some q)) end;
                let qs := filter (fun c => startswith (tag_of c) "PP_QIJ") (children_of a) in
                do qij <- match qs with [] => Ok None | _ => rmap Some (mapM parse_qij qs) end;
                Ok (Some (Aug wl q qij))
            end;
  Ok (PPNonlocal beta dij aug).

Record upf := Upf { u_valence : list orbital; u_header : string -> option string; u_r : list R; u_rab : list R;
  u_nonlocal : pp_nonlocal; u_local : list R }.
(** load.py 186-212, [parse_upf], from the parsed XML root.  A missing section is None and
    using it raises AttributeError (iterating it TypeError: not distinguished here). *)
Definition parse_upf (root : elem) : res upf :=
  do info <- match child root "PP_INFO" with
             | Some e => match text_of e with Some t => parse_pp_info (strip t) | None => Err AttributeErr end
             | None => Err AttributeErr end;
  do header <- match child root "PP_HEADER" with Some h => Ok h | None => Err AttributeErr end;
  do mesh <- match child root "PP_MESH" with Some m => parse_pp_mesh m | None => Err AttributeErr end;
  do nl <- match child root "PP_NONLOCAL" with Some n => parse_pp_nonlocal n | None => Err TypeErr end;
  do loc <- floats (child root "PP_LOCAL");
  Ok (Upf (i_valence info) (attr header) (fst mesh) (snd mesh) nl loc).

(** load.py 215-241, [find_upf]; [names] is what os.listdir returns, in its order. *)
Definition upf_matches (atom name : string) : bool :=
  startswith (lower name) (append (lower atom) ".") && endswith (lower name) "upf".
Definition find_upf (names : list string) (dir_path atom : string) : res string :=
  match List.find (upf_matches atom) names with
  | Some name => Ok (append dir_path name)
  | None => Err ValueErr
  end.

(** ** dataclass.py *)
Local Open Scope R_scope.
Definition pos (x : R) : bool := if Rlt_dec 0 x then true else false.
(** a[mask] for a 1-d boolean mask; numpy requires equal lengths. *)
Fixpoint select {A} (mask : list bool) (a : list A) : list A :=
  match mask, a with
  | true :: m, x :: a' => x :: select m a'
  | false :: m, _ :: a' => select m a'
  | _, _ => []
  end.
Definition mask_index {A} (a : list A) (mask : list bool) : res (list A) :=
  if (length a =? length mask)%nat then Ok (select mask a) else Err IndexErr.
(** np.divide(v, r, where=mask): entries outside the mask are uninitialised memory, [junk].
    [v] of length 1 is broadcast. *)
Definition divide_where (junk : nat -> R) (v r : list R) (mask : list bool) : res (list R) :=
  let v' := if (length v =? 1)%nat then repeat (hd 0 v) (length r) else v in
  if (length v' =? length r)%nat then
    Ok (map (fun x : nat * (R * R * bool) => let '(i, ((a, b), m)) := x in if m then a / b else junk i)
            (combine (seq 0 (length r)) (combine (combine v' r) mask)))
  else Err ValueErr.

(** An entry of nonlocal_beta_cutoff_radius: the text of an attribute (None if absent), or the number 0. *)
Inductive cutoff := CutText (t : option string) | CutZero.
Record nc_atom := NcAtom { c_valence : Z; c_r : list R; c_rab : list R; c_lmax : Z; c_lmax_rho : option Z; c_local : list R;
  c_num_beta : nat; c_beta : list (list R); c_d : list (list R); c_l : list Z; c_config : list orbital; c_cutoff : cutoff }.

(** np.reshape of a flat list to [n, n]. *)
Fixpoint rows {A} (n m : nat) (l : list A) : list (list A) :=
  match n with O => [] | S n' => firstn m l :: rows n' m (skipn m l) end.
Definition reshape_square {A} (n : nat) (l : list A) : res (list (list A)) :=
  if (length l =? n * n)%nat then Ok (rows n n l) else Err ValueErr.

Definition required (h : string -> option string) (key : string) : res string :=
  match h key with Some t => Ok t | None => Err KeyErr end.
Definition opt_text {A} (f : string -> option A) (o : option string) : res A :=
  match o with Some t => of_text f t | None => Err TypeErr end.

(** dataclass.py 124-176, one pass of the loop over atoms in [NormConservingPseudopotential.create].
    int(float(t)) truncates: [trunc].  [junk b] is the memory np.divide leaves unwritten for
    projector b.  After the loop over the projectors beta_i is the last one (line 152); r_cutoff is None
    for every atom and left out. *)
Definition trunc (x : R) : Z := if Rle_dec 0 x then Int_part x else (- Int_part (- x))%Z.
Definition nc_create_atom (junk : nat -> nat -> R) (pp : upf) : res nc_atom :=
  do zt <- required (u_header pp) "z_valence";
  do z <- of_text pf zt;
  let r := u_r pp in
  let mask := map pos r in
  do r_grid <- mask_index r mask;
  do r_ab <- mask_index (u_rab pp) mask;
  do lm <- bind (required (u_header pp) "l_max") (of_text pi);
  do lr <- match u_header pp "l_max_rho" with Some t => rmap Some (of_text pi t) | None => Ok None end;
  do loc <- rmap (map (fun v => v / 2)) (mask_index (u_local pp) mask);
  match n_beta (u_nonlocal pp) with
  | Some betas =>
      let nb := length betas in
      do bl <- mapM (fun ib : nat * beta_entry =>
                 do v <- divide_where (junk (fst ib)) (b_values (snd ib)) r mask;
                 do l <- opt_text pi (b_l (snd ib)); Ok (v, l)) (combine (seq 0 nb) betas);
      do beta <- mapM (fun b => mask_index b mask) (map fst bl);
      do dij <- match n_dij (u_nonlocal pp) with Some d => Ok d | None => Err KeyErr end;
      do d <- reshape_square nb dij;
      Ok (NcAtom (trunc z) r_grid r_ab lm lr loc nb beta (map (map (fun x => x / 2)) d) (map snd bl) (u_valence pp)
            (CutText (b_cutoff (last betas (Beta None None [])))))
  | None =>
      Ok (NcAtom (trunc z) r_grid r_ab lm lr loc 1 [map (fun _ => 0) r_grid] [[0]] [0%Z] (u_valence pp) CutZero)
  end.

(** dataclass.py 91-192, [NormConservingPseudopotential.create]: [parse] reads and parses the
    file at a path; junk is per atom. *)
Definition nc_create (names : list string) (parse : string -> res upf) (junk : nat -> nat -> nat -> R) (dir : string) (symbols : list string)
  : res (list nc_atom) :=
  do pps <- mapM (fun s => do p <- find_upf names dir s; parse p) symbols;
  mapM (fun x => nc_create_atom (junk (fst x)) (snd x)) (combine (seq 0 (length pps)) pps).

(** dataclass.py 259-318, one pass of the loop in [UltrasoftPseudopotential.create], when the
    file has an augmentation: the list of writes into q_ij_a, and its radial length.  The
    arrays are not filtered by r > 0.  [eigmax] is eigvalsh(q).max(). *)
Record us_atom := UsAtom { s_q : list (list R); s_with_l : bool; s_qij : tensor R }.
Definition write (t : tensor R) (m n l : nat) (v : list R) : tensor R :=
  mkT (tshape t) (fun i => match i with
    | [a; b; c; k] => if ((a =? m) && (b =? n) && (c =? l))%nat then nth k v 0 else tget t i
    | _ => tget t i end).
(** A Python index: negative counts from the end. *)
Definition pyindex (n : nat) (i : Z) : res nat :=
  if (0 <=? i)%Z then if (i <? Z.of_nat n)%Z then Ok (Z.to_nat i) else Err IndexErr
  else if (0 <=? i + Z.of_nat n)%Z then Ok (Z.to_nat (i + Z.of_nat n)) else Err IndexErr.
Definition us_write (junk : nat -> nat -> R) (r : list R) (with_l : bool) (num_q num_l : nat) (t : tensor R) (ie : nat * qij_entry) : res (tensor R) :=
  let '(i, e) := ie in
  do m <- opt_text pi (q_first e); do n <- opt_text pi (q_second e);
  do l <- (if with_l then opt_text pi (q_l e) else Ok 0%Z);
  do v <- divide_where (junk i) (q_values e) (map (fun x => x ^ 2) r) (map pos r);
  do m <- pyindex num_q (m - 1); do n <- pyindex num_q (n - 1); do l <- pyindex num_l l;
  let t1 := write t m n l v in
  Ok (if (m =? n)%nat then t1 else write t1 n m l v).
Definition us_create_atom (junk : nat -> nat -> R) (eigmax : list (list R) -> R) (pp : upf) : res (option us_atom) :=
  match n_aug (u_nonlocal pp) with
  | None => Ok None
  | Some a =>
      do q <- match a_q a with Some q => Ok q | None => Err KeyErr end;
      let num_q := Nat.sqrt (length q) in
      do qm <- reshape_square num_q q;
      do _ <- (if Rle_dec (-1) (eigmax qm) then Ok tt else Err AssertionErr);
      do nl <- (if a_with_l a then bind (required (u_header pp) "l_max_rho") (fun t => rmap (fun z => Z.to_nat (z + 1)) (of_text pi t)) else Ok 1%nat);
      do qs <- match a_qij a with Some qs => Ok qs | None => Err KeyErr end;
      do t <- fold_left (fun acc ie => do t <- acc; us_write junk (u_r pp) (a_with_l a) num_q nl t ie)
                        (combine (seq 0 (length qs)) qs) (Ok (mkT [num_q; num_q; nl; length (u_r pp)] (fun _ => 0)));
      Ok (Some (UsAtom qm (a_with_l a) t))
  end.
End Parse.

(** ** utils.py *)
(** utils.py 22-47, [map_over_atoms] for a function of one array list (more arguments are
    lists of tuples); a list shorter than the first raises IndexError. *)
Definition map_over_atoms2 {A B C} (f : A -> B -> C) (xs : list A) (ys : list B) : res (list C) :=
  mapM (fun i => do x <- index xs i; do y <- index ys i; Ok (f x y)) (seq 0 (length xs)).

(** utils.py 50-80, [stack_with_padding]. *)
Definition max_shape (shapes : list (list nat)) (ndim : nat) : list nat :=
  map (fun axis => fold_right Nat.max 0%nat (map (fun s => nth axis s 0%nat) shapes)) (seq 0 ndim).
Fixpoint inbb (i sh : list nat) : bool :=
  match i, sh with [], [] => true | a :: i', n :: sh' => (a <? n)%nat && inbb i' sh' | _, _ => false end.
(** np.pad(arr, pad_width, 'constant', 0) to a larger shape. *)
Definition pad_to (sh : list nat) (t : tensor R) : tensor R :=
  mkT sh (fun i => if inbb i (tshape t) then tget t i else 0%R).
Definition stack_with_padding (l : list (tensor R)) : res (tensor R) :=
  match l with
  | [] => Err ValueErr
  | t0 :: _ =>
      let ndim := length (tshape t0) in
      if forallb (fun t => length (tshape t) =? ndim)%nat l then
        let sh := max_shape (map (@tshape R) l) ndim in
        let padded := map (pad_to sh) l in
        Ok (mkT (length l :: sh) (fun i => match i with
              | k :: i' => tget (nth k padded (mkT [] (fun _ => 0%R))) i' | [] => 0%R end))
      else Err ValueErr
  end.
