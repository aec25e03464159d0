(** Vocabulary of the pseudopotential-file properties. *)
From Coq Require Import Reals Ascii String List Arith ZArith Bool.
From Verif Require Import Base Tensor UpfModel.
Import ListNotations.
Local Open Scope nat_scope.

(** [line] contains [phrase], ignoring case. *)
Definition mentions (phrase line : string) : Prop := exists a b, lower line = append a (append phrase b).
(** [line] is a table row: it has words, its first word is not the column title "nl", and it
    is not the generation line. *)
Definition data_row (line : string) : Prop :=
  (exists w ws, words line = w :: ws /\ w <> "nl"%string) /\ ~ exists rest, line = append "Generation configuration" rest.
(** The table row reads as the orbital [o]. *)
Definition reads_as (pi : string -> option Z) (pf : string -> option R) (line : string) (o : orbital) : Prop :=
  exists pn l occ rc rcu e more,
    words line = o_nl o :: pn :: l :: occ :: rc :: rcu :: e :: more /\
    pi pn = Some (o_pn o) /\ pi l = Some (o_l o) /\ pf occ = Some (o_occ o) /\ pf rc = Some (o_rcut o) /\
    pf rcu = Some (o_rcut_us o) /\ pf e = Some (o_epseu o).
(** The lines with numbers from..to-1. *)
Definition lines_between {A} (from to : nat) (l : list A) : list A := firstn (to - from) (skipn from l).

(** A file name is acceptable for an element. *)
Definition upf_name (atom name : string) : Prop :=
  (exists rest, lower name = append (lower atom) (append "." rest)) /\ (exists pre, lower name = append pre "upf").
Definition no_dot (s : string) : Prop := forall a b, s <> append a (append "." b).
(** A string without white space. *)
Fixpoint no_space (s : string) : Prop :=
  match s with EmptyString => True | String a s' => is_space a = false /\ no_space s' end.
Fixpoint all_space (s : string) : Prop :=
  match s with EmptyString => True | String a s' => is_space a = true /\ all_space s' end.

(** Positions of the mesh points with r > 0, in order. *)
Definition kept (r : list R) : list nat := filter (fun i => if Rlt_dec 0 (nth i r 0%R) then true else false) (seq 0 (length r)).
(** Sample [i] of a radial array (an array of one sample is constant). *)
Definition sample (v : list R) (i : nat) : R := if length v =? 1 then nth 0 v 0%R else nth i v 0%R.

(** Largest entry of axis [a] over a list of shapes. *)
Definition largest (a : nat) (shapes : list (list nat)) (n : nat) : Prop :=
  (forall s, In s shapes -> nth a s 0 <= n) /\ exists s, In s shapes /\ nth a s 0 = n.

(** Position [i] of an axis of size [n] named by the Python index [z] (negative: from the end). *)
Definition counted (n : nat) (z : Z) (i : nat) : Prop := (i < n)%nat /\ (Z.of_nat i = z \/ Z.of_nat i = (z + Z.of_nat n)%Z).
(** The entry [e] of a file is about the projectors [m], [n] (counted from 1 in the file, in either order)
    and the angular momentum [l] (always 0 if the file does not resolve it). *)
Definition addresses (pi : string -> option Z) (with_l : bool) (nq nl : nat) (e : qij_entry) (m n l : nat) : Prop :=
  exists a b c, opt_text pi (q_first e) = Ok a /\ opt_text pi (q_second e) = Ok b /\ (if with_l then opt_text pi (q_l e) = Ok c else c = 0%Z) /\
    counted nl c l /\ (counted nq (a - 1) m /\ counted nq (b - 1) n \/ counted nq (b - 1) m /\ counted nq (a - 1) n).

(** The projectors of a file, in the order of the file. *)
Definition projectors (root : elem) : list elem :=
  match child root "PP_NONLOCAL" with
  | Some nl => filter (fun c => startswith (tag_of c) "PP_BETA") (children_of nl)
  | None => []
  end.

(** The entry [e] can be stored: it names two projectors and an angular momentum that exist, and has
    one value or one per mesh point. *)
Definition entry_readable (pi : string -> option Z) (with_l : bool) (nq nl points : nat) (e : qij_entry) : Prop :=
  (exists m n l, addresses pi with_l nq nl e m n l) /\ (length (q_values e) = points \/ length (q_values e) = 1%nat).
(** The augmentation [a] of the file [pp] can be stored: a square matrix of charges without an
    eigenvalue check failing, a number of angular momenta, and functions that all can be stored. *)
Definition aug_readable (pi : string -> option Z) (eigmax : list (list R) -> R) (pp : upf) (a : augmentation) : Prop :=
  exists q nl qs, a_q a = Some (concat q) /\ Forall (fun row => length row = length q) q /\ (-1 <= eigmax q)%R /\ a_qij a = Some qs /\
    (a_with_l a = false -> nl = 1%nat) /\ (a_with_l a = true -> exists t z, u_header pp "l_max_rho" = Some t /\ pi t = Some z /\ nl = Z.to_nat (z + 1)) /\
    Forall (entry_readable pi (a_with_l a) (length q) nl (length (u_r pp))) qs.
(** A file can be turned into the data of an atom: the charge and the angular momentum are numbers,
    all radial functions have one value per mesh point (a projector may have a single value), every
    projector has an angular momentum, and the coefficients form a square matrix. *)
Definition nc_readable (pi : string -> option Z) (pf : string -> option R) (u : upf) : Prop :=
  (exists t z, u_header u "z_valence" = Some t /\ pf t = Some z) /\ length (u_rab u) = length (u_r u) /\ length (u_local u) = length (u_r u) /\
  (exists t z, u_header u "l_max" = Some t /\ pi t = Some z) /\ (forall t, u_header u "l_max_rho" = Some t -> pi t <> None) /\
  forall betas, n_beta (u_nonlocal u) = Some betas ->
    Forall (fun e => (length (b_values e) = length (u_r u) \/ length (b_values e) = 1%nat) /\ exists t z, b_l e = Some t /\ pi t = Some z) betas /\
    exists d, n_dij (u_nonlocal u) = Some d /\ length d = (length betas * length betas)%nat.
