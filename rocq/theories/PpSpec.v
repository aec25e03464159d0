(** Vocabulary of the properties of runs on pseudopotential files. *)
From Coq Require Import Reals Ascii String List Arith ZArith.
From Coquelicot Require Import Complex.
From Verif Require Import Base Sums Tensor Lin3 CalcModel DrvSpec UpfModel UpfSpec LocSpec NlocModel NlocSpec.
Import ListNotations.
Local Open Scope R_scope.

(** [n] is [x] without its fractional part. *)
Definition toward_zero (x : R) (n : Z) : Prop := (0 <= x -> IZR n <= x < IZR n + 1) /\ (x < 0 -> IZR n - 1 < x <= IZR n).
(** The header of the file gives the valence charge [n]. *)
Definition header_valence (pf : string -> option R) (u : upf) (n : Z) : Prop :=
  exists t z, u_header u "z_valence" = Some t /\ pf t = Some z /\ toward_zero z n.
(** [u] is the content of a file for the element [s] in the directory [dir]. *)
Definition file_for (pi : string -> option Z) (pf : string -> option R) (listdir : string -> res (list string)) (read_xml : string -> res elem) (dir s : string) (u : upf) : Prop :=
  exists names name root, listdir dir = Ok names /\ In name names /\ upf_name s name /\ read_xml (append dir name) = Ok root /\ parse_upf pi pf root = Ok u.
(** The contents of the files of a directory that belong to a list of elements. *)
Definition files_for (pi : string -> option Z) (pf : string -> option R) (listdir : string -> res (list string)) (read_xml : string -> res elem) (dir : string) (symbols : list string) (us : list upf) : Prop :=
  exists names, listdir dir = Ok names /\
    Forall2 (fun s u => exists path root, find_upf names dir s = Ok path /\ read_xml path = Ok root /\ parse_upf pi pf root = Ok u) symbols us.
(** The directory the configuration names, by default that of the package for the configured type. *)
Definition nc_type (c : cfg) : Prop := exists t, getattr c "pseudopotential_type" = Ok (VStr t) /\ In t ["normcons"; "normconserving"; "nc"]%string.
Definition us_type (c : cfg) : Prop := exists t, getattr c "pseudopotential_type" = Ok (VStr t) /\ In t ["ultrasoft"; "us"]%string.
Definition pseudo_directory (pkg : string) (c : cfg) (dir : string) : Prop :=
  getattr c "pseudopotential_file_dir" = Ok (VStr dir) \/
  (getattr c "pseudopotential_file_dir" = Ok VNone /\
   (nc_type c /\ dir = append pkg "/pseudopotential/normconserving/" \/ us_type c /\ dir = append pkg "/pseudopotential/ultrasoft/")).

(** The atoms of a crystal with their pseudopotential data: for the local part, and for the
    nonlocal part with the radial functions on the G+k grid. *)
Definition loc_atoms (cr : crystal) (pp : list nc_atom) : list atom :=
  map (fun x => mkAtom (fst x) (c_r (snd x)) (c_local (snd x)) (IZR (c_valence (snd x)))) (combine (cr_positions cr) pp).
Definition nl_atoms (cr : crystal) (pp : list nc_atom) (betas : list (tensor R)) : list proj_atom :=
  map (fun x => mkProj (fst (fst x)) (map Z.to_nat (c_l (snd (fst x)))) (c_d (snd (fst x))) (snd x)) (combine (combine (cr_positions cr) pp) betas).
(** The radial functions of every atom at |G+k|: splines through the transforms of its projectors
    at the knots up to the largest |G+k|. *)
Definition radial_parts jn spline (pp : list nc_atom) (G : tensor v3) (kpts : list v3) (kmax : R) (betas : list (tensor R)) : Prop :=
  length betas = length pp /\
  forall a b, nth_error pp a = Some b -> exists t, nth_error betas a = Some t /\ tshape t = length kpts :: length (c_beta b) :: tshape G /\
    forall k j x, (k < length kpts)%nat -> (j < length (c_beta b))%nat -> tget t (k :: j :: x) =
      spline (knots kmax (c_r b)) (map (radial_transform jn (nth j (c_l b) 0%Z) (c_r b) (nth j (c_beta b) [])) (knots kmax (c_r b))) (norm (vadd (nth k kpts vzero) (tget G x))).
