(** The norm-conserving drivers on pseudopotential files: jrystal/pseudopotential/dataclass.py
    [create], calc/pre_calc.py and the calls of calc_ground_state_energy_normcons.py ("NC") and
    calc_band_structure_normcons.py ("NCB") that join the file reader (UpfModel), the local and
    nonlocal potentials (LocModel, NlocModel) and the drivers (DrvModel, BndModel). *)
From Coq Require Import Reals Ascii String List Arith ZArith Bool.
From Coquelicot Require Import Complex.
From Verif Require Import Base Sums Tensor Lin3 VecModel PwModel EwaldModel EnergyModel BraketModel SbtModel LocModel NlocModel UpfModel CalcModel OccModel DrvModel BndModel.
Import ListNotations.
Local Open Scope R_scope.

Section Files.
(** int(text) and float(text). *)
Variable pi : string -> option Z.
Variable pf : string -> option R.
(** ASE's chemical symbol of an atomic number (crystal.py 148 and 187, get_chemical_symbols). *)
Variable symbol : Z -> string.
(** os.listdir and xml.etree's ET.parse; [junk] is the memory np.divide leaves unwritten, for one
    atom, projector and mesh point; [eigmax] is eigvalsh(q).max(). *)
Variable listdir : string -> res (list string).
Variable read_xml : string -> res elem.
Variable junk : nat -> nat -> nat -> R.
Variable eigmax : list (list R) -> R.

(** dataclass.py 91-192, [NormConservingPseudopotential.create], on a crystal; load.py 186-212 on
    the file.  The directory is listed once here, in the code once per atom. *)
Definition parse_file (path : string) : res upf := do root <- read_xml path; parse_upf pi pf root.
Definition load_nc (cr : crystal) (dir : string) : res (list nc_atom) :=
  do names <- listdir dir; nc_create pi pf names parse_file junk dir (map symbol (cr_charges cr)).
(** dataclass.py 238-326, [UltrasoftPseudopotential.create]: the norm-conserving data, and the
    augmentation of every file that has one.  Both drivers read the norm-conserving attributes
    only, so these are the result here. *)
Definition load_us (cr : crystal) (dir : string) : res (list nc_atom) :=
  do atoms <- load_nc cr dir;
  do names <- listdir dir;
  do pps <- mapM (fun s => do p <- find_upf names dir s; parse_file p) (map symbol (cr_charges cr));
  do _ <- mapM (fun x => us_create_atom pi (junk (fst x)) eigmax (snd x)) (combine (seq 0 (length pps)) pps);
  Ok atoms.

(** [valence_charges] *)
Definition valences (pp : list nc_atom) : list Z := map c_valence pp.
(** The angular momenta as array indices.  Negative ones, which no file should contain, raise here. *)
Definition momenta (pp : list nc_atom) : res (list (list nat)) :=
  if forallb (fun a => forallb (fun l => (0 <=? l)%Z) (c_l a)) pp then Ok (map (fun a => map Z.to_nat (c_l a)) pp) else Err ValueErr.

(** scipy's spherical Bessel functions, interpax's and scipy's CubicSpline, sph_harm_y, eigh; the
    number of processors. *)
Variable jn : Z -> R -> R.
Variables spline spline' : list R -> list R -> R -> R.
Variable sph_harm_y : Z -> Z -> R -> R -> C.
Variable eigh : list (list R) -> list R * list (list R).
Variable cpus : nat.

(** NC 115-122, NCB 107-114: fourier_transform_method keeps its default "sbt"; the charge of the
    local potential is the valence charge (dataclass.py 147). *)
Definition file_local (pp : list nc_atom) (cr : crystal) (G : tensor v3) (vol : R) : res (tensor C) :=
  potential_local_reciprocal jn spline (cr_positions cr) G (map c_r pp) (map c_local pp) (map IZR (valences pp)) vol SbtMethod.

(** pre_calc.py 12-40, [pre_calc_beta_sbt] with save_cache=False: ProcessPoolExecutor raises
    ValueError unless it gets at least one worker; exe.map keeps the order. *)
Definition pre_calc (pp : list nc_atom) (G : tensor v3) (kpts : list v3) : res (list (tensor R)) :=
  if (cpus / 2 =? 0)%nat then Err ValueErr else
  beta_sbt_grid jn spline' (map c_r pp) (map c_beta pp) (map c_l pp) G (Some kpts).

(** NC 130-151 *)
Definition file_nonlocal (pp : list nc_atom) (cr : crystal) (G : tensor v3) (kpts : list v3) : res (tensor C) :=
  do ls <- momenta pp;
  do beta_gk <- pre_calc pp G kpts;
  nonlocal_psi jn spline' sph_harm_y eigh (cr_positions cr) G kpts (map c_r pp) (map c_beta pp) ls (map c_d pp) (Some beta_gk) NlSbt.

(** NCB 134-135, [select_beta_gk]: the slice [idx : idx+1] of the first axis. *)
Definition select_beta_gk (beta_gk : list (tensor R)) (idx : nat) : list (tensor R) :=
  map (fun b => mkT (1%nat :: tl (tshape b)) (fun i => tget b (idx :: tl i))) beta_gk.
Definition v3_eq_dec (a b : v3) : {a = b} + {a <> b}.
Proof. decide equality; apply Req_EM_T. Defined.
(** The index of a point of the path (the first one; equal points have equal radial parts). *)
Fixpoint point_index (path : list v3) (k : v3) : nat :=
  match path with [] => 0%nat | q :: path' => if v3_eq_dec q k then 0%nat else S (point_index path' k) end.
(** NCB 115-121 and 137-147, [get_potential_nl] at a point of the path: the radial parts are
    computed once for the whole path, then the slice of the point is selected. *)
Definition file_path (pp : list nc_atom) (cr : crystal) (G : tensor v3) (path : list v3) (k : v3) : res (tensor C) :=
  do ls <- momenta pp;
  do beta_gk <- pre_calc pp G path;
  nonlocal_psi jn spline' sph_harm_y eigh (cr_positions cr) G [k] (map c_r pp) (map c_beta pp) ls (map c_d pp) (Some (select_beta_gk beta_gk (point_index path k))) NlSbt.

(** NC 67-308 and NCB 66-299 on files. *)
Definition file_problem (erfc : R -> R) (pkg : string) (read : string -> res ase_atoms) (devices : nat) (c : cfg) : res problem :=
  nc_problem erfc pkg read load_nc load_us valences file_local file_nonlocal devices c.
Definition file_calc {Os} (erfc : R -> R) (pkg : string) (read : string -> res ase_atoms) (devices : nat)
  (qr : tensor R -> tensor R) (cqr : tensor C -> tensor C) (xcd : xcdens) (grad : problem -> R -> params -> params)
  (alias : string -> option (cval -> list (string * cval) -> optax Os))
  (rnd_occ : list nat -> tensor R) (rnd_pw : list nat -> tensor R * tensor R) (c : cfg) : res (run_output (D := tensor R)) :=
  nc_calc erfc pkg read load_nc load_us valences file_local file_nonlocal devices qr cqr xcd grad alias rnd_occ rnd_pw c.
Definition file_band_problem (pkg : string) (read : string -> res ase_atoms) (bandpath : m3 -> cval -> nat -> list v3)
  (gs : cfg -> res (run_output (D := tensor R))) (c : cfg) : res band_problem :=
  nc_band_problem pkg read load_nc load_us valences bandpath gs c.
Definition file_band {Os GS} (pkg : string) (read : string -> res ase_atoms) (devices : nat) (bandpath : m3 -> cval -> nat -> list v3) (given : option GS)
  (gs : cfg -> res (run_output (D := tensor R))) (cqr : tensor C -> tensor C) (xcd : xcdens) (ev : nat -> (nat -> nat -> C) -> nat -> R)
  (bgrad : band_problem -> bparams -> v3 -> bparams) (alias : string -> option (cval -> list (string * cval) -> boptax Os))
  (rnd : list nat -> tensor R * tensor R) (c : cfg) : res (tensor R) :=
  nc_band pkg read load_nc load_us valences file_local file_path devices bandpath given gs cqr xcd ev bgrad alias rnd c.
End Files.
