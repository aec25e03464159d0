(** Model of jrystal/calc (convergence.py, opt_utils.py, pre_calc.py, the ground-state and
    band-structure drivers), jrystal/config.py, jrystal/_src/band/k_path.py and
    jrystal/_src/utils.py vmapstack. *)
From Coq Require Import Reals Ascii String List Arith ZArith Bool Lia.
From Coquelicot Require Import Complex.
From Verif Require Import Base Sums Tensor Lin3 VecModel OccModel EwaldModel GridModel.
Import ListNotations.
Local Open Scope R_scope.

(** ** convergence.py *)

(** numpy.std (population standard deviation); nan on an empty list, here [None]. *)
Definition np_mean (l : list R) : R := sumR l (fun x => x) / INR (length l).
Definition np_std (l : list R) : option R :=
  match l with
  | [] => None
  | _ => Some (sqrt (sumR l (fun x => (x - np_mean l) ^ 2) / INR (length l)))
  end.
(** A float comparison with nan is False. *)
Definition lt_float (x : option R) (y : R) : bool :=
  match x with None => false | Some x => if Rlt_dec x y then true else false end.

(** convergence.py 15-18, [ConvergenceChecker.__init__]. *)
Record checker := Checker { window_size : nat; threshold : R; history : list R }.
Definition new_checker (w : nat) (t : R) : checker := Checker w t [].

(** convergence.py 20-32, [check]: append, drop the oldest value if there are more than
    window_size, then compare. *)
Definition check (c : checker) (value : R) : checker * bool :=
  let h := history c ++ [value] in
  let h := if (window_size c <? length h)%nat then tl h else h in
  let c' := Checker (window_size c) (threshold c) h in
  if (length h <? window_size c)%nat then (c', false)
  else if lt_float (np_std h) (threshold c) then (c', true)
  else (c', false).
(** convergence.py 34-35, [reset]. *)
Definition reset (c : checker) : checker := Checker (window_size c) (threshold c) [].

(** ** Temperature schedule *)

(** optax.exponential_decay with transition_begin = 0 and staircase = False (optax is not
    part of the repository; this is its documented behaviour).  A step count of zero or a
    zero rate gives the constant schedule; the clip is a maximum for a rate below one and a
    minimum otherwise. *)
Definition exponential_decay (init : R) (transition_steps : nat) (rate : R) (end_value : R) (count : nat) : R :=
  if (transition_steps =? 0)%nat then init
  else if Req_EM_T rate 0 then init
  else
    let decayed := if (count =? 0)%nat then init
                   else init * Rpower rate (INR count / INR transition_steps) in
    if Rlt_dec rate 1 then Rmax decayed end_value else Rmin decayed end_value.

(** calc_ground_state_energy_all_electrons.py 183-194 and
    calc_ground_state_energy_normcons.py 238-249, [temperature_scheduler]. *)
Definition temperature (smearing : R) (epoch : nat) (i : nat) : R :=
  if Rlt_dec 0 smearing then exponential_decay 100 (epoch / 2) (smearing / 100) smearing i
  else 0.

(** ** The optimisation loop *)

(** calc_ground_state_energy_all_electrons.py 143-147 and 175-181 ([free_energy], [update]);
    the normcons driver 198-206 and 228-236 is the same with other energies.  The energy
    [total], the [entropy], the gradient of the free energy at a temperature, the optax
    optimiser and the density are parameters. *)
Section Loop.
  Context {P Os D G : Type}.
  Variables (total entropy : P -> R) (grad : R -> P -> G)
            (optimizer : G -> Os -> G * Os) (apply_updates : P -> G -> P) (density : P -> D).

  Definition free_energy (T : R) (p : P) : R := total p - T * entropy p.

  (** returns params, opt_state, loss_val, es *)
  Definition update (p : P) (o : Os) (T : R) : P * Os * R * (R * R) :=
    let (u, o') := optimizer (grad T p) o in
    (apply_updates p u, o', free_energy T p, (total p, entropy p)).

  (** The variables alive after the loop; [etot] is unbound until the first iteration. *)
  Record loop_state := LoopState { ls_params : P; ls_opt : Os; ls_etot : option R;
    ls_checker : checker; ls_converged : bool; ls_steps : nat }.

  (** 203-222: for i in range(epoch), with break. *)
  Fixpoint main_loop (sched : nat -> R) (is : list nat) (s : loop_state) : loop_state :=
    match is with
    | [] => s
    | i :: is' =>
        let '(p, o, _, (etot, _)) := update (ls_params s) (ls_opt s) (sched i) in
        let (ck, conv) := check (ls_checker s) etot in
        let s' := LoopState p o (Some etot) ck conv (S (ls_steps s)) in
        if conv then s' else main_loop sched is' s'
    end.

  (** What a run shows: the returned value, the logged total energy, whether "Converged." or
      "Did not converge." was logged, and the number of updates. *)
  Record run_output := RunOutput { returned : D; logged_total : R; logged_converged : bool; num_updates : nat }.

  (** 198-247: the loop, the final report and [return density].  Logging the total energy
      reads etot, which is unbound if the loop body never ran. *)
  Definition ground_state (smearing : R) (epoch window : nat) (thr ew : R) (p0 : P) (o0 : Os) : res run_output :=
    let s := main_loop (temperature smearing epoch) (seq 0 epoch)
               (LoopState p0 o0 None (new_checker window thr) false 0) in
    match ls_etot s with
    | None => Err UnboundLocalErr
    | Some etot => Ok (RunOutput (density (ls_params s)) (etot + ew) (ls_converged s) (ls_steps s))
    end.
End Loop.
Arguments LoopState {P Os}. Arguments ls_params {P Os}. Arguments ls_opt {P Os}. Arguments ls_etot {P Os}.
Arguments ls_checker {P Os}. Arguments ls_converged {P Os}. Arguments ls_steps {P Os}.
Arguments RunOutput {D}. Arguments returned {D}. Arguments logged_total {D}. Arguments logged_converged {D}.
Arguments num_updates {D}.

(** calc_ground_state_energy_all_electrons.py 97, calc_ground_state_energy_normcons.py 103:
    ceil(N / 2) + empty_bands, for an integer number of electrons. *)
Definition num_bands (N : Z) (empty_bands : Z) : Z := ((N + 1) / 2 + empty_bands)%Z.

(** ** Array reshapes used by the band drivers *)

(** jnp.reshape(x, (rows, -1, ...)) of the leading axis, in C order: [rows] consecutive
    blocks.  Raises unless rows divides the length. *)
Fixpoint blocks {A} (rows n : nat) (l : list A) : list (list A) :=
  match rows with
  | O => []
  | S r => firstn n l :: blocks r n (skipn n l)
  end.
Definition reshape_rows {A} (rows : nat) (l : list A) : res (list (list A)) :=
  if (rows =? 0)%nat then Err ZeroDivisionErr
  else if (length l mod rows =? 0)%nat then Ok (blocks rows (length l / rows) l)
  else Err ValueErr.

(** Column-major (order="F") flat position of an index, and its inverse. *)
Fixpoint ravelF (sh i : list nat) : nat :=
  match sh, i with
  | n :: sh', k :: i' => (k + n * ravelF sh' i')%nat
  | _, _ => 0%nat
  end.
Fixpoint unravelF (sh : list nat) (m : nat) : list nat :=
  match sh with
  | [] => []
  | n :: sh' => (m mod n)%nat :: unravelF sh' (m / n)
  end.
(** jnp.reshape(t, sh, order="F"). *)
Definition reshapeF {A} (t : tensor A) (sh : list nat) : res (tensor A) :=
  if (nprod (tshape t) =? nprod sh)%nat
  then Ok (mkT sh (fun i => tget t (unravelF (tshape t) (ravelF sh i))))
  else Err ValueErr.

(** jnp.stack of a list of arrays; raises on an empty list and on unequal shapes. *)
Definition shape_eqb (a b : list nat) : bool := if list_eq_dec Nat.eq_dec a b then true else false.
Definition jstack {A} (l : list (tensor A)) : res (tensor A) :=
  match l with
  | [] => Err ValueErr
  | t0 :: _ =>
      if forallb (fun t => shape_eqb (tshape t) (tshape t0)) l
      then Ok (mkT (length l :: tshape t0) (fun i => tget (nth (hd 0%nat i) l t0) (tl i)))
      else Err ValueErr
  end.

(** jnp.transpose(t, (1, 0, 2)). *)
Definition transpose102 {A} (t : tensor A) : res (tensor A) :=
  match tshape t with
  | [a; b; c] => Ok (mkT [b; a; c] (fun i => match i with [y; x; z] => tget t [x; y; z] | _ => tget t i end))
  | _ => Err ValueErr
  end.

(** ** Band-structure drivers *)
Section Band.
  Context {P Os : Type}.
  (** one optimiser step at a k-point (all-electrons 99-108, normcons 170-179), and the
      eigenvalues of the Hamiltonian at a k-point (all-electrons 156-169, normcons 232-245). *)
  Variables (step : P -> Os -> v3 -> P * Os) (eig : P -> v3 -> tensor R).
  Variables (first_epochs tune_epochs : nat).

  (** jax.lax.scan(update_scan, ..., length=n). *)
  Fixpoint scan_update (n : nat) (po : P * Os) (k : v3) : P * Os :=
    match n with O => po | S m => scan_update m (step (fst po) (snd po) k) k end.

  (** jax.lax.scan(finetuning, ...): the parameters after each of the remaining points. *)
  Fixpoint finetune (po : P * Os) (ks : list v3) : list P :=
    match ks with
    | [] => []
    | k :: ks' => let po' := scan_update tune_epochs po k in fst po' :: finetune po' ks'
    end.

  (** jax.lax.scan(eig_scan, None, xs=(kpts[1:], params_fine_tuning)). *)
  Fixpoint eig_scan (ks : list v3) (ps : list P) : list (tensor R) :=
    match ks, ps with k :: ks', p :: ps' => eig p k :: eig_scan ks' ps' | _, _ => [] end.

  (** all-electrons 115-182, normcons 187-270, [optimize_eigenvalues] on one device.  An
      empty block has no first k-point; its slice kpts[0:1] is empty and the Hamiltonian
      functions reject it (an error here). *)
  Definition optimize_eigenvalues (ks : list v3) (po : P * Os) : res (list (tensor R)) :=
    match ks with
    | [] => Err ValueErr
    | k0 :: rest =>
        let po1 := scan_update first_epochs po k0 in
        Ok (eig (fst po1) k0 :: eig_scan rest (finetune po1 rest))
    end.

  (** jax.pmap over the leading axis: raises unless that axis has exactly one entry per
      device; the j-th output array of all devices is stacked along a new leading axis. *)
  Definition pmap_eigenvalues (devices : nat) (kss : list (list v3)) (po : P * Os) : res (list (tensor R)) :=
    if negb (length kss =? devices)%nat then Err ValueErr else
    do outs <- mapM (fun ks => optimize_eigenvalues ks po) kss;
    let n := length (hd [] outs) in
    mapM (fun j => jstack (map (fun o => nth j o (mkT [] (fun _ => 0))) outs)) (seq 0 n).

  (** calc_band_structure_all_electrons.py 64-66 and 184-204: blocks and copies of the
      parameters are made for every device of the machine, pmap uses [util] of them. *)
  Definition band_all_electrons (devices : nat) (parallel : bool) (num_kpoints bands : nat)
    (k_path : list v3) (po : P * Os) : res (tensor R) :=
    let util := if parallel then devices else 1%nat in
    do kss <- reshape_rows devices k_path;
    do outs <- pmap_eigenvalues util kss po;
    do e <- jstack outs;
    do e <- reshapeF e [num_kpoints; nth 2 (tshape e) 0%nat; bands];
    transpose102 e.

  (** calc_band_structure_normcons.py 101-103 and 272-294.  [eig] has shape [kpt=1, band]
      there (only spin channel 0 is kept).  [gs] is the optional ground-state output: if it is
      given, ground_state_density_grid is never assigned and the first use of it inside
      [optimize_eigenvalues] raises NameError. *)
  Definition band_normcons {GS} (gs : option GS) (devices : nat) (parallel : bool)
    (k_path : list v3) (po : P * Os) : res (tensor R) :=
    let util := if parallel then devices else 1%nat in
    do kss <- reshape_rows util k_path;
    do outs <- match gs with Some _ => Err NameErr | None => pmap_eigenvalues util kss po end;
    do e <- jstack outs;
    let B := last (tshape e) 0%nat in
    if (B =? 0)%nat then Err ZeroDivisionErr else
    reshapeF e [(nprod (tshape e) / B)%nat; B].
End Band.

(** ** k_path.py *)

(** const.py 17-18: BOHR2ANGSTROM and ANGSTROM2BOHR. *)
Definition bohr2angstrom : R := 529177249 / 1000000000.
Definition angstrom2bohr : R := 18897259886 / 10000000000.

(** k_path.py 27-57, [get_k_path].  [bandpath] is ASE's Cell(...).bandpath(path, npoints):
    fractional points; cartesian_kpts multiplies them by the inverse-transposed cell. *)
Definition get_k_path (bandpath : m3 -> string -> nat -> list v3) (A : m3) (path : string) (num : nat) (fractional : bool) : list v3 :=
  let cell := m3scale bohr2angstrom A in
  let cartesian_kpts := map (fun f => vmul f (m3t (m3inv cell))) (bandpath cell path num) in
  let kpts := map (fun k => vmul (vscale bohr2angstrom k) (m3t A)) cartesian_kpts in
  if fractional then kpts
  else map (fun k => vmul k (m3scale PI (m3scale 2 (m3t (m3inv A))))) kpts.

(** ** Beta cache (opt_utils.py 204-223) *)

(** Decimal printing of a natural number, as in f"arr_{i}". *)
Definition digit (n : nat) : ascii := ascii_of_nat (48 + n).
Fixpoint decimal_aux (fuel n : nat) (acc : string) : string :=
  match fuel with
  | O => acc
  | S f => let acc' := String (digit (n mod 10)) acc in
           if (n / 10 =? 0)%nat then acc' else decimal_aux f (n / 10) acc'
  end.
Definition decimal (n : nat) : string := decimal_aux (S n) n "".
Definition arr_name (i : nat) : string := append "arr_" (decimal i).

(** A .npz file: named arrays.  A file system: contents of the files that exist. *)
Definition npz (A : Type) := list (string * A).
Definition filesystem (A : Type) := list (string * npz A).
Fixpoint assoc {V} (k : string) (l : list (string * V)) : option V :=
  match l with [] => None | (k', v) :: l' => if String.eqb k k' then Some v else assoc k l' end.

Section Cache.
  Context {A : Type}.
  (** numpy.savez(filename, *arrays). *)
  Definition np_savez (arrays : list A) : npz A := combine (map arr_name (seq 0 (length arrays))) arrays.

  (** opt_utils.py 204-213, [save_beta_sbt]; [default] is <package>/_cache/beta_sbt.npz.
      cache_dir is only assigned when no filename is given. *)
  Definition save_beta_sbt (default : string) (fs : filesystem A) (output : list A) (filename : option string) : res (filesystem A) :=
    match filename with
    | Some _ => Err UnboundLocalErr
    | None => Ok ((default, np_savez output) :: fs)
    end.
  (** opt_utils.py 216-223, [load_beta_sbt]. *)
  Definition load_beta_sbt (default : string) (fs : filesystem A) (filename : option string) : res (list A) :=
    match filename with
    | Some _ => Err UnboundLocalErr
    | None =>
        match assoc default fs with
        | None => Err FileNotFoundErr
        | Some f => mapM (fun i => match assoc (arr_name i) f with Some a => Ok a | None => Err KeyErr end)
                         (seq 0 (length f))
        end
    end.

  (** pre_calc.py 11-40, [pre_calc_beta_sbt]: one transform per triple of zip(r_grid,
      nonlocal_beta_grid, nonlocal_angular_momentum), results in order
      (ProcessPoolExecutor.map keeps the order); the file system changes only on request. *)
  Definition pre_calc_beta_sbt {Rg Bg L} (sbt : Rg -> Bg -> L -> A) (default : string) (fs : filesystem A)
    (r_grid : list Rg) (beta : list Bg) (l : list L) (save_cache : bool) : res (list A * filesystem A) :=
    let output := map (fun x => sbt (fst (fst x)) (snd (fst x)) (snd x)) (combine (combine r_grid beta) l) in
    if save_cache then do fs' <- save_beta_sbt default fs output None; Ok (output, fs')
    else Ok (output, fs).
End Cache.

(** ** Configuration (config.py) *)

Inductive cval :=
  VNone | VBool (b : bool) | VInt (z : Z) | VReal (r : R) | VStr (s : string) | VList (l : list cval)
| VDict (d : list (string * cval)).
Definition cfg := list (string * cval).

(** ConfigDict attribute access: a missing key raises AttributeError. *)
Definition getattr (c : cfg) (k : string) : res cval :=
  match assoc k c with Some v => Ok v | None => Err AttributeErr end.
(** Assignment to a key (replace, or add at the end). *)
Fixpoint setattr (c : cfg) (k : string) (v : cval) : cfg :=
  match c with
  | [] => [(k, v)]
  | (k', v') :: c' => if String.eqb k k' then (k', v) :: c' else (k', v') :: setattr c' k v
  end.

(** config.py 61-105, [default_config]. *)
Definition default_config : cfg :=
  [ ("crystal", VStr "diamond"); ("crystal_file_path_path", VNone); ("save_dir", VNone); ("spin", VInt 0);
    ("xc", VStr "lda_x"); ("use_pseudopotential", VBool false); ("pseudopotential_file_dir", VNone);
    ("freq_mask_method", VStr "spherical"); ("cutoff_energy", VInt 100); ("grid_sizes", VInt 64);
    ("k_grid_sizes", VInt 3); ("occupation", VStr "uniform"); ("smearing", VReal (1 / 1000));
    ("empty_bands", VInt 8); ("spin_restricted", VBool true);
    ("ewald_args", VDict [("ewald_eta", VReal (1 / 10)); ("ewald_cutoff", VReal 20000)]);
    ("epoch", VInt 5000); ("optimizer", VStr "adam");
    ("optimizer_args", VDict [("learning_rate", VReal (1 / 100)); ("b1", VReal (9 / 10)); ("b2", VReal (99 / 100))]);
    ("scheduler", VNone); ("convergence_window_size", VInt 20); ("convergence_condition", VReal (1 / 10000));
    ("band_structure_empty_bands", VInt 8); ("k_path_special_points", VNone); ("num_kpoints", VInt 60);
    ("k_path_file", VNone); ("band_structure_epoch", VInt 5000); ("k_path_fine_tuning", VBool true);
    ("k_path_fine_tuning_epoch", VInt 300); ("seed", VInt 123); ("parallel_over_k_mesh", VBool false);
    ("parallel_over_k_path", VBool true); ("xla_preallocate", VBool true); ("jax_enable_x64", VBool true);
    ("jax_debug_nans", VBool false); ("verbose", VBool true); ("eps", VReal (1 / 100000000)) ]%string.

(** What open() and yaml.safe_load give for the named file. *)
Inductive yaml_file := YMissing | YEmpty | YMap (m : cfg) | YOther.

(** config.py 108-120, [get_config].  ConfigDict reads the [items] of the loaded value: a list or
    a scalar has none.  Keys containing a dot, which ConfigDict rejects, are outside the model. *)
Definition get_config (file : option yaml_file) : res cfg :=
  do c <- match file with
          | None => Ok default_config
          | Some YMissing => Err FileNotFoundErr
          | Some YEmpty => Ok []
          | Some (YMap m) => Ok m
          | Some YOther => Err AttributeErr
          end;
  do b <- getattr c "band_structure_empty_bands";
  match b with
  | VNone => do e <- getattr c "empty_bands"; Ok (setattr c "band_structure_empty_bands" e)
  | _ => Ok c
  end.

(** ** Command line (opt_utils.py 64-73, [parse_args]) *)

(** type(value)(text): bool is true of every non-empty text; NoneType rejects
    every text; list(text) is the list of its characters; [parse_int], [parse_float] are
    Python's int and float.  argparse turns a TypeError or ValueError into SystemExit; ConfigDict
    raises AttributeError on a text, which passes through. *)
Fixpoint chars (s : string) : list cval :=
  match s with EmptyString => [] | String a s' => VStr (String a EmptyString) :: chars s' end.
Definition convert (parse_int : string -> option Z) (parse_float : string -> option R) (v : cval) (text : string) : res cval :=
  match v with
  | VNone => Err SystemExitErr
  | VDict _ => Err AttributeErr
  | VBool _ => Ok (VBool (negb (String.eqb text "")))
  | VInt _ => match parse_int text with Some z => Ok (VInt z) | None => Err SystemExitErr end
  | VReal _ => match parse_float text with Some r => Ok (VReal r) | None => Err SystemExitErr end
  | VStr _ => Ok (VStr text)
  | VList _ => Ok (VList (chars text))
  end.
(** The last occurrence of an option wins; every occurrence is converted.  An option that is
    not a key of the configuration is rejected.  (argparse also accepts unambiguous prefixes
    of option names and --key=text; those are other spellings of the same arguments.  Keys are
    identifiers: argparse would rewrite a hyphen.) *)
Fixpoint apply_args (parse_int : string -> option Z) (parse_float : string -> option R) (c0 c : cfg) (args : list (string * string)) : res cfg :=
  match args with
  | [] => Ok c
  | (k, text) :: args' =>
      match assoc k c0 with
      | None => Err SystemExitErr
      | Some v => do v' <- convert parse_int parse_float v text; apply_args parse_int parse_float c0 (setattr c k v') args'
      end
  end.
Definition parse_args (parse_int : string -> option Z) (parse_float : string -> option R) (c : cfg) (args : list (string * string)) : res cfg :=
  apply_args parse_int parse_float c c args.

(** ** Construction helpers (opt_utils.py 76-201) *)

(** Python truth of a configuration value. *)
Definition truthy (v : cval) : bool :=
  match v with
  | VNone => false | VBool b => b | VInt z => negb (z =? 0)%Z
  | VReal r => if Req_EM_T r 0 then false else true
  | VStr s => negb (String.eqb s "") | VList l => match l with [] => false | _ => true end
  | VDict d => match d with [] => false | _ => true end
  end.

(** crystal.py 34-105: the fields of a Crystal. *)
Record crystal := Crystal { cr_charges : list Z; cr_positions : list v3; cr_cell : m3; cr_spin : Z }.
(** crystal.py 92-95 *)
Definition num_electron (c : crystal) : Z := fold_right Z.add 0%Z (cr_charges c).
(** What ase.io.read gives for a geometry file (lengths in Angstrom), or its exception. *)
Record ase_atoms := Ase { a_numbers : list Z; a_positions : list v3; a_cell : m3 }.
(** crystal.py 122-154, [create_from_file]. *)
Definition crystal_of_ase (a : ase_atoms) (spin : option Z) : crystal :=
  let s := match spin with Some s => s | None => (fold_right Z.add 0 (a_numbers a) mod 2)%Z end in
  Crystal (a_numbers a) (map (vscale angstrom2bohr) (a_positions a)) (m3scale angstrom2bohr (a_cell a)) s.
Definition create_from_file (read : string -> res ase_atoms) (path : string) (spin : option Z) : res crystal :=
  do a <- read path; Ok (crystal_of_ase a spin).
(** crystal.py 156-189, [create_from_symbols]: [numbers] is ASE's reading of a formula as atomic
    numbers; ase.Atoms stores positions and cell as they are given and raises unless there is one
    position per atom. *)
Definition create_from_symbols (numbers : string -> res (list Z)) (symbols : string) (positions : list v3) (cell : m3) (spin : option Z) : res crystal :=
  do zs <- numbers symbols;
  if negb (length positions =? length zs)%nat then Err ValueErr else
  Ok (crystal_of_ase (Ase zs positions cell) spin).
(** crystal.py 99-101, [num_atom] *)
Definition num_atom (c : crystal) : nat := length (cr_positions c).

(** opt_utils.py 105-114, [create_crystal]; [pkg] is the package path.  A crystal or path
    that is not a string makes the concatenation (or read) raise TypeError. *)
Definition create_crystal (pkg : string) (read : string -> res ase_atoms) (c : cfg) : res crystal :=
  do name <- getattr c "crystal";
  do path <- match name with
             | VNone => do p <- getattr c "crystal_file_path_path";
                        match p with VStr s => Ok s | _ => Err TypeErr end
             | VStr s => Ok (append pkg (append "/geometry/" (append s ".xyz")))
             | _ => Err TypeErr
             end;
  do sp <- getattr c "spin";
  do spin <- match sp with VNone => Ok None | VInt z => Ok (Some z) | VBool b => Ok (Some (if b then 1 else 0)%Z) | _ => Err TypeErr end;
  do cr <- create_from_file read path spin;
  do _ <- check_spin_number (num_electron cr) (cr_spin cr);
  Ok cr.

(** opt_utils.py 117-140, [create_pseudopotential]: which loader is called on which
    directory; [nc] and [us] are the two create functions. *)
Definition create_pseudopotential {PP} (pkg : string) (read : string -> res ase_atoms) (nc us : crystal -> string -> res PP) (c : cfg) : res PP :=
  do u <- getattr c "use_pseudopotential";
  if negb (truthy u) then Err AssertionErr else
  do cr <- create_crystal pkg read c;
  do t <- getattr c "pseudopotential_type";
  let dir sub := do d <- getattr c "pseudopotential_file_dir";
                 match d with VNone => Ok (append pkg sub) | VStr s => Ok s | _ => Err TypeErr end in
  match t with
  | VStr s =>
      if existsb (String.eqb s) ["normcons"; "normconserving"; "nc"]%string
      then do path <- dir "/pseudopotential/normconserving/"%string; nc cr path
      else if existsb (String.eqb s) ["ultrasoft"; "us"]%string
      then do path <- dir "/pseudopotential/ultrasoft/"%string; us cr path
      else Err ValueErr
  | _ => Err ValueErr
  end.

(** opt_utils.py 153-168, [create_optimizer]: [alias] looks a name up in optax; the result is
    the optimiser called with the learning rate and the other arguments. *)
Definition create_optimizer {Opt} (alias : string -> option (cval -> list (string * cval) -> Opt)) (c : cfg) : res Opt :=
  do name <- getattr c "optimizer";
  do a <- getattr c "optimizer_args";
  match a, name with
  | VDict d, VStr n =>
      match assoc "learning_rate" d with
      | None => Err KeyErr
      | Some lr =>
          do sch <- getattr c "scheduler";
          if truthy sch then Err NotImplementedErr
          else match alias n with
               | Some f => Ok (f lr (filter (fun kv => negb (String.eqb (fst kv) "learning_rate")) d))
               | None => Err NotImplementedErr
               end
      end
  | _, _ => Err TypeErr
  end.

(** opt_utils.py 171-184, [create_occupation]: the method a name selects. *)
Definition create_occupation (c : cfg) : res occ_method :=
  do m <- getattr c "occupation";
  match m with
  | VStr s =>
      if String.eqb s "idempotent" then Ok MIdempotent
      else if String.eqb s "simplex-projector" then Ok MSimplex
      else if String.eqb s "uniform" then Ok MUniform
      else if String.eqb s "gamma" then Ok MGamma
      else Err NotImplementedErr
  | _ => Err NotImplementedErr
  end.

(** A configured grid size as an argument of proper_grid_size.  A float scalar is truncated by
    int(); other values are rejected (a list with a non-integer entry too: fft_factor on it is
    not modelled and is an error here). *)
Definition cfg_grid (v : cval) : grid_arg :=
  match v with
  | VInt z => GScalar z
  | VBool b => GScalar (if b then 1 else 0)%Z
  | VReal r => GScalar (if Rle_dec 0 r then Int_part r else (- Int_part (- r))%Z)
  | VList l => match mapM (fun v => match v with VInt z => Ok z | _ => Err TypeErr end) l with
               | Ok zs => GSeq zs | Err _ => GOther end
  | _ => GOther
  end.
Definition nats (l : list Z) : list nat := map Z.to_nat l.
Definition cfg_real (v : cval) : res R :=
  match v with VInt z => Ok (IZR z) | VReal r => Ok r | VBool b => Ok (if b then 1 else 0) | _ => Err TypeErr end.

(** opt_utils.py 143-150, [create_grids]: the k-grid sizes are rounded like FFT sizes too. *)
Definition create_grids (pkg : string) (read : string -> res ase_atoms) (c : cfg) : res (tensor v3 * tensor v3 * list v3) :=
  do cr <- create_crystal pkg read c;
  do gs <- getattr c "grid_sizes";
  do n <- proper_grid_size (cfg_grid gs);
  do ks <- getattr c "k_grid_sizes";
  do nk <- proper_grid_size (cfg_grid ks);
  do g <- g_vectors (cr_cell cr) (nats n);
  do r <- r_vectors (cr_cell cr) (nats n);
  do k <- k_vectors (cr_cell cr) (nats nk);
  Ok (g, r, k).

(** opt_utils.py 76-103, [create_freq_mask]; for the cubic mask a cutoff estimate is computed
    for the log. *)
Definition create_freq_mask (pkg : string) (read : string -> res ase_atoms) (c : cfg) : res (tensor bool) :=
  do cr <- create_crystal pkg read c;
  do gs <- getattr c "grid_sizes";
  do n <- proper_grid_size (cfg_grid gs);
  do m <- getattr c "freq_mask_method";
  match m with
  | VStr s =>
      if String.eqb s "cubic" then
        do f <- cubic_mask n;
        let mask := mkT (nats n) (fun i => f (map Z.of_nat i)) in
        do _ <- estimate_max_cutoff_energy (cr_cell cr) mask;
        Ok mask
      else if String.eqb s "spherical" then
        do cut <- getattr c "cutoff_energy"; do cut <- cfg_real cut;
        spherical_mask (cr_cell cr) (nats n) cut
      else Err ValueErr
  | _ => Err ValueErr
  end.

(** opt_utils.py 187-201, [get_ewald_coulomb_repulsion]: always the full nuclear charges of
    the crystal. *)
Definition get_ewald_coulomb_repulsion (erfc : R -> R) (pkg : string) (read : string -> res ase_atoms) (c : cfg) : res R :=
  do cr <- create_crystal pkg read c;
  do ea <- getattr c "ewald_args";
  match ea with
  | VDict d =>
      match assoc "ewald_cutoff" d, assoc "ewald_eta" d with
      | Some cut, Some eta =>
          do cut <- cfg_real cut;
          do T <- translation_vectors (cr_cell cr) cut;
          do grids <- create_grids pkg read c;
          do eta <- cfg_real eta;
          ewald_coulomb_repulsion erfc (cr_positions cr) (map IZR (cr_charges cr)) (fst (fst grids)) (volume (cr_cell cr)) eta T
      | _, _ => Err KeyErr
      end
  | _ => Err TypeErr
  end.

(** ** vmapstack (utils.py 62-105) *)

(** jax.vmap over axis 0 of one array argument, stacking the results on axis 0. *)
Definition slice0 {A} (t : tensor A) (k : nat) : tensor A := mkT (tl (tshape t)) (fun i => tget t (k :: i)).
Definition vmap {A B} (f : tensor A -> tensor B) (t : tensor A) : tensor B :=
  mkT (hd 0%nat (tshape t) :: tshape (f (slice0 t 0))) (fun i => tget (f (slice0 t (hd 0%nat i))) (tl i)).
(** [nargs] is None, or the length of the list of vmap options; with options the i-th
    application uses the i-th dictionary, here a transformer. *)
Fixpoint iterate {X} (n : nat) (g : nat -> X -> X) (i : nat) (x : X) : X :=
  match n with O => x | S m => iterate m g (S i) (g i x) end.
Definition vmapstack {A B} (times : nat) (args : list ((tensor A -> tensor B) -> tensor A -> tensor B)) (f : tensor A -> tensor B)
  : res (tensor A -> tensor B) :=
  match args with
  | [] => Ok (iterate times (fun _ => vmap) 0 f)
  | _ => if (length args =? times)%nat then Ok (iterate times (fun i => nth i args (fun f => f)) 0 f)
         else Err ValueErr
  end.
