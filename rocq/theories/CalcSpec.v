(** Vocabulary of the properties of jrystal/calc, independent of the model's helpers. *)
From Coq Require Import Reals String List Arith ZArith.
From Verif Require Import Base Tensor Lin3 CalcModel.
Import ListNotations.
Local Open Scope R_scope.

(** ** Convergence *)
(** What a user does with a convergence checker. *)
Inductive event := Check (value : R) | Reset.
(** The values checked since the last reset. *)
Definition since_reset (evs : list event) : list R :=
  fold_left (fun seen e => match e with Check v => seen ++ [v] | Reset => [] end) evs [].
(** The checker after a history of calls. *)
Definition run (c : checker) (evs : list event) : checker :=
  fold_left (fun c e => match e with Check v => fst (check c v) | Reset => reset c end) evs c.
(** The last [n] entries of a list. *)
Definition last_n {A} (n : nat) (l : list A) : list A := skipn (length l - n) l.
(** Population standard deviation: root of (mean of squares minus square of mean). *)
Definition total_of (l : list R) : R := fold_right Rplus 0 l.
Definition mean (l : list R) : R := total_of l / INR (length l).
Definition std (l : list R) : R := sqrt (mean (map (fun x => x * x) l) - mean l * mean l).
(** The last [w] of the values have settled: there are [w] >= 1 of them and they spread by
    less than [thr]. *)
Definition settled (w : nat) (thr : R) (values : list R) : Prop :=
  (1 <= w)%nat /\ (w <= length values)%nat /\ std (last_n w values) < thr.

(** ** Trajectories *)
(** The state after [n] steps, where step [i] uses [step i]. *)
Fixpoint trajectory {S} (step : nat -> S -> S) (s0 : S) (n : nat) : S :=
  match n with 0%nat => s0 | Datatypes.S m => step m (trajectory step s0 m) end.

(** One optimiser step at temperature [T] on (parameters, optimiser state): the gradient at
    the current parameters is turned into an update, which is applied. *)
Definition opt_step {P Os G} (grad : R -> P -> G) (optimizer : G -> Os -> G * Os) (apply_updates : P -> G -> P)
  (T : R) (s : P * Os) : P * Os :=
  let u := optimizer (grad T (fst s)) (snd s) in (apply_updates (fst s) (fst u), snd u).

(** ** Band structure *)
Section Warm.
  Context {P Os : Type} (step : P -> Os -> v3 -> P * Os) (first tune : nat).
  Definition repeat_at (n : nat) (k : v3) (po : P * Os) : P * Os := Nat.iter n (fun q => step (fst q) (snd q) k) po.
  (** Parameters with which point [j] of a block of k-points is solved: the first point is
      optimised for [first] steps from the initial parameters, each later one for [tune]
      steps from its predecessor. *)
  Fixpoint warm_start (ks : list v3) (po : P * Os) (j : nat) : P * Os :=
    match j with
    | 0%nat => repeat_at first (nth 0 ks vzero) po
    | Datatypes.S i => repeat_at tune (nth j ks vzero) (warm_start ks po i)
    end.
End Warm.

(** ** Configuration *)
Definition has_key {V} (c : list (string * V)) (k : string) : Prop := In k (map fst c).
Definition unique_keys {V} (c : list (string * V)) : Prop := NoDup (map fst c).
(** The configuration keys that describe the crystal, its grids and the Ewald sum. *)
Definition geometry_keys : list string :=
  ["crystal"; "crystal_file_path_path"; "spin"; "ewald_args"; "grid_sizes"; "k_grid_sizes"]%string.

(** ** Batched functions *)
(** The part of [t] below the leading indices [i]. *)
Definition sub {A} (t : tensor A) (i : list nat) : tensor A := mkT (skipn (length i) (tshape t)) (fun j => tget t (i ++ j)).
(** The output shape depends on the input shape only (as for every traced function). *)
Definition shape_determined {A B} (f : tensor A -> tensor B) := forall a b, tshape a = tshape b -> tshape (f a) = tshape (f b).

(** ** Crystals *)
(** The crystal in Bohr of atoms given in Angstrom. *)
Definition bohr_per_angstrom : R := 1.8897259886.
Definition longer (u v : v3) : Prop := vx v = bohr_per_angstrom * vx u /\ vy v = bohr_per_angstrom * vy u /\ vz v = bohr_per_angstrom * vz u.
Definition in_bohr (a : ase_atoms) (cr : crystal) : Prop :=
  cr_charges cr = a_numbers a /\ Forall2 longer (a_positions a) (cr_positions cr) /\
  longer (m0 (a_cell a)) (m0 (cr_cell cr)) /\ longer (m1 (a_cell a)) (m1 (cr_cell cr)) /\ longer (m2 (a_cell a)) (m2 (cr_cell cr)).
(** Spin asked for, or 0 for an even and 1 for an odd number of electrons. *)
Definition spin_of (spin : option Z) (cr : crystal) : Z :=
  match spin with Some s => s | None => if Z.even (num_electron cr) then 0 else 1 end%Z.
(** The geometry file a configuration names. *)
Definition geometry_file (pkg : string) (c : cfg) (path : string) : Prop :=
  (getattr c "crystal" = Ok VNone /\ getattr c "crystal_file_path_path" = Ok (VStr path)) \/
  exists name, getattr c "crystal" = Ok (VStr name) /\ path = (pkg ++ "/geometry/" ++ name ++ ".xyz")%string.
(** The value an option given as [text] on the command line gets, by the kind of value it had ([pi], [pf]:
    the integer and the number a text stands for). *)
Definition option_value (pi : string -> option Z) (pf : string -> option R) (old : cval) (text : string) (new : cval) : Prop :=
  match old with
  | VBool _ => (text = ""%string /\ new = VBool false) \/ (text <> ""%string /\ new = VBool true)
  | VInt _ => exists z, pi text = Some z /\ new = VInt z
  | VReal _ => exists r, pf text = Some r /\ new = VReal r
  | VStr _ => new = VStr text
  | VList _ => exists l, new = VList (map VStr l) /\ Forall (fun s => String.length s = 1%nat) l /\ String.concat "" l = text
  | VNone | VDict _ => False
  end.
