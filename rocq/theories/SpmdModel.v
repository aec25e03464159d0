(** Model of jrystal/_src/spmd: transformation rules and sharding of the FFT, sharded random numbers. *)
From Coq Require Import Ascii String List Arith ZArith Reals Bool.
From Coquelicot Require Import Complex.
From Verif Require Import Base Sums Tensor DFT PwModel.
Import ListNotations.

(** *** fft.py.  The transforms themselves are [PwModel.fftn3] and [PwModel.ifftn3]. *)

(** fft.py 100-101, [_fftn_tranpose_rule]: the second argument, the primal input, is not used. *)
Definition fftn_transpose_rule (cotangent : tensor C) : res (tensor C) := fftn3 cotangent.
(** fft.py 92-93, [_ifftn_tranpose_rule]. *)
Definition ifftn_transpose_rule (cotangent : tensor C) : res (tensor C) := ifftn3 cotangent.

(** fft.py 96-97, [_fftn_jvp].  deflinear2 (fft.py 132) replaces this rule by jax's rule for linear primitives, which binds the
    primitive to the primal and to the tangent as well. *)
Definition fftn_jvp (primal tangent : tensor C) : res (tensor C * tensor C) := do y <- fftn3 primal; do dy <- fftn3 tangent; Ok (y, dy).
(** fft.py 88-89, [_ifftn_jvp]. *)
Definition ifftn_jvp (primal tangent : tensor C) : res (tensor C * tensor C) := do y <- ifftn3 primal; do dy <- ifftn3 tangent; Ok (y, dy).

Definition insert_at {A} (d : nat) (a : A) (l : list A) : list A := firstn d l ++ a :: skipn d l.
Definition remove_at {A} (d : nat) (l : list A) : list A := firstn d l ++ skipn (S d) l.
(** batching.moveaxis(x, bd, 0). *)
Definition moveaxis0 {A} (x : tensor A) (bd : nat) : tensor A :=
  mkT (nth bd (tshape x) 0%nat :: remove_at bd (tshape x)) (fun i => match i with [] => tget x [] | b :: r => tget x (insert_at bd b r) end).
(** fft.py 111-115, [_fftn_batching_rule]: result and the axis of the result that holds the batch. *)
Definition fftn_batching_rule (x : tensor C) (bd : nat) : res (tensor C * nat) := do y <- fftn3 (moveaxis0 x bd); Ok (y, 0%nat).
(** fft.py 104-108, [_ifftn_batching_rule]. *)
Definition ifftn_batching_rule (x : tensor C) (bd : nat) : res (tensor C * nat) := do y <- ifftn3 (moveaxis0 x bd); Ok (y, 0%nat).
(** fft.py 37-49, [fftn3d], under jax.vmap with the batch on axis bd: the function sees the array without that axis, so its check counts
    one axis less; then the batching rule runs.  An axis that does not exist is rejected by vmap. *)
Definition vmap_fftn3d (x : tensor C) (bd : nat) : res (tensor C * nat) :=
  if (ndim x <=? bd)%nat then Err ValueErr else if (ndim x - 1 <? 3)%nat then Err ValueErr else fftn_batching_rule x bd.
(** fft.py 52-64, [ifftn3d], under jax.vmap. *)
Definition vmap_ifftn3d (x : tensor C) (bd : nat) : res (tensor C * nat) :=
  if (ndim x <=? bd)%nat then Err ValueErr else if (ndim x - 1 <? 3)%nat then Err ValueErr else ifftn_batching_rule x bd.

(** Element types. *)
Inductive dtype := Bool_ | Int32 | Int64 | Float32 | Float64 | Complex64 | Complex128.
(** fft.py 119-125, [_ifftn_abstract_eval], [_fftn_abstract_eval]: shape and element type announced for the result under jit, grad and vmap. *)
Definition fftn_abstract_eval (shape : list nat) (t : dtype) : list nat * dtype := (shape, t).
(** Element type of jnp.fft.fftn and ifftn on an array of the given element type (jax documentation, 64-bit mode: integers are promoted to
    double precision).  fft.py 68-75. *)
Definition fftn_dtype (t : dtype) : dtype := match t with Float32 | Complex64 => Complex64 | _ => Complex128 end.

(** *** custom_sharding.py *)

(** One entry of a PartitionSpec: the mesh axes an array axis is split over; None is []. *)
Definition pentry := list string.
Definition mesh := list (string * nat).
(** l[:k] of a Python sequence. *)
Definition pyprefix {A} (l : list A) (k : Z) : list A :=
  firstn (Z.to_nat (if (k <? 0)%Z then Z.max 0 (Z.of_nat (length l) + k) else k)) l.
(** custom_sharding.py 17-22, [_supported_sharding]: the spec; the mesh is unchanged. *)
Definition supported_sharding (spec : list pentry) (rank : nat) : list pentry :=
  let max_shared_dims := Z.min (Z.of_nat (length spec)) (Z.of_nat rank - 1) in
  pyprefix spec max_shared_dims ++ repeat [] (Z.to_nat (Z.of_nat rank - max_shared_dims)).

(** Number of parts an array axis is split in: the product of the sizes of its mesh axes. *)
Definition axis_size (m : mesh) (name : string) : nat :=
  match find (fun p => String.eqb (fst p) name) m with Some p => snd p | None => 1%nat end.
Definition parts (m : mesh) (e : pentry) : nat := fold_right (fun name n => axis_size m name * n)%nat 1%nat e.

Definition zipw (f : nat -> nat -> nat) (a b : list nat) : list nat := map (fun p => f (fst p) (snd p)) (combine a b).
(** The block b of x when axis j is cut in blocks of size ls_j. *)
Definition block {A} (ls : list nat) (x : tensor A) (b : list nat) : tensor A :=
  mkT ls (fun j => tget x (zipw Nat.add (zipw Nat.mul b ls) j)).
Definition is_err {A} (r : res A) : bool := match r with Err _ => true | Ok _ => false end.
(** Running f on every device on its own block only, then reading the result as one array: what XLA does with the function returned by a
    custom partitioning rule whose argument and result shardings are equal. *)
Definition run_sharded (f : tensor C -> res (tensor C)) (ps : list nat) (x : tensor C) : res (tensor C) :=
  let ls := zipw Nat.div (tshape x) ps in
  if existsb (fun b => is_err (f (block ls x b))) (indices ps) then Err ValueErr else
  Ok (mkT (tshape x) (fun i => match f (block ls x (zipw Nat.div i ls)) with Ok u => tget u (zipw Nat.modulo i ls) | Err _ => RtoC 0 end)).
(** custom_sharding.py 30-57, [custom_sharding_by_mesh], and its [_partition], lines 43-49: the sharding of the argument is reduced by
    [supported_sharding] and used for argument and result.  jax rejects a sharding that does not divide the shape.  On one device every
    axis has one part.  custom_partitioning.py is not modelled beyond this. *)
Definition sharded_call (f : tensor C -> res (tensor C)) (m : mesh) (spec : list pentry) (x : tensor C) : res (tensor C) :=
  let ps := map (parts m) (supported_sharding spec (ndim x)) in
  if forallb (fun p => (fst p mod snd p =? 0)%nat) (combine (tshape x) ps) then run_sharded f ps x else Err ValueErr.
(** fft.py 68-75, [_fftn_impl] and [_ifftn_impl], on a mesh. *)
Definition sharded_fftn (m : mesh) (spec : list pentry) (x : tensor C) : res (tensor C) := sharded_call fftn3 m spec x.
Definition sharded_ifftn (m : mesh) (spec : list pentry) (x : tensor C) : res (tensor C) := sharded_call ifftn3 m spec x.

(** *** uniform.py *)
Section Uniform.
Variable key : Type.
Variable split : key -> key * key.
Variable rand : key -> list nat -> tensor R.

(** uniform.py 27-30: the subkeys of the devices, in order. *)
Fixpoint subkeys (n : nat) (k : key) : list key :=
  match n with O => [] | S n' => let (k1, k2) := split k in k2 :: subkeys n' k1 end.
(** uniform.py 22-24: the shape of one device's array. *)
Fixpoint device_shape (shape ms : list nat) {struct ms} : res (list nat) :=
  match ms with
  | [] => Ok shape
  | m :: ms' => match shape with [] => Err IndexErr | n :: shape' => if (m =? 0)%nat then Err ZeroDivisionErr else do r <- device_shape shape' ms'; Ok ((n / m)%nat :: r) end
  end.
(** Block coordinate of the device at mesh coordinates c, for an array axis split over the mesh axes e (the first varies slowest). *)
Definition coord_of (m : mesh) (c : list nat) (name : string) : nat :=
  match find (fun p => String.eqb (fst (fst p)) name) (combine m c) with Some p => snd p | None => 0%nat end.
Definition block_coord (m : mesh) (c : list nat) (e : pentry) : nat :=
  fold_left (fun acc name => acc * axis_size m name + coord_of m c name)%nat e 0%nat.
(** The spec with one entry per array axis. *)
Definition full_spec (spec : list pentry) (rank : nat) : list pentry := spec ++ repeat [] (rank - length spec).
(** uniform.py 9-32, [uniform].  The mesh is made of the devices jax.devices() in row-major order, of which there are ndev.
    make_array_from_single_device_arrays rejects a spec longer than the shape, sizes that do not divide, and device arrays whose shape is
    not the shape of a block.  Where several devices hold the same block the array is read on the first of them. *)
Definition uniform (ndev : nat) (k : key) (shape : list nat) (out_sharding : option (mesh * list pentry)) : res (tensor R) :=
  match out_sharding with
  | None => Ok (rand k shape)
  | Some (m, spec) =>
    do ls <- device_shape shape (map snd m);
    let n := nprod (map snd m) in
    if (ndev <? n)%nat then Err IndexErr else
    let us := map (fun k => rand k ls) (subkeys n k) in
    let sp := full_spec spec (length shape) in
    let ps := map (parts m) sp in
    if (length shape <? length spec)%nat || negb (forallb (fun p => (fst p mod snd p =? 0)%nat) (combine shape ps)) || negb (if list_eq_dec Nat.eq_dec (zipw Nat.div shape ps) ls then true else false) then Err ValueErr else
    Ok (mkT shape (fun i =>
      match find (fun p => if list_eq_dec Nat.eq_dec (map (block_coord m (fst p)) sp) (zipw Nat.div i ls) then true else false) (combine (indices (map snd m)) us) with
      | Some p => tget (snd p) (zipw Nat.modulo i ls)
      | None => 0%R
      end))
  end.
End Uniform.
