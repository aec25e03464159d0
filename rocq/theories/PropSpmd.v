(** Multi-device FFT and random numbers: properties C74, C75, C110, C111. *)
From Coq Require Import Ascii String List Arith ZArith Reals Lra Lia.
From Coquelicot Require Import Complex.
From Verif Require Import Base Sums Tensor DFT PwModel SpmdModel SpmdSpec SpmdProofs SpmdProofs2 SpmdProofs3.
From Coq Require Import List.
Import ListNotations.

(** C74.  The registered transpose rule is the only array for which the pairing identity holds. *)
Theorem C74_fft_transpose : forall y z, 3 <= ndim y -> tshape z = tshape y ->
  ((forall x, tshape x = tshape y -> exists Fx, fftn3 x = Ok Fx /\ pairing Fx y = pairing x z) <-> exists t, fftn_transpose_rule y = Ok t /\ teq z t).
Proof. exact fft_unique. Qed.
Print Assumptions C74_fft_transpose.

Theorem C74_ifft_transpose : forall y z, 3 <= ndim y -> tshape z = tshape y ->
  ((forall x, tshape x = tshape y -> exists Fx, ifftn3 x = Ok Fx /\ pairing Fx y = pairing x z) <-> exists t, ifftn_transpose_rule y = Ok t /\ teq z t).
Proof. exact ifft_unique. Qed.
Print Assumptions C74_ifft_transpose.

Theorem C74_fft_jvp : forall x v y dy, tshape v = tshape x -> fftn_jvp x v = Ok (y, dy) ->
  fftn3 x = Ok y /\ forall t, exists u, fftn3 (along x v t) = Ok u /\ teq u (along y dy t).
Proof. exact fft_jvp. Qed.
Print Assumptions C74_fft_jvp.

Theorem C74_ifft_jvp : forall x v y dy, tshape v = tshape x -> ifftn_jvp x v = Ok (y, dy) ->
  ifftn3 x = Ok y /\ forall t, exists u, ifftn3 (along x v t) = Ok u /\ teq u (along y dy t).
Proof. exact ifft_jvp. Qed.
Print Assumptions C74_ifft_jvp.

Theorem C74_jvp_returns : forall x v, tshape v = tshape x -> 3 <= ndim x -> (exists p, fftn_jvp x v = Ok p) /\ (exists p, ifftn_jvp x v = Ok p).
Proof. exact jvp_returns. Qed.
Print Assumptions C74_jvp_returns.

Theorem C74_ifft_inverts_fft : forall x, 3 <= ndim x -> exists y z, fftn3 x = Ok y /\ ifftn3 y = Ok z /\ teq z x.
Proof. exact inverse. Qed.
Print Assumptions C74_ifft_inverts_fft.

Theorem C74_fft_inverts_ifft : forall x, 3 <= ndim x -> exists y z, ifftn3 x = Ok y /\ fftn3 y = Ok z /\ teq z x.
Proof. exact inverse'. Qed.
Print Assumptions C74_fft_inverts_ifft.

Theorem C74_announced_type : forall t sh, fst (fftn_abstract_eval sh t) = sh /\ (snd (fftn_abstract_eval sh t) = fftn_dtype t <-> t = Complex64 \/ t = Complex128) /\
  (fftn_dtype t = Complex64 \/ fftn_dtype t = Complex128) /\ (fftn_dtype t = Complex64 <-> t = Float32 \/ t = Complex64).
Proof. exact announced_both. Qed.
Print Assumptions C74_announced_type.

Example C74_case : 3 <= ndim ex_x /\ tshape (delta_at [1; 2; 1] [0; 1; 0]) = tshape ex_x /\ pairing ex_x (delta_at [1; 2; 1] [0; 1; 0]) <> RtoC 0.
Proof. exact ex_pairing. Qed.
Example C74_case_transpose_differs_from_inverse : exists a b, fftn_transpose_rule ex_x = Ok a /\ ifftn3 ex_x = Ok b /\ ~ teq a b.
Proof. exact ex_differs. Qed.

(** C111 *)
Theorem C111_vmap_fft : forall x bd, (4 <= ndim x /\ bd < ndim x -> exists y, vmap_fftn3d x bd = Ok (y, 0) /\ maps_slices fftn3 x bd y) /\
  (~ (4 <= ndim x /\ bd < ndim x) -> vmap_fftn3d x bd = Err ValueErr).
Proof. exact vmap_ok. Qed.
Print Assumptions C111_vmap_fft.

Theorem C111_vmap_ifft : forall x bd, (4 <= ndim x /\ bd < ndim x -> exists y, vmap_ifftn3d x bd = Ok (y, 0) /\ maps_slices ifftn3 x bd y) /\
  (~ (4 <= ndim x /\ bd < ndim x) -> vmap_ifftn3d x bd = Err ValueErr).
Proof. exact vmap_ok'. Qed.
Print Assumptions C111_vmap_ifft.

Example C111_case : 4 <= ndim ex_batched /\ 2 < ndim ex_batched /\ exists y, vmap_fftn3d ex_batched 2 = Ok (y, 0) /\ tshape y = [3; 2; 1; 4].
Proof. exact ex_vmap. Qed.

(** C75 *)
Theorem C75_rank : forall spec rank, 1 <= rank -> length (supported_sharding spec rank) = rank.
Proof. exact supported_length. Qed.
Print Assumptions C75_rank.

Theorem C75_axes : forall spec rank j, 1 <= rank -> nth j (supported_sharding spec rank) [] = if S j <? rank then nth j spec [] else [].
Proof. exact supported_nth. Qed.
Print Assumptions C75_axes.

Theorem C75_fft_correct_iff : forall m spec sh, 3 <= length sh -> Forall (fun n => 0 < n) sh ->
  (distributed_ok fftn3 (sharded_fftn m spec) sh <->
    (forall j, S j < length sh -> nth j sh 0 mod axis_parts m spec j = 0) /\ axis_parts m spec (length sh - 3) = 1 /\ axis_parts m spec (length sh - 2) = 1).
Proof. exact fft_dist. Qed.
Print Assumptions C75_fft_correct_iff.

Theorem C75_ifft_correct_iff : forall m spec sh, 3 <= length sh -> Forall (fun n => 0 < n) sh ->
  (distributed_ok ifftn3 (sharded_ifftn m spec) sh <->
    (forall j, S j < length sh -> nth j sh 0 mod axis_parts m spec j = 0) /\ axis_parts m spec (length sh - 3) = 1 /\ axis_parts m spec (length sh - 2) = 1).
Proof. exact ifft_dist. Qed.
Print Assumptions C75_ifft_correct_iff.

(** "the three transformed axes are left unsharded" is false *)
Theorem C75_transform_axes_unsharded_refuted : exists m spec sh, 3 <= length sh /\ (forall j, S j < length sh -> nth j sh 0 mod axis_parts m spec j = 0) /\
  nth (length sh - 2) (supported_sharding spec (length sh)) [] <> [] /\ (exists y, sharded_fftn m spec (tconst sh) = Ok y) /\ ~ distributed_ok fftn3 (sharded_fftn m spec) sh.
Proof. exact unsharded_refuted. Qed.
Print Assumptions C75_transform_axes_unsharded_refuted.

Example C75_case : distributed_ok fftn3 (sharded_fftn [("x"%string, 2)] [["x"%string]]) [4; 1; 3; 5].
Proof. exact ex_dist. Qed.
Example C75_case_last_axis_gathered : distributed_ok fftn3 (sharded_fftn [("x"%string, 2)] [[]; []; ["x"%string]]) [1; 3; 4].
Proof. exact ex_gather. Qed.

(** C110 *)
Theorem C110_single_device : forall key split rand ndev k shape, uniform key split rand ndev k shape None = Ok (rand k shape).
Proof. reflexivity. Qed.
Print Assumptions C110_single_device.

Theorem C110_returns : forall key split rand ndev k shape m, NoDup (map fst m) -> Forall (fun p => 0 < snd p) m ->
  ((exists y, uniform key split rand ndev k shape (Some (m, axis_by_axis m)) = Ok y) <->
    length m <= length shape /\ nprod (map snd m) <= ndev /\ divides_all (split_sizes m (length shape)) shape).
Proof. exact @uniform_returns. Qed.
Print Assumptions C110_returns.

Theorem C110_blocks : forall key split rand ndev k shape m y, NoDup (map fst m) -> uniform key split rand ndev k shape (Some (m, axis_by_axis m)) = Ok y ->
  let ls := zipw Nat.div shape (split_sizes m (length shape)) in
  tshape y = shape /\ forall d c l, nth_error (indices (map snd m)) d = Some c -> inb l ls -> tget y (global_index ls c l) = tget (rand (device_key split k d) ls) l.
Proof. exact @uniform_canonical. Qed.
Print Assumptions C110_blocks.

Theorem C110_blocks_cover : forall shape m i, length m <= length shape -> Forall (fun p => 0 < snd p) m -> divides_all (split_sizes m (length shape)) shape -> inb i shape ->
  let ls := zipw Nat.div shape (split_sizes m (length shape)) in exists d c l, nth_error (indices (map snd m)) d = Some c /\ inb l ls /\ i = global_index ls c l.
Proof. exact global_cover. Qed.
Print Assumptions C110_blocks_cover.

Theorem C110_mesh_axes_in_order : forall key split rand ndev k shape m spec y, uniform key split rand ndev k shape (Some (m, spec)) = Ok y ->
  length m <= length shape /\ zipw Nat.div shape (map (parts m) (full_spec spec (length shape))) = zipw Nat.div shape (split_sizes m (length shape)).
Proof. exact @uniform_positional. Qed.
Print Assumptions C110_mesh_axes_in_order.

(** "any NamedSharding is accepted" is false: a spec that names the mesh axes in another order raises. *)
Theorem C110_any_order_refuted : exists m spec shape, divides_all (map (parts m) (full_spec spec (length shape))) shape /\ NoDup (map fst m) /\
  forall key split rand ndev k, 2 <= ndev -> exists e, uniform key split rand ndev k shape (Some (m, spec)) = Err e.
Proof. exact any_order_refuted. Qed.
Print Assumptions C110_any_order_refuted.

Example C110_case : exists y, uniform nat (fun k => (k + 1, 10 * k)) (fun k s => mkT s (fun i => INR (k + nth 0 i 0))) 4 1 [4; 2] (Some ([("a"%string, 2)], [["a"%string]])) = Ok y /\
  tget y [3; 1] = INR 21.
Proof. exact ex_uniform. Qed.
