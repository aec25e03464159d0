(** Property theorems C07, C16, C17: compact coefficients and the full grid. *)
From Coq Require Import List Arith ZArith Reals Lia.
From Coquelicot Require Import Complex.
From Verif Require Import Base Sums Tensor GridModel PadModel PadProofs.
Import ListNotations.
Local Open Scope nat_scope.

(** C07.  [cubic_tensor ns m] is the mask returned by [cubic_mask], as a boolean array;
    [mask_positions] lists its True positions row-major; [indices sh] lists all
    positions of an array of shape [sh] row-major. *)
Theorem C07_pad_is_mask_scatter : forall t bs n1 n2 n3 m, let ns := [n1; n2; n3] in
  Forall (fun n => 1 <= n /\ n <> 2) ns ->
  cubic_mask (map Z.of_nat ns) = Ok m -> tshape t = bs ++ half_shape ns ->
  length (mask_positions (cubic_tensor ns m)) = nprod (half_shape ns) /\
  exists p, half_frequency_pad_to t ns = Ok p /\ tshape p = bs ++ ns /\
   (forall b j, inb b bs -> j < nprod (half_shape ns) ->
      tget p (b ++ nth j (mask_positions (cubic_tensor ns m)) [])
      = tget t (b ++ nth j (indices (half_shape ns)) [])) /\
   (forall b i, inb b bs -> inb i ns -> tget (cubic_tensor ns m) i = false -> tget p (b ++ i) = RtoC 0%R).
Proof. exact pad_is_scatter. Qed.
Print Assumptions C07_pad_is_mask_scatter.

Theorem C07_pad_equals_expand : forall t bs nb n1 n2 n3 m c, let ns := [n1; n2; n3] in
  Forall (fun n => 1 <= n /\ n <> 2) ns ->
  cubic_mask (map Z.of_nat ns) = Ok m ->
  tshape t = (bs ++ [nb]) ++ half_shape ns ->
  tshape c = bs ++ [nprod (half_shape ns); nb] ->
  (forall b j k, inb b bs -> j < nprod (half_shape ns) -> k < nb ->
     tget c (b ++ [j; k]) = tget t (b ++ [k] ++ nth j (indices (half_shape ns)) [])) ->
  exists p e, half_frequency_pad_to t ns = Ok p /\ expand_coefficient c (cubic_tensor ns m) = Ok e /\ teq p e.
Proof. exact pad_eq_expand. Qed.
Print Assumptions C07_pad_equals_expand.
Example C07_example : Forall (fun n => 1 <= n /\ n <> 2) [5; 3; 8] /\
  half_shape [5; 3; 8] = [3; 2; 4] /\
  exists m, cubic_mask (map Z.of_nat [5; 3; 8]) = Ok m /\
   firstn 3 (mask_positions (cubic_tensor [5; 3; 8] m)) = [[0; 0; 0]; [0; 0; 1]; [0; 0; 6]].
Proof. split; [repeat constructor; lia|]. split; [reflexivity|]. eexists. split; reflexivity. Qed.

Theorem C07_shape_agrees : forall ns,
  half_frequency_shape (map Z.of_nat ns) = map Z.of_nat (half_shape ns).
Proof. exact half_shape_agrees. Qed.
Print Assumptions C07_shape_agrees.

Theorem C07_wrong_shape_raises : forall t ns,
  skipn (length (tshape t) - length ns) (tshape t) <> half_shape ns ->
  half_frequency_pad_to t ns = Err AssertionErr.
Proof. exact pad_bad_shape. Qed.
Print Assumptions C07_wrong_shape_raises.

Theorem C07_size_two_refuted : exists m, cubic_mask (map Z.of_nat [2; 2; 2]) = Ok m /\
  length (mask_positions (cubic_tensor [2; 2; 2] m)) <> nprod (half_shape [2; 2; 2]).
Proof. exact pad_size2. Qed.
Print Assumptions C07_size_two_refuted.

(** C16 *)
Theorem C16_expand_scatters : forall c m bs g nb,
  tshape c = bs ++ [g; nb] -> length (mask_positions m) = g ->
  exists t, expand_coefficient c m = Ok t /\ tshape t = bs ++ [nb] ++ tshape m /\
   (forall b k j, inb b bs -> k < nb -> j < g ->
      tget t (b ++ [k] ++ nth j (mask_positions m) []) = tget c (b ++ [j; k])) /\
   (forall b k i, inb b bs -> k < nb -> inb i (tshape m) -> tget m i = false ->
      tget t (b ++ [k] ++ i) = RtoC 0%R).
Proof. exact expand_spec. Qed.
Print Assumptions C16_expand_scatters.

Theorem C16_gather_recovers : forall c m bs g nb t,
  tshape c = bs ++ [g; nb] -> length (mask_positions m) = g -> expand_coefficient c m = Ok t ->
  exists u, squeeze_coefficient true t m = Ok u /\ teq u c.
Proof. exact gather_expand. Qed.
Print Assumptions C16_gather_recovers.

Theorem C16_inner_products : forall c m bs g nb t,
  tshape c = bs ++ [g; nb] -> length (mask_positions m) = g -> expand_coefficient c m = Ok t ->
  forall b k k', inb b bs -> k < nb -> k' < nb ->
  sumC (indices (tshape m)) (fun i => Cmult (Cconj (tget t (b ++ [k] ++ i))) (tget t (b ++ [k'] ++ i)))
  = sumC (seq 0 g) (fun j => Cmult (Cconj (tget c (b ++ [j; k]))) (tget c (b ++ [j; k']))).
Proof. exact expand_gram. Qed.
Print Assumptions C16_inner_products.

Theorem C16_raises_iff : forall c m bs g nb, tshape c = bs ++ [g; nb] ->
  (raises (expand_coefficient c m) <-> g <> length (mask_positions m) /\ g <> 1).
Proof. exact expand_mismatch. Qed.
Print Assumptions C16_raises_iff.
Example C16_example : exists (c : tensor C) (m : tensor bool),
  tshape c = [2] ++ [3; 2] /\ length (mask_positions m) = 3.
Proof.
  exists (mkT [2; 3; 2] (fun _ => RtoC 1%R)), (mkT [2; 2] (fun i => negb (Nat.eqb (nth 1 i 0 * nth 0 i 0) 1))).
  split; reflexivity.
Qed.

(** C17.  [false]: the array returned by indexing has no attribute [get] (jax arrays). *)
Theorem C17_squeeze_raises : forall c m, raises (squeeze_coefficient false c m).
Proof. exact squeeze_jax_raises. Qed.
Print Assumptions C17_squeeze_raises.
Theorem C17_attribute_error : forall c m bs, tshape c = bs ++ tshape m ->
  squeeze_coefficient false c m = Err AttributeErr.
Proof. exact squeeze_jax_attr. Qed.
Print Assumptions C17_attribute_error.
