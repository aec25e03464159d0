(** Model of jrystal/_src/grid.py [_half_frequency_pad_to] and of
    jrystal/_src/utils.py [expand_coefficient], [squeeze_coefficient]. *)
From Coq Require Import List Arith ZArith Bool Reals.
From Coquelicot Require Import Complex.
From Verif Require Import Base Sums Tensor GridModel.
Import ListNotations.
Local Open Scope nat_scope.

(** Replace component [a] of a list. *)
Fixpoint upd {A} (a : nat) (f : A -> A) (l : list A) : list A :=
  match l, a with
  | [], _ => []
  | x :: l', O => f x :: l'
  | x :: l', S a' => x :: upd a' f l'
  end.

(** jnp.split(u, [p], axis=a): entries [0,p) and [p,n) of axis a. *)
Definition split2 {A} (a p : nat) (u : tensor A) : list (tensor A) :=
  [ mkT (upd a (fun n => Nat.min p n) (tshape u)) (tget u);
    mkT (upd a (fun n => n - p) (tshape u)) (fun i => tget u (upd a (Nat.add p) i)) ].

(** grid.py 80-85, the loop that splits along every axis.  [a] is
    [i + len(batch_dims)], [szs] the remaining [sizes]. *)
Fixpoint split_axes {A} (a : nat) (szs : list (nat * nat)) (us : list (tensor A)) : list (tensor A) :=
  match szs with
  | [] => us
  | sz :: szs' => split_axes (S a) szs' (flat_map (split2 a (fst sz)) us)
  end.

(** itertools.product of a list of pairs. *)
Fixpoint product2 (l : list (nat * nat)) : list (list nat) :=
  match l with
  | [] => [[]]
  | (x, y) :: l' => map (cons x) (product2 l') ++ map (cons y) (product2 l')
  end.

(** lax.dynamic_update_slice: each start is clamped so that the update fits. *)
Fixpoint clamp_starts (start ush sh : list nat) : list nat :=
  match start, ush, sh with
  | s :: start', u :: ush', n :: sh' => Nat.min s (n - u) :: clamp_starts start' ush' sh'
  | _, _, _ => []
  end.
Fixpoint in_block (start ush i : list nat) : bool :=
  match start, ush, i with
  | s :: start', u :: ush', k :: i' => (s <=? k) && (k <? s + u) && in_block start' ush' i'
  | _, _, _ => true
  end.
Fixpoint sub_start (start i : list nat) : list nat :=
  match start, i with s :: start', k :: i' => (k - s) :: sub_start start' i' | _, _ => i end.
Definition dyn_update_slice {A} (ret u : tensor A) (start : list nat) : tensor A :=
  let s := clamp_starts start (tshape u) (tshape ret) in
  mkT (tshape ret)
      (fun i => if in_block s (tshape u) i then tget u (sub_start s i) else tget ret i).

(** [_half_frequency_ranges] with natural-number sizes (grid.py 37-54): starts and sizes. *)
Definition half_starts (ns : list nat) : list (nat * nat) :=
  map (fun n => let '((p, q), _) := half_range (Z.of_nat n) in (Z.to_nat p, Z.to_nat q)) ns.
Definition half_sizes (ns : list nat) : list (nat * nat) :=
  map (fun n => let '(_, (p, q)) := half_range (Z.of_nat n) in (Z.to_nat p, Z.to_nat q)) ns.
Definition half_shape (ns : list nat) : list nat := map (fun s => fst s + snd s) (half_sizes ns).

(** jrystal/_src/grid.py 72-90, [_half_frequency_pad_to], for a non-empty [grid_sizes] (with
    no axes [shape[:-0]] is empty, so the code then has no batch axes; not modelled). *)
Definition half_frequency_pad_to (t : tensor C) (ns : list nat) : res (tensor C) :=
  let nb := length (tshape t) - length ns in
  let batch := firstn nb (tshape t) in
  if list_eq_dec Nat.eq_dec (skipn nb (tshape t)) (half_shape ns) then
    let updates := split_axes (length batch) (half_sizes ns) [t] in
    let start_indices := product2 (half_starts ns) in
    Ok (fold_left (fun ret su => dyn_update_slice ret (snd su) (repeat 0 (length batch) ++ fst su))
          (combine start_indices updates)
          (mkT (batch ++ ns) (fun _ => RtoC 0%R)))
  else Err AssertionErr.

(** Positions at which a boolean array is True, row-major (numpy.nonzero order). *)
Definition mask_positions (m : tensor bool) : list (list nat) :=
  filter (tget m) (indices (tshape m)).

Fixpoint find_index (i : list nat) (l : list (list nat)) : option nat :=
  match l with
  | [] => None
  | x :: l' => if list_eq_dec Nat.eq_dec x i then Some 0 else option_map S (find_index i l')
  end.

(** [zeros(bs ++ mask.shape).at[..., mask].set(v)] with v of shape bs ++ [g]:
    the j-th True position receives v[..., j]; v is broadcast if g = 1;
    any other length mismatch raises. *)
Definition scatter (bs : list nat) (m : tensor bool) (g : nat) (v : list nat -> C) : res (tensor C) :=
  let ps := mask_positions m in
  if (g =? length ps) || (g =? 1) then
    Ok (mkT (bs ++ tshape m)
        (fun i => let b := firstn (length bs) i in
                  match find_index (skipn (length bs) i) ps with
                  | Some j => v (b ++ [if g =? 1 then 0 else j])
                  | None => RtoC 0%R
                  end))
  else Err ValueErr.

(** Swap the last two components. *)
Definition swap_last2 (i : list nat) : list nat :=
  match rev i with x :: y :: r => rev r ++ [x; y] | _ => i end.

(** jrystal/_src/utils.py 257-281, [expand_coefficient]. *)
Definition expand_coefficient (c : tensor C) (m : tensor bool) : res (tensor C) :=
  if length (tshape c) <? 2 then Err ValueErr else
  let sh := swap_last2 (tshape c) in                          (* swapaxes(-1,-2) *)
  let v := fun i => tget c (swap_last2 i) in
  scatter (removelast sh) m (last sh 0) v.

(** Boolean-mask gather on the trailing axes: [c[..., mask]], shape bs ++ [count]. *)
Definition gather (c : tensor C) (m : tensor bool) : res (tensor C) :=
  let nb := length (tshape c) - length (tshape m) in
  let ps := mask_positions m in
  if list_eq_dec Nat.eq_dec (skipn nb (tshape c)) (tshape m) then
    Ok (mkT (firstn nb (tshape c) ++ [length ps])
            (fun i => tget c (firstn nb i ++ nth (nth nb i 0) ps [])))
  else Err IndexErr.

(** jrystal/_src/utils.py 284-308, [squeeze_coefficient].  [has_get] says whether the
    object returned by indexing has a method [get]; jax arrays do not
    (the code probably meant [coeff.at[..., mask].get()]). *)
Definition squeeze_coefficient (has_get : bool) (c : tensor C) (m : tensor bool) : res (tensor C) :=
  do g <- gather c m;
  if has_get then Ok (mkT (swap_last2 (tshape g)) (fun i => tget g (swap_last2 i)))
  else Err AttributeErr.
