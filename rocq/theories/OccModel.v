(** Model of jrystal/_src/occupation.py, entropy.py, unitary_module.py (shapes) and of
    utils.check_spin_number / utils.safe_real.  Floats are real numbers. *)
From Coq Require Import List Arith ZArith Reals Bool.
From Coquelicot Require Import Complex.
From Verif Require Import Base Sums Tensor GridModel.
Import ListNotations.
Local Open Scope R_scope.

(** utils.py 311-328, [check_spin_number].  Python's % on ints is Z.modulo. *)
Definition check_spin_number (num_electrons spin : Z) : res unit :=
  if negb (num_electrons mod 2 =? spin mod 2)%Z then Err ValueErr else Ok tt.

(** numpy arrays are complex or real. *)
Inductive ndarray := CArr (t : tensor C) | RArr (t : tensor R).

(** utils.py 25-59, [safe_real]: [allclose(imag, 0, atol=tol)] is |imag| <= tol + rtol*0. *)
Definition safe_real (a : ndarray) (tol : R) : res (tensor R) :=
  match a with
  | CArr t => if forallb (fun i => if Rle_dec (Rabs (snd (tget t i))) tol then true else false) (indices (tshape t))
              then Ok (tmap fst t) else Err ValueErr
  | RArr t => Ok t
  end.

(** [jnp.sum(occ, axis=0, keepdims=True)] of a [2, K, B] array. *)
Definition sum_spin (occ : tensor R) : tensor R :=
  mkT (1%nat :: tl (tshape occ)) (fun i => tget occ (0%nat :: tl i) + tget occ (1%nat :: tl i)).

(** occupation.py 147-190, [uniform].  [occ.at[s, :, :b].set(v)]: the slice bound b follows
    Python's rule for negative bounds ([py_bound]). *)
Definition uniform (num_k : nat) (N s : Z) (num_bands : option nat) (restricted : bool) : res (tensor R) :=
  match (match num_bands with Some b => Some b | None => if (N <? 0)%Z then None else Some (Z.to_nat N) end) with
  | None => Err ValueErr                                         (* negative dimension *)
  | Some B =>
      if (num_k =? 0)%nat then Err ZeroDivisionErr               (* 1 / num_k *)
      else
        let bound sp := py_bound (Z.of_nat B) (if (sp =? 0)%nat then (N + s) / 2 else (N - s) / 2)%Z in
        let occ := mkT [2%nat; num_k; B]
           (fun i => if (Z.of_nat (nth 2 i 0%nat) <? bound (nth 0 i 0%nat))%Z then 1 / INR num_k else 0) in
        Ok (if restricted then sum_spin occ else occ)
  end.

(** occupation.py 193-237, [gamma].  With no k-point the scatter index 0 is out of range and
    jax drops the update. *)
Definition gamma (num_k : nat) (N s : Z) (num_bands : option nat) (restricted : bool) : res (tensor R) :=
  match (match num_bands with Some b => Some b | None => if (N <? 0)%Z then None else Some (Z.to_nat N) end) with
  | None => Err ValueErr
  | Some B =>
      let bound sp := py_bound (Z.of_nat B) (if (sp =? 0)%nat then (N + s) / 2 else (N - s) / 2)%Z in
      let occ := mkT [2%nat; num_k; B]
         (fun i => if (nth 1 i 0%nat =? 0)%nat && (Z.of_nat (nth 2 i 0%nat) <? bound (nth 0 i 0%nat))%Z
                   then 1 else 0) in
      Ok (if restricted then sum_spin occ else occ)
  end.

(** A real parameter matrix of a unitary module: 'w_re' (the 'w_im' entry is unused for
    complex=False).  unitary_module.py 28-75: [unitary_matrix(params, False)] is the Q of the
    reduced QR of it; [qr] is the oracle for jnp.linalg.qr(mode='reduced')[0]. *)
(** occupation.py 131-136, [o]: row sums of squares of Q, [einsum(u, u.T, "nk ik, ik nk -> nk")]. *)
Definition occ_of (qr : tensor R -> tensor R) (w : tensor R) : list R :=
  let q := qr w in
  map (fun i => sumR (seq 0 (nth 1 (tshape q) 0%nat)) (fun j => tget q [i; j] * tget q [i; j]))
      (seq 0 (nth 0 (tshape q) 0%nat)).

(** occupation.py 88-144, [idempotent]; params are (param_up, param_down).  The reshape to
    [num_kpts, num_bands] needs the right number of entries. *)
Definition idempotent (qr : tensor R -> tensor R) (up down : tensor R) (num_k : nat) (restricted : bool) : res (tensor R) :=
  if (num_k =? 0)%nat then Err ZeroDivisionErr else
  let B := (nth 0 (tshape up) 0 / num_k)%nat in
  let ou := occ_of qr up in
  let od := occ_of qr down in
  if (length ou =? num_k * B)%nat && (length od =? num_k * B)%nat then
    Ok (if restricted
        then mkT [1; num_k; B]%nat
               (fun i => (nth (nth 1 i 0 * B + nth 2 i 0)%nat ou 0 + nth (nth 1 i 0 * B + nth 2 i 0)%nat od 0) / INR num_k)
        else mkT [2; num_k; B]%nat
               (fun i => nth (nth 1 i 0 * B + nth 2 i 0)%nat (if (nth 0 i 0 =? 0)%nat then ou else od) 0 / INR num_k))
  else Err TypeErr.

(** occupation.py 27-85, [idempotent_param_init]; [rnd shape] is the random array of that
    shape (unitary_module.py 78-118); a negative dimension raises. *)
Definition idempotent_param_init (rnd : list nat -> tensor R) (B : nat) (N : Z) (K : nat) (s : Z) (restricted : bool)
  : res (tensor R * tensor R) :=
  do _ <- check_spin_number N s;
  let nu := ((N + s) / 2)%Z in
  let nd := ((N - s) / 2)%Z in
  if (nu * Z.of_nat K <? 0)%Z then Err TypeErr else
  let pu := rnd [B * K; Z.to_nat nu * K]%nat in
  if restricted then Ok (pu, pu)
  else if (nd * Z.of_nat K <? 0)%Z then Err TypeErr else
       Ok (pu, rnd [B * K; Z.to_nat nd * K]%nat).

(** jnp.sort, ascending (insertion sort; any sorting routine gives the same list). *)
Fixpoint Rinsert (x : R) (l : list R) : list R :=
  match l with [] => [x] | y :: l' => if Rle_dec x y then x :: l else y :: Rinsert x l' end.
Definition Rsort (l : list R) : list R := fold_right Rinsert [] l.

Definition lsum (l : list R) : R := fold_right Rplus 0 l.
(** jnp.cumsum(l)[i] *)
Definition cumsum (l : list R) (i : nat) : R := lsum (firstn (S i) l).

(** IEEE comparison [y > a / d] for d >= 0: a/0 is -inf, +inf or nan by the sign of a. *)
Definition gt_div (y a d : R) : bool :=
  if Req_EM_T d 0 then (if Rlt_dec a 0 then true else false)
  else (if Rlt_dec (a / d) y then true else false).
(** IEEE comparison [y - a / d < 1]. *)
Definition sub_div_lt1 (y a d : R) : bool :=
  if Req_EM_T d 0 then (if Rlt_dec 0 a then true else false)
  else (if Rlt_dec (y - a / d) 1 then true else false).

(** jnp.argmax of a boolean array: first True, 0 if there is none. *)
Fixpoint argmax_b (l : list bool) : nat :=
  match l with
  | [] => 0%nat
  | b :: l' => if b then 0%nat else if existsb (fun x => x) l' then S (argmax_b l') else 0%nat
  end.

(** occupation.py 309-320, [pushdown]. *)
Definition pushdown (x : list R) (sum : R) : list R :=
  let n := length x in
  let xs := Rsort x in
  let x_sum := lsum x in
  let k := argmax_b (map (fun i => gt_div (nth i xs 0) (x_sum - sum - cumsum xs i) (INR n - INR i - 1)) (seq 0 n)) in
  let lam := if (k =? 0)%nat then (x_sum - sum) / INR n
             else (x_sum - sum - cumsum xs (k - 1)) / (INR n - INR k) in
  map (fun v => Rmax (v - lam) 0) x.

(** occupation.py 322-335, [pushup]; x_sorted is reversed. *)
Definition pushup (x : list R) (sum : R) : list R :=
  let n := length x in
  let xs := rev (Rsort x) in
  let x_sum := lsum x in
  let k := argmax_b (map (fun i => sub_div_lt1 (nth i xs 0) (x_sum - sum + (INR i + 1 - cumsum xs i)) (INR n - INR i - 1)) (seq 0 n)) in
  let lam := if (k =? 0)%nat then (sum - x_sum) / INR n
             else (sum - x_sum - (INR k - cumsum xs (k - 1))) / (INR n - INR k) in
  map (fun v => Rmin (v + lam) 1) x.

(** occupation.py 295-338, [proj]. *)
Definition proj (x : list R) (sum : R) : list R :=
  if Rle_dec (lsum x) sum then pushup x sum else pushdown x sum.

Definition sigmoid (x : R) : R := / (1 + exp (- x)).

(** occupation.py 341-366, [simplex_projector].  [params["param_up"]] is a [K, B] array (with
    fewer axes [shape[1]] raises; more axes are not modelled); the down parameters are flattened
    and reshaped, so only their number of entries counts.  With no entries [jnp.argmax] raises. *)
Definition ravel (t : tensor R) : list R := map (tget t) (indices (tshape t)).
Definition simplex_projector (up down : tensor R) (N s : Z) (restricted : bool) : res (tensor R) :=
  match tshape up with
  | [K; B] =>
      if (K * B =? 0)%nat then Err ValueErr else
      if (nprod (tshape down) =? K * B)%nat then
        let mu := IZR ((N + s) / 2 * Z.of_nat K) in
        let md := IZR ((N - s) / 2 * Z.of_nat K) in
        let pu := proj (map sigmoid (ravel up)) mu in
        let pd := proj (map sigmoid (ravel down)) md in
        let occ := mkT [2; K; B]%nat (fun i =>
           nth (nth 1 i 0 * B + nth 2 i 0)%nat (if (nth 0 i 0 =? 0)%nat then pu else pd) 0 / INR K) in
        Ok (if restricted then sum_spin occ else occ)
      else Err TypeErr
  | _ => Err IndexErr
  end.

(** occupation.py 281-292, [simplex_projector_init]. *)
Definition simplex_projector_init (B K : nat) : tensor R :=
  let n := (B * K)%nat in
  mkT [K; B] (fun i => (INR (nth 0 i 0 * B + nth 1 i 0)%nat - INR (n / 2)%nat) * / 10).

(** entropy.py 19-54, [fermi_dirac] of a [num_spin, num_k, num_bands] array. *)
Definition fermi_dirac (occ : tensor R) (eps : R) : res R :=
  match tshape occ with
  | [num_spin; num_k; _] =>
      let w := (3 - INR num_spin) / INR num_k in
      Ok (- sumR (indices (tshape occ)) (fun i =>
            tget occ i * ln (eps + tget occ i) + (w - tget occ i) * ln (eps + w - tget occ i)))
  | _ => Err ValueErr
  end.

(** The [method] argument; [OtherMethod] is any other string. *)
Inductive occ_method := MIdempotent | MUniform | MGamma | MSimplex | MOther.
(** What param_init returns: a dictionary with param_up and param_down, or an array. *)
Inductive occ_params := PDict (up down : tensor R) | PArr (occ : tensor R).

(** occupation.py 240-258, [param_init].  The idempotent branch does not pass
    spin_restricted on, so its default True is used. *)
Definition occ_param_init (rnd : list nat -> tensor R) (B : nat) (N : Z) (K : nat) (s : Z) (m : occ_method) (restricted : bool)
  : res occ_params :=
  match m with
  | MIdempotent => do p <- idempotent_param_init rnd B N K s true; Ok (PDict (fst p) (snd p))
  | MUniform => do o <- uniform K N s (Some B) restricted; Ok (PArr o)
  | MGamma => do o <- gamma K N s (Some B) restricted; Ok (PArr o)
  | MSimplex => Ok (PDict (simplex_projector_init B K) (simplex_projector_init B K))
  | MOther => Err ValueErr
  end.

(** occupation.py 261-278, [occupation].  Indexing an array with a string raises.  For
    uniform and gamma the parameters themselves are returned; a dictionary returned that
    way is not an occupation array, so that case is an error here. *)
Definition occupation (qr : tensor R -> tensor R) (p : occ_params) (K : nat) (N s : Z) (m : occ_method) (restricted : bool)
  : res (tensor R) :=
  match m, p with
  | MIdempotent, PDict u d => idempotent qr u d K restricted
  | MIdempotent, PArr _ => Err TypeErr
  | (MUniform | MGamma), PArr o => Ok o
  | (MUniform | MGamma), PDict _ _ => Err TypeErr
  | MSimplex, PDict u d => simplex_projector u d N s restricted
  | MSimplex, PArr _ => Err TypeErr
  | MOther, _ => Err ValueErr
  end.
