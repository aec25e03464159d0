(** Model of jrystal/_src/braket.py and kinetic.py. *)
From Coq Require Import List Arith ZArith Reals Bool.
From Coquelicot Require Import Complex.
From Verif Require Import Base Sums Tensor DFT GridModel Lin3 VecModel PwModel.
Import ListNotations.
Local Open Scope R_scope.

(** braket.py 27-72, [reciprocal_braket].  [bra.shape[-3:]] is [grid3]; num_grids is the
    product of all axes of bra; the product broadcasts. *)
Definition reciprocal_braket (bra ket : tensor C) (vol : R) : res R :=
  if list_eq_dec Nat.eq_dec (grid3 bra) (grid3 ket) then
    let n := INR (nprod (tshape bra)) in
    do p <- tzip (fun a b => (Cconj a * b)%C) bra ket;
    Ok (Re (tsum_all p * RtoC (1 / n) * RtoC (vol / n))%C)
  else Err ValueErr.

(** braket.py 75-114, [real_braket]: no conjugation. *)
Definition real_braket (bra ket : tensor C) (vol : R) : res C :=
  if list_eq_dec Nat.eq_dec (tshape bra) (tshape ket) then
    let n := INR (nprod (tshape bra)) in
    do p <- tzip Cmult bra ket;
    Ok (tsum_all p * RtoC (vol / n))%C
  else Err ValueErr.

(** The [mode] argument of [expectation]; [OtherMode] is any other string. *)
Inductive emode := RealMode | ReciprocalMode | KineticMode | OtherMode.

(** braket.py 117-207, [expectation].  The contraction broadcasts axes of length 1 of the
    same label (jnp.einsum); other mismatches raise.  A rank-3 operator has no k axis, which
    is the same as a k axis of length 1. *)
Definition expectation (bra ham : tensor C) (vol : R) (ket : option (tensor C)) (diagonal : bool) (mode : emode)
  : res (tensor C) :=
  let ket := match ket with Some k => k | None => bra end in
  if negb (ndim bra =? 6)%nat then Err AssertionErr else
  if negb ((ndim ham =? 3)%nat || (ndim ham =? 4)%nat) then Err AssertionErr else
  let n := INR (nprod (grid3 bra)) in
  do factor <- match mode with
               | ReciprocalMode => Ok (vol / n * (1 / n))
               | RealMode => Ok (vol / n)
               | KineticMode => Ok 1
               | OtherMode => Err ValueErr
               end;
  let ham := if (ndim ham =? 3)%nat then mkT (1%nat :: tshape ham) (fun i => tget ham (tl i)) else ham in
  match tshape bra, tshape ham, tshape ket with
  | [a; k; b; x; y; z], [hk; hx; hy; hz], [a'; k'; b'; x'; y'; z'] =>
      match bshape [a; k; x; y; z] [a'; k'; x'; y'; z'] with
      | None => Err ValueErr
      | Some s1 =>
          match bshape s1 [1; hk; hx; hy; hz]%nat with
          | Some [sA; sK; sX; sY; sZ] =>
              let term i j sp kk g :=
                (Cconj (tget bra (clip1 [a; k; b; x; y; z] ([sp; kk; i] ++ g)))
                 * tget ham (clip1 [hk; hx; hy; hz] (kk :: g))
                 * tget ket (clip1 [a'; k'; b'; x'; y'; z'] ([sp; kk; j] ++ g)))%C in
              let entry i j sp kk := (RtoC factor * sumC (indices [sX; sY; sZ]) (term i j sp kk))%C in
              if diagonal then
                match bshape [b] [b'] with
                | Some [sB] => Ok (mkT [sA; sK; sB] (fun i => entry (nth 2 i 0%nat) (nth 2 i 0%nat) (nth 0 i 0%nat) (nth 1 i 0%nat)))
                | _ => Err ValueErr
                end
              else Ok (mkT [sA; sK; b; b'] (fun i => entry (nth 2 i 0%nat) (nth 3 i 0%nat) (nth 0 i 0%nat) (nth 1 i 0%nat)))
          | _ => Err ValueErr
          end
      end
  | _, _, _ => Err ValueErr
  end.

(** kinetic.py 22-45, [kinetic_operator], for a grid of rank 3. *)
Definition kinetic_operator (G : tensor v3) (kpts : option (list v3)) : tensor R :=
  let ks := match kpts with Some l => l | None => [vzero] end in
  mkT (length ks :: tshape G) (fun i => let q := vadd (tget G (tl i)) (nth (hd 0%nat i) ks vzero) in dot q q / 2).
