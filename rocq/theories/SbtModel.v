(** Model of jrystal/sbt: sbt_numerical.py, sbt.py, pysbt.py.  The spherical Bessel functions
    [jn l x] (scipy) are a parameter; reals replace floats. *)
From Coq Require Import Reals ZArith.
From Coquelicot Require Import Complex.
From Coq Require Import List Arith Bool.
From Verif Require Import Base Sums.
Import ListNotations.
Local Open Scope R_scope.

(** The argument l: an int, something with a length and indexing, or anything else. *)
Inductive l_arg := LInt (l : Z) | LList (ls : list Z) | LOther.
(** The argument f_grid: one function or a stack of functions. *)
Inductive f_arg := F1 (f : list R) | F2 (fs : list (list R)).

(** np.linspace(a, b, n) *)
Definition linspace (a b : R) (n : nat) : list R :=
  match n with
  | O => []
  | 1%nat => [a]
  | _ => map (fun i => a + INR i * ((b - a) / (INR n - 1))) (seq 0 n)
  end.
(** sbt_numerical.py 45-47: the spacing, zero at the last point. *)
Fixpoint spacing (r : list R) : list R :=
  match r with [] => [] | [_] => [0] | a :: ((b :: _) as r') => b - a :: spacing r' end.

Section Bessel.
Variable jn : Z -> R -> R.

(** einsum "r, r, r, r ->" for one function, one g. *)
Definition quad (r delta f : list R) (l : Z) (g : R) : R :=
  sumR (seq 0 (length r)) (fun i => nth i f 0 * (nth i r 0) ^ 2 * jn l (g * nth i r 0) * nth i delta 0).

(** sbt_numerical.py 13-81, [sbt].  A row of f_grid or delta_r of the wrong length makes einsum raise
    (ValueErr stands for the einops error; numpy would stretch a row of
    length one, here it raises). *)
Definition sbt_numerical (r : list R) (f : f_arg) (l : l_arg) (kmax : option R) (delta_r : option (list R)) : res (list R * list (list R)) :=
  let delta := match delta_r with Some d => d | None => spacing r end in
  match kmax with
  | None => Err TypeErr
  | Some gmax =>
      let g := linspace (/ 10000) gmax (2 * length r) in
      let fits (fs : list (list R)) := forallb (fun row => (length row =? length r)%nat) fs && (length delta =? length r)%nat in
      match l with
      | LList ls =>
          match f with
          | F2 fs =>
              if (length fs =? length ls)%nat then
                if fits fs then Ok (g, map (fun fl => map (quad r delta (fst fl) (snd fl)) g) (combine fs ls)) else Err ValueErr
              else Err AssertionErr
          | F1 _ => Err AssertionErr
          end
      | LInt l0 =>
          let fs := match f with F1 v => [v] | F2 fs => fs end in
          if fits fs then Ok (g, map (fun v => map (quad r delta v l0) g) fs) else Err ValueErr
      | LOther => Err ValueErr
      end
  end.
End Bessel.

(** sbt.py 67-102, [batch_sbt], over the single transform [sbt1] (its errors are not modelled); with no
    row transformed, k is unbound. *)
Definition batch_sbt {K G} (sbt1 : list R -> Z -> K * G) (fs : list (list R)) (l : l_arg) : res (K * list G) :=
  match l with
  | LOther => Err ValueErr
  | LList ls =>
      match rev (map (fun fl => sbt1 (fst fl) (snd fl)) (combine fs ls)) with
      | [] => Err UnboundLocalErr
      | (k, _) :: _ => Ok (k, map (fun fl => snd (sbt1 (fst fl) (snd fl))) (combine fs ls))
      end
  | LInt l0 =>
      match rev (map (fun f => sbt1 f l0) fs) with
      | [] => Err UnboundLocalErr
      | (k, _) :: _ => Ok (k, map (fun f => snd (sbt1 f l0)) fs)
      end
  end.

(** ** pysbt.py *)
(** pysbt.py 54-122, [sbt_init]: the log grids. *)
Definition drho (r : list R) : R := (ln (last r 0) - ln (hd 0 r)) / (INR (length r) - 1).
Definition kappa_min (r : list R) (kmax : R) : R := ln kmax - (ln (last r 0) - ln (hd 0 r)).
Definition kk (r : list R) (kmax : R) (i : nat) : R := exp (kappa_min r kmax) * exp (INR i * drho r).

(** range(m, 1, -2) *)
Fixpoint down (m : nat) : list nat := match m with S ((S k) as m1) => S m1 :: down k | _ => [] end.
Definition upd (w : nat -> R) (i : nat) (v : R) (j : nat) : R := if (j =? i)%nat then v else w j.
(** pysbt.py 114-118: the loop that sets the Simpson weights on the grid values [x]. *)
Definition simpson_step (h : R) (x : nat -> R) (w : nat -> R) (ii : nat) : nat -> R :=
  let w1 := upd w ii (h * x ii / 3 + w ii) in
  let w2 := upd w1 (ii - 1) (h * x (ii - 1)%nat * 4 / 3) in
  upd w2 (ii - 2) (h * x (ii - 2)%nat / 3).
Definition simpson_weights (h : R) (x : nat -> R) (nr : nat) : nat -> R :=
  fold_left (simpson_step h x) (down (nr - 1)) (fun _ => 0).

(** pysbt.py 291-351, [run_int]: direct integration, direction 1 (jl(kr) on the r grid) or -1. *)
Section RunInt.
Variable jn : Z -> R -> R.
Definition run_int (r : list R) (kmax : R) (ff : list R) (l : Z) (direction : Z) (norm include_zero : bool) : res (list R) :=
  let nr := length r in
  let x i := nth i r 0 in let k i := kk r kmax i in
  let pref := if norm then sqrt (2 / PI) else 1 in
  let wr := simpson_weights (drho r) x nr in let wk := simpson_weights (drho r) k nr in
  if (direction =? 1)%Z then
    let gg := map (fun j => pref * sumR (seq 0 nr) (fun i => jn l (x i * k j) * (x i ^ 2 * nth i ff 0 * wr i))) (seq 0 nr) in
    Ok (if include_zero then pref * jn l 0 * sumR (seq 0 nr) (fun i => wr i * x i ^ 2 * nth i ff 0) :: gg else gg)
  else if (direction =? -1)%Z then
    let gg := map (fun i => pref * sumR (seq 0 nr) (fun j => jn l (x i * k j) * (k j ^ 2 * nth j ff 0 * wk j))) (seq 0 nr) in
    Ok (if include_zero then pref * jn l 0 * sumR (seq 0 nr) (fun j => wk j * k j ^ 2 * nth j ff 0) :: gg else gg)
  else Err ValueErr.
End RunInt.

(** ** The fast transform *)
Section Run.
(** The tables M_lt1, M_lt2 of [sbt_mltb] (pysbt.py 124-176). *)
Variables (m1 m2 : nat -> nat -> C).
Definition cexp (t : R) : C := (cos t, sin t).
(** scipy.fft.rfft, ifft, irfft *)
Definition rfft (x : nat -> R) (N k : nat) : C := sumC (seq 0 N) (fun n => Cmult (RtoC (x n)) (cexp (- (2 * PI * INR k * INR n / INR N)))).
Definition ifft1 (y : nat -> C) (N n : nat) : C := Cmult (RtoC (/ INR N)) (sumC (seq 0 N) (fun k => Cmult (y k) (cexp (2 * PI * INR k * INR n / INR N)))).
Definition irfft (c : nat -> C) (M n : nat) : R :=
  let N := (2 * (M - 1))%nat in
  / INR N * (Re (c 0%nat) + sumR (seq 1 (M - 2)) (fun k => 2 * Re (Cmult (c k) (cexp (2 * PI * INR k * INR n / INR N))))
             + Re (Cmult (c (M - 1)%nat) (cexp (2 * PI * INR (M - 1) * INR n / INR N)))).
(** np.argmin: the first smallest. *)
Fixpoint argmin_from (v : nat -> R) (best i n : nat) : nat :=
  match n with O => best | S n' => argmin_from v (if Rlt_dec (v i) (v best) then i else best) (S i) n' end.
Definition argmin (v : nat -> R) (n : nat) : nat := argmin_from v 0 1 (n - 1).

(** pysbt.py 178-289, [run] for a non-negative l, include_zero and return_rr off: first the large-k then the small-k result, then
    the switch where they agree best.  np_in is 0 (the only value the package passes). *)
Definition big_k (r : list R) (kmax : R) (ff : list R) (l : nat) (forward : bool) (pref : R) (n : nat) : R :=
  let nr := length r in
  let rmin0 := hd 0 r in let kmin0 := kk r kmax 0 in
  let rmin := if forward then rmin0 else kmin0 in let kmin := if forward then kmin0 else rmin0 in
  let c := hd 0 ff / (rmin ^ l) in
  let rr_ext i := rmin0 * exp ((INR i - INR nr) * drho r) in
  let input i := if (i <? nr)%nat then c * rr_ext i ^ l * (Rpower (rr_ext i) (3 / 2) / Rpower rmin0 (3 / 2))
                 else nth (i - nr) ff 0 * (Rpower (nth (i - nr) r 0) (3 / 2) / Rpower rmin0 (3 / 2)) in
  let tmp1 k := if (k <? nr)%nat then Cmult (Cconj (rfft input (2 * nr) k)) (m1 l k) else RtoC 0 in
  Rpower (rmin / kmin) (3 / 2) * (Re (ifft1 tmp1 (2 * nr) (nr + n)) * INR (2 * nr)) * exp (- (INR n * drho r * (3 / 2))) * pref.
Definition small_k (r : list R) (kmax : R) (ff : list R) (l : nat) (forward : bool) (pref : R) (n : nat) : R :=
  let nr := length r in
  let x i := if forward then nth i r 0 else kk r kmax i in
  let input i := if (i <? nr)%nat then x i ^ 3 * nth i ff 0 else 0 in
  let c k := Cmult (Cmult (Cconj (rfft input (2 * nr) k)) (m2 l k)) (RtoC pref) in
  irfft c (nr + 1) n * INR (2 * nr) * drho r.
Definition run (lmax : nat) (r : list R) (kmax : R) (ff : list R) (l : nat) (direction : Z) (norm : bool) : res (list R) :=
  if (l <=? lmax)%nat then
    let pref := if norm then sqrt (2 / PI) else 1 in
    if (direction =? 1)%Z || (direction =? -1)%Z then
      let fwd := (direction =? 1)%Z in
      let big := big_k r kmax ff l fwd pref in let small := small_k r kmax ff l fwd pref in
      let minloc := argmin (fun n => Rabs (big n - small n)) (length r) in
      Ok (map (fun n => if (n <? minloc + 1)%nat then small n else big n) (seq 0 (length r)))
    else Err ValueErr
  else Err AssertionErr.
End Run.

(** ** The class and its wrapper *)
Section Class.
(** scipy's spherical_jn, and the imaginary part of the logarithm of gamma(1/2 - i t). *)
Variables (jn : Z -> R -> R) (gamma_phase : R -> R).
(** pysbt.py 124-176, [sbt_mltb]: the grid t, then the rows of M_lt1 (Eqs. 15/19, 16 and 24 of Talman) and
    of M_lt2 (Eq. 35).  Only tables with lmax >= 1 (the package only builds lmax = 10). *)
Definition tt (r : list R) (i : nat) : R := INR i * (2 * PI / (INR (2 * length r) * drho r)).
Definition m_lt1_0 (r : list R) (kmax : R) (i : nat) : C :=
  let t := tt r i in
  let row := Cmult (Cmult (RtoC (sqrt (PI / 2))) (cexp (gamma_phase t - atan (tanh (PI * t / 2))))) (RtoC (/ INR (length r))) in
  Cmult (if (i =? 0)%nat then Cmult row (RtoC (/ 2)) else row) (cexp (t * (kappa_min r kmax + ln (hd 0 r)))).
Fixpoint m_lt1 (r : list R) (kmax : R) (l : nat) (i : nat) : C :=
  match l with
  | O => m_lt1_0 r kmax i
  | 1%nat => Cmult (m_lt1_0 r kmax i) (cexp (2 * (atan (tanh (PI * tt r i / 2)) - atan (2 * tt r i))))
  | S ((S l0) as l1) => Cmult (cexp (- (2 * atan (2 * tt r i / (2 * INR l1 + 1))))) (m_lt1 r kmax l0 i)
  end.
Definition m_lt2 (r : list R) (kmax : R) (l : nat) (k : nat) : C :=
  Cconj (ifft1 (fun m => RtoC (jn (Z.of_nat l) (exp (ln (hd 0 r) + kappa_min r kmax + INR m * drho r)))) (2 * length r) k).
(** pysbt.py 44-52, [__init__], and 178-289, [run], with the two optional outputs: the grid of the result
    (None without return_rr) and its values. *)
Definition run_class (lmax : nat) (r : list R) (kmax : R) (ff : list R) (l : nat) (direction : Z) (norm return_rr include_zero : bool) : res (option (list R) * list R) :=
  let nr := length r in
  let x i := nth i r 0 in let k i := kk r kmax i in
  match run (m_lt1 r kmax) (m_lt2 r kmax) lmax r kmax ff l direction norm with
  | Err e => Err e
  | Ok gg =>
      let pref := if norm then sqrt (2 / PI) else 1 in
      let wr := simpson_weights (drho r) x nr in let wk := simpson_weights (drho r) k nr in
      let gg0 := if (direction =? 1)%Z then pref * jn (Z.of_nat l) 0 * sumR (seq 0 nr) (fun i => wr i * x i ^ 2 * nth i ff 0)
                 else pref * jn (Z.of_nat l) 0 * sumR (seq 0 nr) (fun i => wk i * k i ^ 2 * nth i ff 0) in
      let grid := if (direction =? 1)%Z then map k (seq 0 nr) else r in
      Ok (if return_rr then Some (if include_zero then 0 :: grid else grid) else None, if include_zero then gg0 :: gg else gg)
  end.
(** sbt.py 24-64, [sbt]: the forward transform with the default lmax = 10 (the casts of dtype are not
    modelled); a function of the wrong length does not broadcast (one of length one would). *)
Definition sbt (r f : list R) (l : nat) (kmax : R) (norm : bool) : res (list R * list R) :=
  match run_class 10 r kmax f l 1 norm false false with
  | Err e => Err e
  | Ok (_, g) => if (length f =? length r)%nat then Ok (map (kk r kmax) (seq 0 (length r)), g) else Err ValueErr
  end.
End Class.
