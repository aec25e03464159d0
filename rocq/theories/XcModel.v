(** Model of jrystal/_src/xc.py.  The functionals of jax_xc are a parameter. *)
From Coq Require Import Ascii String List Arith ZArith Reals Bool.
From Coquelicot Require Import Coquelicot.
From Verif Require Import Base Sums Tensor DFT GridModel PadModel Lin3 VecModel PwModel.
Import ListNotations.
Local Open Scope R_scope.

(** [sub in s] for Python strings. *)
Definition contains (sub s : string) : bool := match String.index 0 sub s with Some _ => true | None => false end.
(** [s.split(c)] for a one-character separator: never empty. *)
Fixpoint split_on (c : ascii) (s : string) : list string :=
  match s with
  | EmptyString => [EmptyString]
  | String a s' => if Ascii.eqb a c then EmptyString :: split_on c s'
                   else match split_on c s' with w :: ws => String a w :: ws | [] => [String a EmptyString] end
  end.

(** A functional of jax_xc takes the density and the squared gradients at one point: one
    density and one gradient if unpolarised, two densities and three gradients if polarised.
    xc.py 14-32, [get_xc_functional]: [lib name polarized], absent names raise ImportError. *)
Definition xcfun := list R -> list R -> R.
Definition xclib := string -> bool -> option xcfun.

(** xc.py 40-51, [_parse_xc_type]: '_x' anywhere in the name means exchange, and then the
    unpolarised functional is used. *)
Definition is_exchange (t : string) : bool := contains "_x" t.
Definition pick (lib : xclib) (t : string) (pol : bool) : option xcfun := lib t (pol && negb (is_exchange t)).

(** xc.py 54-64, [_lda], at one grid point; [v] lists the spin densities there. *)
Definition lda_at (f : xcfun) (pol exch : bool) (v : list R) : R :=
  if pol && exch then / 2 * (f [2 * nth 0 v 0] [] + f [2 * nth 1 v 0] []) else f v [].
(** xc.py 67-85, [_gga], at one grid point. *)
Definition gga_at (f : xcfun) (pol exch : bool) (v sg : list R) : R :=
  if pol && exch then / 2 * (f [2 * nth 0 v 0] [4 * nth 0 sg 0] + f [2 * nth 1 v 0] [4 * nth 2 sg 0]) else f v sg.

(** The values of a spin-resolved array at one grid point. *)
Definition column (t : tensor R) (i : list nat) : list R := map (fun k => tget t (k :: i)) (seq 0 (hd 0%nat (tshape t))).

(** xc.py 54-64, [_lda].  Only one or two spin channels survive the final reshape. *)
Definition lda (lib : xclib) (t : string) (rho : tensor R) : res (tensor R) :=
  match tshape rho with
  | s :: grid =>
      let pol := (s =? 2)%nat in
      match pick lib t pol with
      | None => Err ImportErr
      | Some f => if (s =? 1)%nat || pol then Ok (mkT grid (fun i => lda_at f pol (is_exchange t) (column rho i)))
                  else Err TypeErr
      end
  | [] => match pick lib t false with
          | None => Err ImportErr
          | Some f => Ok (mkT [] (fun i => lda_at f false (is_exchange t) [tget rho []]))
          end
  end.

(** xc.py 67-85, [_gga]. *)
Definition gga (lib : xclib) (t : string) (rho sigma : tensor R) : res (tensor R) :=
  match tshape rho with
  | s :: grid =>
      let pol := (s =? 2)%nat in
      match pick lib t pol with
      | None => Err ImportErr
      | Some f =>
          if (s =? 1)%nat || pol then
            if list_eq_dec Nat.eq_dec (tshape sigma) ((if pol then 3%nat else 1%nat) :: grid)
            then Ok (mkT grid (fun i => gga_at f pol (is_exchange t) (column rho i) (column sigma i)))
            else Err TypeErr
          else Err TypeErr
      end
  | [] => Err TypeErr
  end.

(** xc.py 230-232 and 246-248, [exc_fn]: Python's sum over the '+'-separated names. *)
Definition sum_grids (grid : list nat) (l : list (tensor R)) : tensor R := mkT grid (fun i => sumR l (fun t => tget t i)).
Definition lda_sum (lib : xclib) (ts : list string) (rho : tensor R) : res (tensor R) :=
  do l <- mapM (fun t => lda lib t rho) ts; Ok (sum_grids (tl (tshape rho)) l).
Definition gga_sum (lib : xclib) (ts : list string) (rho sigma : tensor R) : res (tensor R) :=
  do l <- mapM (fun t => gga lib t rho sigma) ts; Ok (sum_grids (tl (tshape rho)) l).
(** the same function applied to the densities of one point, as jax.vmap does *)
Definition lda_sum_at (lib : xclib) (ts : list string) (v : list R) : R :=
  let pol := (length v =? 2)%nat in
  sumR ts (fun t => match pick lib t pol with Some f => lda_at f pol (is_exchange t) v | None => 0 end).

(** xc.py 88-106, [sigma_r_fn].  Component [a] of the gradient of channel [k]. *)
Definition vcomp (a : nat) (v : v3) : R := match a with 0 => vx v | 1 => vy v | _ => vz v end%nat.
Definition grad_component (ns : list nat) (G : tensor v3) (rho : list nat -> R) (a : nat) (x : list nat) : C :=
  idft ns (fun g => dft ns (fun y => RtoC (rho y)) g * Ci * RtoC (vcomp a (tget G g)))%C x.
Definition sigma_r_fn (rho : tensor R) (G : tensor v3) : res (tensor R) :=
  match tshape rho with
  | [s; n1; n2; n3] =>
      let ns := [n1; n2; n3] in
      if list_eq_dec Nat.eq_dec (tshape G) ns then
        let gr k a x := grad_component ns G (fun y => tget rho (k :: y)) a x in
        let prod k l x := Re (sumC (seq 0 3) (fun a => Cconj (gr k a x) * gr l a x)%C) in
        if (s =? 2)%nat
        then Ok (mkT [3; n1; n2; n3]%nat (fun i =>
               match hd 0%nat i with 0 => prod 0 0 (tl i) | 1 => prod 0 1 (tl i) | _ => prod 1 1 (tl i) end%nat))
        else Ok (mkT [s; n1; n2; n3] (fun i => prod (hd 0%nat i) (hd 0%nat i) (tl i)))
      else Err ValueErr
  | _ => Err ValueErr
  end.

(** xc.py 109-124, [vxc_lda]; [exc] is the function applied point by point, jax.grad and
    jax.jacfwd are its (partial) derivatives. *)
Definition vxc_lda (exc : list R -> R) (rho : tensor R) : res (tensor R) :=
  match tshape rho with
  | s :: grid =>
      if (s =? 1)%nat || (s =? 2)%nat then
        Ok (mkT (s :: grid) (fun i =>
          let v := column rho (tl i) in
          let k := hd 0%nat i in
          Derive (fun x => exc (upd k (fun _ => x) v)) (nth k v 0) * nth k v 0 + exc v))
      else Err TypeErr
  | [] => Err IndexErr
  end.

(** xc.py 222-253, [xc_density].  [vxc_gga] stands for the Kohn-Sham GGA branch
    (xc.py 127-219); GgaModel.v gives it. *)
Definition xc_density (lib : xclib) (vxc_gga : list string -> tensor R -> tensor R -> tensor v3 -> res (tensor C))
  (rho : tensor R) (G : tensor v3) (kohn_sham : bool) (xc_type : string) : res (tensor C) :=
  let ts := split_on "+" xc_type in
  if contains "gga" xc_type then
    do sg <- sigma_r_fn rho G;
    if kohn_sham then vxc_gga ts rho sg G
    else rmap (tmap RtoC) (gga_sum lib ts rho sg)
  else
    if kohn_sham then
      do _ <- lda_sum lib ts rho;                                (* exc(rho_r) is evaluated: may raise *)
      rmap (tmap RtoC) (vxc_lda (lda_sum_at lib ts) rho)
    else rmap (tmap RtoC) (lda_sum lib ts rho).
