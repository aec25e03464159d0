(** Model of the Kohn-Sham potential of gradient-dependent functionals, jrystal/_src/xc.py
    127-219 and the GGA branch of [xc_density]. *)
From Coq Require Import Reals.
From Coquelicot Require Import Coquelicot.
From Coq Require Import Ascii String List Arith ZArith Bool.
From Verif Require Import Base Sums Tensor DFT GridModel PadModel Lin3 VecModel PwModel XcModel.
Import ListNotations.
Local Open Scope R_scope.

(** [jnp.fft.fft(t)]: the one-dimensional transform of the last axis. *)
Definition fft_last (t : tensor C) : tensor C :=
  mkT (tshape t) (fun i => dft [last (tshape t) 0%nat] (fun z => tget t (removelast i ++ z)) [last i 0%nat]).

(** [t[..., None] * 1j * gs] for an array whose last three axes are those of [gs]. *)
Definition times_ig (t : tensor C) (gs : tensor v3) : tensor C :=
  mkT (tshape t ++ [3%nat]) (fun i =>
    (tget t (removelast i) * Ci * RtoC (vcomp (last i 0%nat) (tget gs (skipn (ndim t - 3) (removelast i)))))%C).

(** xc.py 164-165, [grad_fft]: the forward transform is one-dimensional; the backward one runs
    over the last three axes of an array [x, y, z, 3], which are y, z and the component. *)
Definition grad_fft (gs : tensor v3) (x : tensor R) : res (tensor C) := ifftn3 (times_ig (fft_last (tmap RtoC x)) gs).

(** jax.grad / jax.jacfwd of the energy per particle at one point, with respect to density [k]
    and to squared gradient [j]. *)
Definition dexc_drho (exc : xcfun) (k : nat) (v sg : list R) : R := Derive (fun x => exc (upd k (fun _ => x) v) sg) (nth k v 0).
Definition dexc_dsigma (exc : xcfun) (j : nat) (v sg : list R) : R := Derive (fun s => exc v (upd j (fun _ => s) sg)) (nth j sg 0).

(** [jnp.where(sigma > 0, t, 0)] *)
Definition where_pos (s t : R) : R := if Rlt_dec 0 s then t else 0.

(** xc.py 127-210, [vxc_gga_recp].  [exc] is applied point by point.  The frequency grid must
    have the shape of the density grid (axes of length 1, which jax would broadcast, are not
    modelled).  [grad_rho_r] is transformed back over the axes y, z and component. *)
Definition vxc_gga_recp (exc : xcfun) (rho sigma : tensor R) (gs : tensor v3) : res (tensor C) :=
  match tshape rho with
  | [s; n1; n2; n3] =>
      let ns := [n1; n2; n3] in
      let pol := (s =? 2)%nat in
      if negb ((s =? 1)%nat || pol) then Err TypeErr else
      if list_eq_dec Nat.eq_dec (tshape sigma) ((if pol then 3%nat else 1%nat) :: ns) then
      if list_eq_dec Nat.eq_dec (tshape gs) ns then
        let local k x := dexc_drho exc k (column rho x) (column sigma x) * tget rho (k :: x) + exc (column rho x) (column sigma x) in
        do rho_G <- fftn3 (tmap RtoC rho);
        do grad_rho_r <- ifftn3 (times_ig rho_G gs);
        do lapl_rho_r <- ifftn3 (mkT (tshape rho) (fun i => (RtoC (-1 * norm2 (tget gs (tl i))) * tget rho_G i)%C));
        (* dexc_dsigma[j] * rho[k] *)
        let weight j k := mkT ns (fun x => dexc_dsigma exc j (column rho x) (column sigma x) * tget rho (k :: x)) in
        let masked j (t : tensor R) := mkT ns (fun x => where_pos (tget sigma (j :: x)) (tget t x)) in
        (* (grad_fft(t) * grad_rho_r[k]).sum(-1) + t * lapl_rho_r[k] *)
        let term (t : tensor R) k :=
          do g <- grad_fft gs t;
          Ok (mkT ns (fun x => (sumC (seq 0 3) (fun d => tget g (x ++ [d]) * tget grad_rho_r (k :: x ++ [d]))
                                + RtoC (tget t x) * tget lapl_rho_r (k :: x))%C)) in
        do correction <- (if pol then
            do up <- term (masked 0%nat (weight 0 0)%nat) 0%nat;
            do cross_up <- term (weight 1 1)%nat 1%nat;
            do dn <- term (masked 2%nat (weight 2 1)%nat) 1%nat;
            do cross_dn <- term (weight 1 0)%nat 0%nat;
            Ok (fun k x => match k with
                           | O => (RtoC 2 * tget up x + tget cross_up x)%C
                           | _ => (RtoC 2 * tget dn x + tget cross_dn x)%C
                           end)
          else
            do t <- term (masked 0%nat (weight 0 0)%nat) 0%nat;
            Ok (fun _ x => (RtoC 2 * tget t x)%C));
        fftn3 (mkT (tshape rho) (fun i => (RtoC (local (hd 0%nat i) (tl i)) - correction (hd 0%nat i) (tl i))%C))
      else Err ValueErr
      else Err TypeErr
  | _ => Err ValueErr
  end.

(** xc.py 213-219, [vxc_gga]. *)
Definition vxc_gga (exc : xcfun) (rho sigma : tensor R) (gs : tensor v3) : res (tensor C) :=
  do v <- vxc_gga_recp exc rho sigma gs; ifftn3 v.

(** xc.py 230-232, [exc_fn] applied to the values of one point, as jax.vmap does. *)
Definition gga_sum_at (lib : xclib) (ts : list string) : xcfun := fun v sg =>
  let pol := (length v =? 2)%nat in
  sumR ts (fun t => match pick lib t pol with Some f => gga_at f pol (is_exchange t) v sg | None => 0 end).

(** xc.py 235-241: the Kohn-Sham GGA branch of [xc_density]; evaluating [exc] may raise. *)
Definition gga_potential (lib : xclib) (ts : list string) (rho sigma : tensor R) (gs : tensor v3) : res (tensor C) :=
  do _ <- gga_sum lib ts rho sigma;
  vxc_gga (gga_sum_at lib ts) rho sigma gs.

(** xc.py 222-253, [xc_density] with both branches. *)
Definition xc_density_full (lib : xclib) : tensor R -> tensor v3 -> bool -> string -> res (tensor C) :=
  xc_density lib (gga_potential lib).
