(** The value of the gradient-dependent potential, point by point. *)
From Coq Require Import Reals Lra Lia.
From Coquelicot Require Import Coquelicot.
From Coq Require Import Ascii String List Arith ZArith Bool.
From Verif Require Import Base Sums Tensor DFT GridModel PadModel Lin3 VecModel PwModel XcModel GgaModel XcProofs XcProofs2 XcProofs3.
Import ListNotations.
Local Open Scope R_scope.

Lemma inb3 y n1 n2 n3 : inb y [n1; n2; n3] -> exists a b c, y = [a; b; c] /\ (a < n1 /\ b < n2 /\ c < n3)%nat.
Proof.
  intros H. inversion H as [|a ? y1 ? Ha H1]; subst. inversion H1 as [|b ? y2 ? Hb H2]; subst. inversion H2 as [|c ? y3 ? Hc H3]; subst. inversion H3; subst.
  exists a, b, c. auto.
Qed.
Lemma inb3_intro a b c n1 n2 n3 : (a < n1)%nat -> (b < n2)%nat -> (c < n3)%nat -> inb [a; b; c] [n1; n2; n3].
Proof. intros. repeat constructor; assumption. Qed.

(** The gradient the code forms from a function [F] on the frequency grid. *)
Definition code_grad (n2 n3 : nat) (gs : tensor v3) (F : list nat -> C) (x1 x2 x3 d : nat) : C :=
  idft [n2; n3; 3%nat] (fun y => F (x1 :: removelast y) * Ci * RtoC (vcomp (last y 0%nat) (tget gs (x1 :: removelast y))))%C [x2; x3; d].

(** The one-dimensional transform of [grad_fft]. *)
Definition part_dft (n3 : nat) (t : list nat -> R) (y : list nat) : C :=
  dft [n3] (fun z => RtoC (t (removelast y ++ z))) [last y 0%nat].

Lemma grad_fft_value n1 n2 n3 gs (t : tensor R) : tshape t = [n1; n2; n3] ->
  exists g, grad_fft gs t = Ok g /\ forall x1 x2 x3 d, tget g [x1; x2; x3; d] = code_grad n2 n3 gs (part_dft n3 (tget t)) x1 x2 x3 d.
Proof.
  intros St. unfold grad_fft, ifftn3. unfold ndim at 1. cbn [times_ig tshape fft_last tmap]. rewrite St. cbn [app length Nat.ltb Nat.leb].
  eexists. split; [reflexivity|]. intros x1 x2 x3 d. cbn [tget]. unfold grid3, ndim. cbn [times_ig tshape fft_last tmap]. rewrite St. cbn [app length Nat.sub skipn firstn].
  unfold code_grad. apply idft_ext. intros y Hy. destruct (inb3 _ _ _ _ Hy) as (a & b & c & -> & _). cbn [removelast last app tget times_ig fft_last tmap tshape]. unfold ndim. cbn [fft_last tmap tshape]. rewrite St.
  cbn [length Nat.sub skipn last]. unfold part_dft. cbn [removelast last app]. reflexivity.
Qed.

Lemma grad_rho_value s n1 n2 n3 gs (t : tensor C) : tshape t = [s; n1; n2; n3] ->
  exists g, ifftn3 (times_ig t gs) = Ok g /\ forall k x1 x2 x3 d, tget g [k; x1; x2; x3; d] = code_grad n2 n3 gs (fun y => tget t (k :: y)) x1 x2 x3 d.
Proof.
  intros St. unfold ifftn3. unfold ndim at 1. cbn [times_ig tshape]. rewrite St. cbn [app length Nat.ltb Nat.leb].
  eexists. split; [reflexivity|]. intros k x1 x2 x3 d. cbn [tget]. unfold grid3, ndim. cbn [times_ig tshape]. rewrite St. cbn [app length Nat.sub skipn firstn].
  unfold code_grad. apply idft_ext. intros y Hy. destruct (inb3 _ _ _ _ Hy) as (a & b & c & -> & _). cbn [removelast last app tget times_ig]. unfold ndim. rewrite St.
  cbn [length Nat.sub skipn]. reflexivity.
Qed.

(** t3 + t4 of the code: [t] the weight, [f] the density of one channel. *)
Definition code_term (n1 n2 n3 : nat) (gs : tensor v3) (t f : list nat -> R) (x1 x2 x3 : nat) : C :=
  (sumC (seq 0 3) (fun d => code_grad n2 n3 gs (part_dft n3 t) x1 x2 x3 d * code_grad n2 n3 gs (dft [n1; n2; n3] (fun y => RtoC (f y))) x1 x2 x3 d)
   + RtoC (t [x1; x2; x3]) * idft [n1; n2; n3] (fun y => RtoC (-1 * norm2 (tget gs y)) * dft [n1; n2; n3] (fun y => RtoC (f y)) y) [x1; x2; x3])%C.

Definition gga_local (exc : xcfun) (rho sigma : tensor R) (k : nat) (x : list nat) : R :=
  dexc_drho exc k (column rho x) (column sigma x) * tget rho (k :: x) + exc (column rho x) (column sigma x).
Definition gga_weight (exc : xcfun) (rho sigma : tensor R) (j k : nat) (x : list nat) : R :=
  dexc_dsigma exc j (column rho x) (column sigma x) * tget rho (k :: x).
Definition gga_masked (exc : xcfun) (rho sigma : tensor R) (j k : nat) (x : list nat) : R :=
  where_pos (tget sigma (j :: x)) (gga_weight exc rho sigma j k x).

Definition gga_value (exc : xcfun) (rho sigma : tensor R) (gs : tensor v3) (s n1 n2 n3 k x1 x2 x3 : nat) : C :=
  let term t l := code_term n1 n2 n3 gs t (fun y => tget rho (l :: y)) x1 x2 x3 in
  let w := gga_weight exc rho sigma in let m := gga_masked exc rho sigma in
  (RtoC (gga_local exc rho sigma k [x1; x2; x3]) -
   (if (s =? 2)%nat then match k with O => RtoC 2 * term (m 0 0)%nat 0%nat + term (w 1 1)%nat 1%nat
                                    | _ => RtoC 2 * term (m 2 1)%nat 1%nat + term (w 1 0)%nat 0%nat end
    else RtoC 2 * term (m 0 0)%nat 0%nat))%C.

Lemma vxc_gga_eq exc rho sigma gs s n1 n2 n3 : let ns := [n1; n2; n3] in
  (s = 1 \/ s = 2)%nat -> tshape rho = s :: ns -> tshape sigma = (if (s =? 2)%nat then 3%nat else 1%nat) :: ns -> tshape gs = ns ->
  exists v, vxc_gga exc rho sigma gs = Ok v /\ tshape v = s :: ns /\
    forall k x1 x2 x3, (k < s)%nat -> inb [x1; x2; x3] ns -> tget v [k; x1; x2; x3] = gga_value exc rho sigma gs s n1 n2 n3 k x1 x2 x3.
Proof.
  intros ns Hs Sr Ss Sg. unfold vxc_gga, vxc_gga_recp. rewrite Sr. unfold ns. cbv zeta.
  assert (Eb : ((s =? 1) || (s =? 2))%nat = true) by (destruct Hs; subst; reflexivity). rewrite Eb. cbn [negb]. fold ns.
  rewrite Ss. destruct (list_eq_dec Nat.eq_dec _ _) as [_|N]; [|exfalso; apply N; reflexivity].
  rewrite Sg. destruct (list_eq_dec Nat.eq_dec _ _) as [_|N]; [|exfalso; apply N; reflexivity].
  set (rG := mkT (s :: ns) (fun i => dft ns (fun y => RtoC (tget rho (firstn 1 i ++ y))) (skipn 1 i))).
  assert (ErG : fftn3 (tmap RtoC rho) = Ok rG).
  { unfold fftn3, ndim, grid3, ndim. cbn [tmap tshape]. rewrite Sr. reflexivity. }
  rewrite ErG. cbn [bind].
  destruct (grad_rho_value s n1 n2 n3 gs rG eq_refl) as (gr & -> & Hgr). cbn [bind].
  set (lap := ifftn3 (mkT (s :: ns) (fun i => (RtoC (-1 * norm2 (tget gs (tl i))) * tget rG i)%C))).
  assert (Hlap : exists l, lap = Ok l /\ forall k x1 x2 x3, tget l [k; x1; x2; x3] = idft ns (fun y => RtoC (-1 * norm2 (tget gs y)) * dft ns (fun y => RtoC (tget rho (k :: y))) y)%C [x1; x2; x3]).
  { unfold lap, ifftn3, ndim, grid3, ndim. cbn [tshape length ns Nat.ltb Nat.leb]. eexists. split; [reflexivity|]. intros k x1 x2 x3. cbn [tget firstn skipn tshape Nat.sub app tl rG]. reflexivity. }
  destruct Hlap as (lp & -> & Hlp). cbn [bind].
  assert (Hterm : forall (t : tensor R) k, tshape t = ns -> exists g, grad_fft gs t = Ok g /\ forall x1 x2 x3,
     (sumC (seq 0 3) (fun d => tget g ([x1; x2; x3] ++ [d]) * tget gr (k :: [x1; x2; x3] ++ [d])) + RtoC (tget t [x1; x2; x3]) * tget lp (k :: [x1; x2; x3]))%C
     = code_term n1 n2 n3 gs (tget t) (fun y => tget rho (k :: y)) x1 x2 x3).
  { intros t k St. destruct (grad_fft_value n1 n2 n3 gs t St) as (g & Eg & Hg). exists g. split; [exact Eg|]. intros x1 x2 x3. unfold code_term. rewrite Hlp.
    f_equal. apply sumC_ext. intros d _. cbn [app]. rewrite Hg, Hgr. reflexivity. }
  clear Hgr Hlp ErG.
  set (T00 := mkT ns (gga_masked exc rho sigma 0 0)). set (W11 := mkT ns (gga_weight exc rho sigma 1 1)). set (T21 := mkT ns (gga_masked exc rho sigma 2 1)). set (W10 := mkT ns (gga_weight exc rho sigma 1 0)).
  destruct (Hterm T00 0%nat eq_refl) as (g1 & E1 & H1).
  assert (Fin : forall F, exists v, (do v <- fftn3 (mkT (s :: ns) F); ifftn3 v) = Ok v /\ tshape v = s :: ns /\ forall k x1 x2 x3, inb [x1; x2; x3] ns -> tget v [k; x1; x2; x3] = F [k; x1; x2; x3]).
  { intros F. unfold fftn3, ndim. cbn [tshape ns length Nat.ltb Nat.leb bind Nat.sub]. unfold ifftn3, ndim. cbn [tshape ns length Nat.ltb Nat.leb Nat.sub]. fold ns. eexists. split; [reflexivity|]. split; [reflexivity|].
    intros k x1 x2 x3 Hx. cbn [tget firstn skipn app]. unfold grid3, ndim. cbn [tshape ns length Nat.sub skipn]. fold ns. exact (idft_dft ns (fun x => F (k :: x)) _ Hx). }
  destruct (s =? 2)%nat eqn:E2.
  - destruct (Hterm W11 1%nat eq_refl) as (g2 & F2 & H2). destruct (Hterm T21 1%nat eq_refl) as (g3 & F3 & H3). destruct (Hterm W10 0%nat eq_refl) as (g4 & F4 & H4).
    change (grad_fft gs {| tshape := ns; tget := fun x : list nat => where_pos (tget sigma (0%nat :: x)) (tget {| tshape := ns; tget := fun x0 : list nat => dexc_dsigma exc 0 (column rho x0) (column sigma x0) * tget rho (0%nat :: x0) |} x) |}) with (grad_fft gs T00).
    rewrite E1. cbn [bind].
    change (grad_fft gs {| tshape := ns; tget := fun x : list nat => dexc_dsigma exc 1 (column rho x) (column sigma x) * tget rho (1%nat :: x) |}) with (grad_fft gs W11). rewrite F2. cbn [bind].
    change (grad_fft gs {| tshape := ns; tget := fun x : list nat => where_pos (tget sigma (2%nat :: x)) (tget {| tshape := ns; tget := fun x0 : list nat => dexc_dsigma exc 2 (column rho x0) (column sigma x0) * tget rho (1%nat :: x0) |} x) |}) with (grad_fft gs T21). rewrite F3. cbn [bind].
    change (grad_fft gs {| tshape := ns; tget := fun x : list nat => dexc_dsigma exc 1 (column rho x) (column sigma x) * tget rho (0%nat :: x) |}) with (grad_fft gs W10). rewrite F4. cbn [bind].
    match goal with |- context [fftn3 (mkT (s :: ns) ?F)] => destruct (Fin F) as (v & Ev & Sv & Hv) end. exists v. split; [exact Ev|]. split; [exact Sv|].
    intros k x1 x2 x3 Hk Hx. rewrite (Hv k x1 x2 x3 Hx). unfold gga_value. rewrite E2. cbn [hd tl tget]. f_equal. f_equal.
    destruct k as [|k]; f_equal; first [ exact (H2 x1 x2 x3) | exact (H4 x1 x2 x3) | f_equal; first [exact (H1 x1 x2 x3) | exact (H3 x1 x2 x3)]].
  - change (grad_fft gs {| tshape := ns; tget := fun x : list nat => where_pos (tget sigma (0%nat :: x)) (tget {| tshape := ns; tget := fun x0 : list nat => dexc_dsigma exc 0 (column rho x0) (column sigma x0) * tget rho (0%nat :: x0) |} x) |}) with (grad_fft gs T00).
    rewrite E1. cbn [bind].
    match goal with |- context [fftn3 (mkT (s :: ns) ?F)] => destruct (Fin F) as (v & Ev & Sv & Hv) end. exists v. split; [exact Ev|]. split; [exact Sv|].
    intros k x1 x2 x3 Hk Hx. rewrite (Hv k x1 x2 x3 Hx). unfold gga_value. rewrite E2. cbn [hd tl tget]. f_equal. f_equal. f_equal. exact (H1 x1 x2 x3).
Qed.
