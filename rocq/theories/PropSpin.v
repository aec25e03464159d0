(** One spin channel against two: properties C134, C135. *)
From Coq Require Import Reals Lra Lia.
From Coquelicot Require Import Coquelicot.
From Coq Require Import Ascii String List Arith ZArith Bool.
From Verif Require Import Base Sums Tensor DFT GridModel PadModel Lin3 VecModel VecProofs OccModel PwModel BraketModel XcModel XcSpec EnergyModel SpinSpec SpinProofs.
Import ListNotations.
Local Open Scope R_scope.

(** C134.  All four parts of the energy are the same whether a state is given spin-restricted, or
    with two channels that have the same orbitals and half the occupation each. *)
Theorem C134_closed_shell : forall lib vg A c pos ch G kpts vol occ xt B n1 n2 n3, let ns := [n1; n2; n3] in let K := length kpts in
  (forall t, In t (split_on "+" xt) -> spin_consistent lib t) ->
  m3det A <> 0 -> 0 < vol -> g_vectors A ns = Ok G -> length ch = length pos -> tshape c = [1%nat; K; B] ++ ns -> tshape occ = [1%nat; K; B] ->
  total_energy_split (xc_density lib vg) (both_channels c) pos ch G kpts vol (Some (half_occupation occ)) false xt =
  total_energy_split (xc_density lib vg) c pos ch G kpts vol (Some occ) false xt.
Proof. exact closed_shell. Qed.
Print Assumptions C134_closed_shell.
(** The occupations of a system without spin: [half_occupation] of the restricted ones. *)
Theorem C134_occupations : forall K N nb o o2,
  (uniform K N 0 nb true = Ok o /\ uniform K N 0 nb false = Ok o2) \/ (gamma K N 0 nb true = Ok o /\ gamma K N 0 nb false = Ok o2) ->
  tshape o2 = tshape (half_occupation o) /\ forall i, inb i (tshape o2) -> tget o2 i = tget (half_occupation o) i.
Proof. intros K N nb o o2 [[H H2]|[H H2]]; [exact (uniform_halves K N nb o o2 H H2)|exact (gamma_halves K N nb o o2 H H2)]. Qed.
Print Assumptions C134_occupations.
(** The exchange potential does not agree: with two equal channels it misses half of the term
    n e'(n) of the derivative of n e(n). *)
Theorem C134_potential_gap : forall lib vg xt (d : tensor R) G ns, let ts := split_on "+" xt in let F := local_particle lib ts in
  contains "gga" xt = false -> (forall t, In t ts -> is_exchange t = true /\ lib t false <> None) -> tshape d = 1%nat :: ns ->
  (forall x, inb x ns -> ex_derive F (tget d (0%nat :: x))) ->
  exists v v2, xc_density lib vg d G true xt = Ok v /\ xc_density lib vg (half_occupation d) G true xt = Ok v2 /\ tshape v = 1%nat :: ns /\ tshape v2 = 2%nat :: ns /\
    forall s x, (s < 2)%nat -> inb x ns -> let r := tget d (0%nat :: x) in
      is_derive (fun r => r * F r) r (Re (tget v (0%nat :: x))) /\
      tget v2 (s :: x) = (tget v (0%nat :: x) - RtoC (r / 2 * Derive F r))%C.
Proof. exact potential_gap. Qed.
Print Assumptions C134_potential_gap.
(** Wherever the density is positive and the exchange energy per particle decreases with it, the
    two-channel potential is strictly higher. *)
Theorem C134_potential_refuted : forall lib vg xt (d : tensor R) G ns, let ts := split_on "+" xt in let F := local_particle lib ts in
  contains "gga" xt = false -> (forall t, In t ts -> is_exchange t = true /\ lib t false <> None) -> tshape d = 1%nat :: ns ->
  (forall x, inb x ns -> 0 < tget d (0%nat :: x) /\ ex_derive F (tget d (0%nat :: x)) /\ Derive F (tget d (0%nat :: x)) < 0) ->
  exists v v2, xc_density lib vg d G true xt = Ok v /\ xc_density lib vg (half_occupation d) G true xt = Ok v2 /\
    forall s x, (s < 2)%nat -> inb x ns -> Re (tget v (0%nat :: x)) < Re (tget v2 (s :: x)).
Proof. exact potential_gap_strict. Qed.
Print Assumptions C134_potential_refuted.

(** C135.  Exchanging the two spin channels. *)
Theorem C135_swap : forall lib vg A c pos ch G kpts vol occ xt B n1 n2 n3, let ns := [n1; n2; n3] in let K := length kpts in
  (forall t, In t (split_on "+" xt) -> spin_symmetric lib t) ->
  m3det A <> 0 -> 0 < vol -> g_vectors A ns = Ok G -> length ch = length pos -> tshape c = [2%nat; K; B] ++ ns -> tshape occ = [2%nat; K; B] ->
  total_energy_split (xc_density lib vg) (swap_channels c) pos ch G kpts vol (Some (swap_channels occ)) false xt =
  total_energy_split (xc_density lib vg) c pos ch G kpts vol (Some occ) false xt.
Proof. exact swapped. Qed.
Print Assumptions C135_swap.

(** A library with an exchange and a correlation functional that keeps both promises. *)
Definition ex_lib : xclib := fun t pol => Some (fun v sg => if pol then - nth 0 v 0 * nth 1 v 0 + nth 1 sg 0 else - (nth 0 v 0 / 2) * (nth 0 v 0 / 2) + nth 0 sg 0 / 4).
Example C134_example : (forall t, In t (split_on "+" "gga_x_pbe+gga_c_pbe") -> spin_consistent ex_lib t) /\ is_exchange "gga_x_pbe" = true /\ is_exchange "gga_c_pbe" = false /\
  (forall t, In t (split_on "+" "gga_x_pbe+gga_c_pbe") -> spin_symmetric ex_lib t).
Proof.
  split; [|split; [reflexivity|split; [reflexivity|]]].
  - intros t _. eexists. split; [reflexivity|]. right. eexists. split; [reflexivity|]. split; intros; cbn; field.
  - intros t _. unfold spin_symmetric. destruct (is_exchange t); [discriminate|]. eexists. split; [reflexivity|]. split; intros; cbn; ring.
Qed.
Example C134_example_potential : let d := mkT [1; 1; 1; 2]%nat (fun i => INR (S (nth 3 i 0%nat))) in
  contains "gga" "lda_x" = false /\ (forall t, In t (split_on "+" "lda_x") -> is_exchange t = true /\ ex_lib t false <> None) /\
  forall x, inb x [1; 1; 2]%nat -> 0 < tget d (0%nat :: x) /\ ex_derive (fun r => local_particle ex_lib (split_on "+" "lda_x") r) (tget d (0%nat :: x)) /\ Derive (fun r => local_particle ex_lib (split_on "+" "lda_x") r) (tget d (0%nat :: x)) < 0.
Proof.
  intros d. split; [reflexivity|]. split; [intros t [<-|[]]; split; [reflexivity|discriminate]|].
  intros x Hx. assert (P : 0 < tget d (0%nat :: x)) by (apply lt_0_INR; lia). split; [exact P|].
  set (r0 := tget d (0%nat :: x)) in *.
  assert (D : is_derive (fun r => local_particle ex_lib (split_on "+" "lda_x") r) r0 (- (r0 / 2))).
  { apply (is_derive_ext (fun r => - (r / 2) * (r / 2) + 0 / 4 + 0)); [intros t; cbn; ring|]. auto_derive; [exact I|field]. }
  split; [eexists; exact D|]. apply is_derive_unique in D. set (q := Derive _ _) in *. change (q < 0). replace q with (- (r0 / 2)); lra.
Qed.
