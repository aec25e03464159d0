(** Exchange-correlation: properties C55, C56, C85. *)
From Coq Require Import Reals Lra Lia Permutation.
From Coquelicot Require Import Coquelicot.
From Coq Require Import Ascii String List Arith ZArith.
From Verif Require Import Base Sums Tensor DFT GridModel PadModel Lin3 VecModel VecProofs PwModel PwSpec PropVec PropPw BraketModel XcModel XcSpec EnergyModel EnergySpec XcProofs2 XcProofs3.
Import ListNotations.
Local Open Scope R_scope.

(** C55 *)
Theorem C55_exact_error : forall lib vg xt f d G vol n1 n2 n3, let ns := [n1; n2; n3] in
  exchange_name xt -> lib xt false = Some f -> tshape d = 2%nat :: ns ->
  let u x := tget d (0%nat :: x) in let w x := tget d (1%nat :: x) in
  exists e eu ew, e_xc (xc_density lib vg) d G vol xt false = Ok e /\
    e_xc (xc_density lib vg) (mkT (1%nat :: ns) (fun i => 2 * u (tl i))) G vol xt false = Ok eu /\
    e_xc (xc_density lib vg) (mkT (1%nat :: ns) (fun i => 2 * w (tl i))) G vol xt false = Ok ew /\
    (eu + ew) / 2 - e = vol / (2 * INR (nprod ns)) * sumR (indices ns) (fun x => (u x - w x) * (f [2 * u x] [] - f [2 * w x] [])).
Proof. exact spin_scaling. Qed.
Print Assumptions C55_exact_error.

Theorem C55_equal_channels : forall lib vg xt f d G vol n1 n2 n3, let ns := [n1; n2; n3] in
  exchange_name xt -> lib xt false = Some f -> tshape d = 2%nat :: ns ->
  (forall x, inb x ns -> tget d (0%nat :: x) = tget d (1%nat :: x)) ->
  exists e, e_xc (xc_density lib vg) d G vol xt false = Ok e /\
    e_xc (xc_density lib vg) (mkT (1%nat :: ns) (fun i => 2 * tget d (0%nat :: tl i))) G vol xt false = Ok e.
Proof. exact spin_scaling_equal. Qed.
Print Assumptions C55_equal_channels.

Theorem C55_spin_scaling_refuted_strict : forall lib vg xt f d G vol n1 n2 n3, let ns := [n1; n2; n3] in
  exchange_name xt -> lib xt false = Some f -> (forall a b, 0 <= a < b -> f [b] [] < f [a] []) -> 0 < vol ->
  tshape d = 2%nat :: ns -> (forall i, inb i (tshape d) -> 0 <= tget d i) ->
  (exists x, inb x ns /\ tget d (0%nat :: x) <> tget d (1%nat :: x)) ->
  exists e eu ew, e_xc (xc_density lib vg) d G vol xt false = Ok e /\
    e_xc (xc_density lib vg) (mkT (1%nat :: ns) (fun i => 2 * tget d (0%nat :: tl i))) G vol xt false = Ok eu /\
    e_xc (xc_density lib vg) (mkT (1%nat :: ns) (fun i => 2 * tget d (1%nat :: tl i))) G vol xt false = Ok ew /\
    (eu + ew) / 2 < e.
Proof. exact spin_scaling_strict. Qed.
Print Assumptions C55_spin_scaling_refuted_strict.
(** An energy per particle that decreases, and a density whose channels differ. *)
Definition ex_lib : xclib := fun _ _ => Some (fun l _ => - nth 0 l 0).
Definition ex_d : tensor R := mkT [2; 1; 1; 2]%nat (fun i => INR (nth 0 i 0%nat)).
Example C55_example : exchange_name "lda_x" /\ (forall a b : R, 0 <= a < b -> - nth 0 [b] 0 < - nth 0 [a] 0) /\
  (forall i, inb i (tshape ex_d) -> 0 <= tget ex_d i) /\ tget ex_d [0; 0; 0; 0]%nat <> tget ex_d [1; 0; 0; 0]%nat.
Proof.
  split; [split; [reflexivity|split; reflexivity]|]. split; [intros a b H; cbn; lra|]. split; [intros i _; apply pos_INR|]. cbn. lra.
Qed.


(** C56 *)
Theorem C56_unpolarised_derivative : forall (exc : list R -> R) (d : tensor R) ns, tshape d = 1%nat :: ns -> (forall x, inb x ns -> ex_derive (fun r => exc [r]) (tget d (0%nat :: x))) ->
  exists v, vxc_lda exc d = Ok v /\ tshape v = 1%nat :: ns /\
    forall x, inb x ns -> is_derive (fun r => r * exc [r]) (tget d (0%nat :: x)) (tget v (0%nat :: x)).
Proof. exact vxc_lda_unpol. Qed.
Print Assumptions C56_unpolarised_derivative.

Theorem C56_energy_derivative : forall lib vg xt (d e : tensor R) G vol n1 n2 n3, let ns := [n1; n2; n3] in let ts := split_on "+" xt in
  contains "gga" xt = false -> (forall t, In t ts -> lib t false <> None) -> tshape d = 1%nat :: ns ->
  (forall x, inb x ns -> ex_derive (fun r : R => local_particle lib ts r) (tget d (0%nat :: x))) ->
  exists (v : tensor C) (E : R -> R), xc_density lib vg d G true xt = Ok v /\ tshape v = 1%nat :: ns /\ real_valued v /\
    (forall t, e_xc (xc_density lib vg) (mkT (1%nat :: ns) (fun i => tget d i + t * tget e i)) G vol xt false = Ok (E t)) /\
    is_derive E 0 (vol / INR (nprod ns) * sumR (indices ns) (fun x => Re (tget v (0%nat :: x)) * tget e (0%nat :: x))).
Proof. exact lda_energy_derivative. Qed.
Print Assumptions C56_energy_derivative.

Theorem C56_polarised_missing_term : forall (exc : list R -> R) (d : tensor R) ns, tshape d = 2%nat :: ns ->
  (forall x, inb x ns -> ex_derive (fun r => exc [r; tget d (1%nat :: x)]) (tget d (0%nat :: x)) /\ ex_derive (fun r => exc [tget d (0%nat :: x); r]) (tget d (1%nat :: x))) ->
  exists v, vxc_lda exc d = Ok v /\ tshape v = 2%nat :: ns /\
    forall x, inb x ns -> let u := tget d (0%nat :: x) in let w := tget d (1%nat :: x) in
      is_derive (fun r => (r + w) * exc [r; w]) u (tget v (0%nat :: x) + w * Derive (fun r => exc [r; w]) u) /\
      is_derive (fun r => (u + r) * exc [u; r]) w (tget v (1%nat :: x) + u * Derive (fun r => exc [u; r]) w).
Proof. exact vxc_lda_pol. Qed.
Print Assumptions C56_polarised_missing_term.
Theorem C56_polarised_refuted : exists (exc : list R -> R) (d v : tensor R), tshape d = [2; 1; 1; 1]%nat /\ vxc_lda exc d = Ok v /\
  let u := tget d [0; 0; 0; 0]%nat in let w := tget d [1; 0; 0; 0]%nat in
  ~ is_derive (fun r => (r + w) * exc [r; w]) u (tget v [0; 0; 0; 0]%nat).
Proof. exact vxc_lda_pol_wrong. Qed.
Print Assumptions C56_polarised_refuted.
Example C56_example : (forall t, In t (split_on "+" "lda_x+lda_c_pw") -> ex_lib t false <> None) /\ contains "gga" "lda_x+lda_c_pw" = false /\
  forall r : R, ex_derive (fun r : R => local_particle ex_lib ["lda_x"; "lda_c_pw"]%string r) r.
Proof.
  split; [intros t _; discriminate|]. split; [reflexivity|]. intros r. unfold local_particle, ex_lib. cbn. auto_derive. exact I.
Qed.


(** C85 *)
Theorem C85_sigma_is_squared_gradient : forall A n1 n2 n3 G X d sp, let ns := [n1; n2; n3] in
  m3det A <> 0 -> g_vectors A ns = Ok G -> r_vectors A ns = Ok X -> tshape d = sp :: ns ->
  exists (sg : tensor R) (gr : nat -> list nat -> nat -> C), sigma_r_fn d G = Ok sg /\
    (forall k x e, (k < sp)%nat -> inb x ns -> let f y := tget d (k :: y) in
       is_derive (fun t => Re (interpolant ns G f (vadd (tget X x) (vscale t e)))) 0 (Re (vec (gr k x) e)) /\
       is_derive (fun t => Im (interpolant ns G f (vadd (tget X x) (vscale t e)))) 0 (Im (vec (gr k x) e))) /\
    let pr k l x := Re (Cconj (gr k x 0%nat) * gr l x 0%nat + Cconj (gr k x 1%nat) * gr l x 1%nat + Cconj (gr k x 2%nat) * gr l x 2%nat)%C in
    if (sp =? 2)%nat then tshape sg = 3%nat :: ns /\ forall x, tget sg (0%nat :: x) = pr 0%nat 0%nat x /\ tget sg (1%nat :: x) = pr 0%nat 1%nat x /\ tget sg (2%nat :: x) = pr 1%nat 1%nat x
    else tshape sg = sp :: ns /\ forall k x, tget sg (k :: x) = pr k k x.
Proof. exact sigma_is_gradient. Qed.
Print Assumptions C85_sigma_is_squared_gradient.

Theorem C85_sigma_polarised : forall A n1 n2 n3 G d, let ns := [n1; n2; n3] in
  m3det A <> 0 -> g_vectors A ns = Ok G -> tshape d = 2%nat :: ns ->
  exists sg, sigma_r_fn d G = Ok sg /\ tshape sg = 3%nat :: ns /\
    forall x, inb x ns -> 0 <= tget sg (0%nat :: x) /\ 0 <= tget sg (2%nat :: x) /\
      Rsqr (tget sg (1%nat :: x)) <= tget sg (0%nat :: x) * tget sg (2%nat :: x) /\
      forall tot, sigma_r_fn (mkT (1%nat :: ns) (fun i => tget d (0%nat :: tl i) + tget d (1%nat :: tl i))) G = Ok tot ->
        tget tot (0%nat :: x) = tget sg (0%nat :: x) + 2 * tget sg (1%nat :: x) + tget sg (2%nat :: x).
Proof. exact sigma_facts. Qed.
Print Assumptions C85_sigma_polarised.

Theorem C85_sigma_zero_iff_constant : forall A n1 n2 n3 G d, let ns := [n1; n2; n3] in
  m3det A <> 0 -> g_vectors A ns = Ok G -> tshape d = 1%nat :: ns ->
  exists sg, sigma_r_fn d G = Ok sg /\ tshape sg = 1%nat :: ns /\ (forall x, inb x ns -> 0 <= tget sg (0%nat :: x)) /\
    ((forall x, inb x ns -> tget sg (0%nat :: x) = 0) <-> (forall x y, inb x ns -> inb y ns -> tget d (0%nat :: x) = tget d (0%nat :: y))).
Proof. exact sigma_zero_iff. Qed.
Print Assumptions C85_sigma_zero_iff_constant.

Example C85_example : (exists G X, g_vectors ex_cell [1; 1; 2]%nat = Ok G /\ r_vectors ex_cell [1; 1; 2]%nat = Ok X) /\ m3det ex_cell <> 0 /\ tshape ex_d = [2; 1; 1; 2]%nat.
Proof.
  split; [|split; [unfold ex_cell; lin3; lra|reflexivity]].
  destruct (vector_grid_ok (reciprocal_vectors ex_cell) 1 1 2 false) as [G HG]; try lia. destruct (vector_grid_ok ex_cell 1 1 2 true) as [X HX]; try lia.
  exists G, X. split; assumption.
Qed.
