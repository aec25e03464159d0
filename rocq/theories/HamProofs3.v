(** Spin channels of the potential and the spin-polarised Hamiltonian. *)
From Coq Require Import Reals Lra Lia.
From Coquelicot Require Import Coquelicot.
From Coq Require Import Ascii String List Arith ZArith Bool.
From Verif Require Import Base Sums Tensor DFT GridModel PadModel Lin3 VecModel PwModel BraketModel XcModel EnergyModel HamModel HamSpec.
From Verif Require Import BraketSpec PadProofs PwProofs BraketProofs TotalProofs XcProofs3 HamProofs HamProofs2.
Import ListNotations.
Local Open Scope R_scope.

Lemma lda_channels lib vg xt dens pos ch G vol ks sp n1 n2 n3 : let ns := [n1; n2; n3] in
  (sp = 1 \/ sp = 2)%nat -> contains "gga" xt = false -> (forall t b, In t (split_on "+" xt) -> lib t b <> None) ->
  tshape dens = sp :: ns -> tshape G = ns -> length ch = length pos ->
  exists v, effective_sum (xc_density lib vg) dens pos ch G vol xt ks = Ok v /\ tshape v = (if ks then sp else 1%nat) :: ns.
Proof.
  intros ns Hs Hg Hl Sd SG Hp.
  destruct (lda_known lib _ dens sp ns Hs Sd Hl) as (e & E & Se).
  assert (X : exists vx : tensor R, xc_density lib vg dens G ks xt = Ok (tmap RtoC vx) /\ tshape vx = (if ks then sp :: ns else ns)).
  { unfold xc_density. rewrite Hg, E. cbn [bind rmap]. destruct ks.
    - unfold vxc_lda. rewrite Sd. destruct Hs as [-> | ->]; cbn [Nat.eqb orb rmap]; eexists; (split; [reflexivity|reflexivity]).
    - exists e. split; [reflexivity|exact Se]. }
  destruct X as (vx & Ex & Sx).
  assert (Sx' : tshape (tmap RtoC vx) = (if ks then sp :: ns else ns)) by exact Sx.
  destruct (effective_adds (xc_density lib vg) dens pos ch G vol xt ks sp n1 n2 n3 (tmap RtoC vx) Sd SG Hp Ex) as (vh & ve & v & _ & _ & _ & Ev & Cases).
  { rewrite Sx'. destruct ks; auto. }
  exists v. split; [exact Ev|]. destruct Cases as [(A & B & _)|(A & B & _)]; rewrite B.
  - fold ns in A. rewrite Sx' in A. destruct ks; [reflexivity|]. apply (f_equal (@length nat)) in A. cbn in A. lia.
  - fold ns in A. rewrite Sx' in A. destruct ks; [|reflexivity]. apply (f_equal (@length nat)) in A. cbn in A. lia.
Qed.

(** Two channels: every block is the sum of the two Hamiltonians. *)
Lemma two_channels xcd c pos ch dens G kpts vol xt ks sp B n1 n2 n3 v w : let ns := [n1; n2; n3] in let K := length kpts in
  tshape c = [sp; K; B] ++ ns -> tshape G = ns -> effective_sum xcd dens pos ch G vol xt ks = Ok v -> tshape v = 2%nat :: ns -> wave_grid c vol = Ok w ->
  exists M, hamiltonian_matrix xcd c pos ch dens G kpts vol xt ks = Ok M /\
    forall s k i j, (s < sp)%nat -> (k < K)%nat -> (i < B)%nat -> (j < B)%nat ->
      tget M [s; k; i; j] = (h_element ns vol (fun x => Re (tget v (0%nat :: x))) w c G (nth k kpts vzero) [s; k; i] [s; k; j]
                           + h_element ns vol (fun x => Re (tget v (1%nat :: x))) w c G (nth k kpts vzero) [s; k; i] [s; k; j])%C.
Proof.
  intros ns K Hc HG Hv Sv Hw. destruct (matrix_value xcd c pos ch dens G kpts vol xt ks sp B 2 n1 n2 n3 v w Hc HG Hv Sv Hw) as (M & HM & _ & V).
  exists M. split; [exact HM|]. intros s k i j Hs Hk Hi Hj. rewrite V by assumption. unfold hel. cbn [seq sumC]. rewrite Cplus_0_r. reflexivity.
Qed.
Lemma one_channel xcd c pos ch dens G kpts vol xt ks sp B n1 n2 n3 v w : let ns := [n1; n2; n3] in let K := length kpts in
  tshape c = [sp; K; B] ++ ns -> tshape G = ns -> effective_sum xcd dens pos ch G vol xt ks = Ok v -> tshape v = 1%nat :: ns -> wave_grid c vol = Ok w ->
  exists M, hamiltonian_matrix xcd c pos ch dens G kpts vol xt ks = Ok M /\ ((0 < B)%nat -> tshape M = [sp; K; B; B]) /\
    forall s k i j, (s < sp)%nat -> (k < K)%nat -> (i < B)%nat -> (j < B)%nat ->
      tget M [s; k; i; j] = h_element ns vol (fun x => Re (tget v (0%nat :: x))) w c G (nth k kpts vzero) [s; k; i] [s; k; j] /\
      tget M [s; k; j; i] = Cconj (tget M [s; k; i; j]).
Proof.
  intros ns K Hc HG Hv Sv Hw. destruct (matrix_value xcd c pos ch dens G kpts vol xt ks sp B 1 n1 n2 n3 v w Hc HG Hv Sv Hw) as (M & HM & SM & V).
  exists M. split; [exact HM|]. split; [exact SM|]. intros s k i j Hs Hk Hi Hj. split.
  - rewrite V by assumption. unfold hel. cbn [seq sumC]. rewrite Cplus_0_r. reflexivity.
  - rewrite !V by assumption. apply hel_hermitian.
Qed.

(** The documented matrix of a spin-polarised system is not what is returned. *)
Lemma polarised_wrong lib vg xt dens pos ch vol :
  contains "gga" xt = false -> (forall t b, In t (split_on "+" xt) -> lib t b <> None) -> tshape dens = [2; 1; 1; 1]%nat -> length ch = length pos ->
  let c := mkT [2; 1; 1; 1; 1; 1]%nat (fun _ => RtoC 1) in let G := mkT [1; 1; 1]%nat (fun _ => vzero) in
  exists kpts v w M s, effective_sum (xc_density lib vg) dens pos ch G vol xt true = Ok v /\ tshape v = [2; 1; 1; 1]%nat /\ wave_grid c vol = Ok w /\
    hamiltonian_matrix (xc_density lib vg) c pos ch dens G kpts vol xt true = Ok M /\ (s < 2)%nat /\ length kpts = 1%nat /\
    tget M [s; 0; 0; 0]%nat <> h_element [1; 1; 1]%nat vol (fun x => Re (tget v (s :: x))) w c G (nth 0 kpts vzero) [s; 0; 0]%nat [s; 0; 0]%nat.
Proof.
  intros Hg Hl Sd Hp c G.
  destruct (lda_channels lib vg xt dens pos ch G vol true 2 1 1 1 (or_intror eq_refl) Hg Hl Sd eq_refl Hp) as (v & Hv & Sv).
  destruct (wave_grid_eq c vol [2; 1; 1]%nat [1; 1; 1]%nat eq_refl eq_refl) as (w & Hw & _).
  set (P := potential_element [1; 1; 1]%nat vol (fun x => Re (tget v (1%nat :: x))) w [0; 0; 0]%nat [0; 0; 0]%nat).
  assert (Q : exists t, (RtoC (t * t / 2) + P)%C <> RtoC 0).
  { destruct (Ceq_dec P (RtoC 0)) as [E|E].
    - exists 1. rewrite E. intros F. apply (f_equal Re) in F. unfold Re in F. cbn in F. lra.
    - exists 0. intros F. apply E. rewrite <- F. apply injective_projections; cbn; field. }
  destruct Q as (t & Ht).
  destruct (two_channels (xc_density lib vg) c pos ch dens G [V3 t 0 0] vol xt true 2 1 1 1 1 v w eq_refl eq_refl Hv Sv Hw) as (M & HM & V).
  exists [V3 t 0 0], v, w, M, 0%nat. repeat (split; [first [assumption|reflexivity|lia]|]).
  rewrite V by (cbn; lia). intros F.
  match type of F with (?a + ?b)%C = _ => set (A := a) in *; set (B := b) in * end.
  assert (B = RtoC 0) by (transitivity (A + B - A)%C; [ring|rewrite F; ring]).
  apply Ht. rewrite <- H. unfold B, h_element. fold P. f_equal. unfold kinetic_element. cbn. apply injective_projections; unfold dot, vadd, vzero; cbn; field.
Qed.

Lemma basis_one xcd mask pos ch dens G kpts vol xt ks n1 n2 n3 v : let ns := [n1; n2; n3] in
  let n := length (mask_positions mask) in let p i := nth i (mask_positions mask) [] in
  tshape mask = ns -> tshape G = ns -> effective_sum xcd dens pos ch G vol xt ks = Ok v -> tshape v = 1%nat :: ns -> 0 < vol ->
  exists M, hamiltonian_matrix_basis xcd mask pos ch dens G kpts vol xt ks = Ok M /\ ((0 < n)%nat -> tshape M = [length kpts; n; n]) /\
    forall k i j, (k < length kpts)%nat -> (i < n)%nat -> (j < n)%nat ->
      tget M [k; i; j] = ((if (i =? j)%nat then RtoC (let q := vadd (tget G (p i)) (nth k kpts vzero) in dot q q / 2) else RtoC 0)
        + RtoC (/ INR (nprod ns)) * sumC (indices ns) (fun x => RtoC (Re (tget v (0%nat :: x))) * cis (- (2 * PI * phase ns (zsub (zs (p i)) (zs (p j))) (zs x)))%R))%C.
Proof.
  intros ns n p Hm HG Hv Sv Hvol. destruct (basis_value xcd mask pos ch dens G kpts vol xt ks 1 n1 n2 n3 v Hm HG Hv Sv Hvol) as (M & HM & SM & V).
  exists M. split; [exact HM|]. split; [exact SM|]. intros k i j Hk Hi Hj. rewrite V by assumption. unfold pw_element. cbn [seq sumC]. rewrite Cplus_0_r. reflexivity.
Qed.
