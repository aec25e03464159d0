(** Stationary points of the energy and the free energy: properties C136, C137. *)
From Coq Require Import Reals Lra Lia.
From Coquelicot Require Import Coquelicot.
From Coq Require Import Ascii String List Arith ZArith Bool.
From Verif Require Import Base Sums Tensor DFT GridModel PadModel Lin3 VecModel VecProofs OccModel PwModel PwProofs BraketModel XcModel XcSpec EnergyModel HamModel HamSpec HamProofs3 StatSpec StatProofs PropHam.
Import ListNotations.
Local Open Scope R_scope.

(** C136.  The entropy has the derivative -sum o [ln (eps+p) + p/(eps+p) - ln (eps+w-p) - (w-p)/(eps+w-p)]
    along a change o of the occupation numbers p, w being the capacity of a state. *)
Theorem C136_entropy : forall occ o eps S K B, tshape occ = [S; K; B] -> let w := (3 - INR S) / INR K in
  (forall i, inb i [S; K; B] -> 0 < eps + tget occ i /\ 0 < eps + w - tget occ i) ->
  exists H : R -> R, (forall t, fermi_dirac (mkT (tshape occ) (fun i => tget occ i + t * tget o i)) eps = Ok (H t)) /\
    is_derive H 0 (- sumR (indices [S; K; B]) (fun i => let p := tget occ i in
      tget o i * (ln (eps + p) + p / (eps + p) - ln (eps + w - p) - (w - p) / (eps + w - p)))).
Proof. exact entropy_derivative. Qed.
Print Assumptions C136_entropy.

(** With eps = 0 the free energy of a state with fractional occupations is stationary, at fixed
    number of electrons, exactly when the occupations are those of the Fermi-Dirac distribution at
    the expectation values of the Hamiltonian. *)
Theorem C136_fermi_dirac : forall lib vg xt A c pos ch G kpts vol occ d T B n1 n2 n3, let ns := [n1; n2; n3] in let K := length kpts in let ts := split_on "+" xt in
  contains "gga" xt = false -> (forall t b, In t ts -> lib t b <> None) ->
  m3det A <> 0 -> 0 < vol -> g_vectors A ns = Ok G -> length ch = length pos -> tshape c = [1%nat; K; B] ++ ns -> tshape occ = [1%nat; K; B] ->
  density_grid c vol (Some occ) = Ok d ->
  (forall x, inb x ns -> ex_derive (local_particle lib ts) (tget d (0%nat :: x))) ->
  (forall i, inb i [1%nat; K; B] -> 0 < tget occ i < 2 / INR K) -> 0 < T ->
  exists M : tensor C, hamiltonian_matrix (xc_density lib vg) c pos ch d G kpts vol xt true = Ok M /\
    (occupations_stationary (xc_density lib vg) c pos ch G kpts vol occ xt 0 T <->
     exists mu, forall k b, (k < K)%nat -> (b < B)%nat -> tget occ [0%nat; k; b] = 2 / INR K * fermi T mu (Re (tget M [0%nat; k; b; b]))).
Proof. exact stationary_fermi. Qed.
Print Assumptions C136_fermi_dirac.

(** With any eps: the expectation value plus T times the slope of the regularised entropy is one constant. *)
Theorem C136_regularised : forall lib vg xt A c pos ch G kpts vol occ d eps T B n1 n2 n3, let ns := [n1; n2; n3] in let K := length kpts in let ts := split_on "+" xt in
  contains "gga" xt = false -> (forall t b, In t ts -> lib t b <> None) ->
  m3det A <> 0 -> 0 < vol -> g_vectors A ns = Ok G -> length ch = length pos -> tshape c = [1%nat; K; B] ++ ns -> tshape occ = [1%nat; K; B] ->
  density_grid c vol (Some occ) = Ok d ->
  (forall x, inb x ns -> ex_derive (local_particle lib ts) (tget d (0%nat :: x))) ->
  (forall i, inb i [1%nat; K; B] -> 0 < eps + tget occ i /\ 0 < eps + 2 / INR K - tget occ i) ->
  exists M : tensor C, hamiltonian_matrix (xc_density lib vg) c pos ch d G kpts vol xt true = Ok M /\
    (occupations_stationary (xc_density lib vg) c pos ch G kpts vol occ xt eps T <->
     exists mu, forall k b, (k < K)%nat -> (b < B)%nat -> let p := tget occ [0%nat; k; b] in let w := 2 / INR K in
       Re (tget M [0%nat; k; b; b]) + T * (ln (eps + p) + p / (eps + p) - ln (eps + w - p) - (w - p) / (eps + w - p)) = mu).
Proof. exact stationary_occupations. Qed.
Print Assumptions C136_regularised.

(** C137.  The total energy is stationary under changes of the orbitals away from their span exactly
    when the Hamiltonian maps every occupied orbital into that span: H c_kb has no overlap with
    anything orthogonal to the orbitals of its k-point. *)
Theorem C137_kohn_sham : forall lib vg xt A c pos ch G kpts vol occ d B n1 n2 n3, let ns := [n1; n2; n3] in let K := length kpts in let ts := split_on "+" xt in
  contains "gga" xt = false -> (forall t b, In t ts -> lib t b <> None) ->
  m3det A <> 0 -> 0 < vol -> g_vectors A ns = Ok G -> length ch = length pos -> tshape c = [1%nat; K; B] ++ ns -> tshape occ = [1%nat; K; B] ->
  density_grid c vol (Some occ) = Ok d ->
  (forall x, inb x ns -> ex_derive (local_particle lib ts) (tget d (0%nat :: x))) ->
  (orbitals_stationary (xc_density lib vg) c pos ch G kpts vol occ xt ns B <->
   forall e M, outward ns K B c e -> hamiltonian_matrix (xc_density lib vg) (stack_bands B c e) pos ch d G kpts vol xt true = Ok M ->
     forall k b, (k < K)%nat -> (b < B)%nat -> tget occ [0%nat; k; b] <> 0 -> tget M [0%nat; k; (B + b)%nat; b] = RtoC 0).
Proof. exact stationary_orbitals. Qed.
Print Assumptions C137_kohn_sham.

(** Two bands at two k-points, half filled, on a grid of three points; the third plane wave is a
    direction away from both. *)
Definition ex_occ136 : tensor R := mkT [1; 2; 2]%nat (fun _ => / 2).
Definition ex_c136 : tensor C := mkT [1; 2; 2; 1; 1; 3]%nat (fun i => if (nth 2 i 0 =? nth 5 i 0)%nat then RtoC 1 else RtoC 0).
Definition ex_e136 : tensor C := mkT [1; 2; 2; 1; 1; 3]%nat (fun i => if (nth 5 i 0 =? 2)%nat then RtoC 1 else RtoC 0).
Example C136_example : exists G d, g_vectors ex_cell127 [1; 1; 3]%nat = Ok G /\ m3det ex_cell127 <> 0 /\ density_grid ex_c136 8 (Some ex_occ136) = Ok d /\
  (forall i, inb i [1; 2; 2]%nat -> 0 < tget ex_occ136 i < 2 / INR 2) /\ outward [1; 1; 3]%nat 2 2 ex_c136 ex_e136 /\ tget ex_e136 [0; 0; 0; 0; 0; 2]%nat <> RtoC 0 /\
  forall r : R, ex_derive (local_particle ex_lib (split_on "+" "lda_x+lda_c_pw")) r.
Proof.
  assert (HA : m3det ex_cell127 <> 0) by (unfold ex_cell127, m3det; lin3; lra).
  destruct (proj2 (g_vectors_ok ex_cell127 1 1 3)) as (G & HG); [repeat split; lia|].
  destruct (density_eq ex_c136 8 ex_occ136 1 2 2 1 1 3 eq_refl eq_refl) as (d & Hd & _).
  exists G, d. split; [exact HG|]. split; [exact HA|]. split; [exact Hd|]. split; [intros i _; cbn; lra|]. split; [|split].
  - intros k b b' Hk Hb Hb'. apply sumC_zero. intros g Hg. apply in_indices in Hg. inversion Hg as [|g1 ? g' ? _ Hg1]; subst. inversion Hg1 as [|g2 ? g'' ? _ Hg2]; subst. inversion Hg2 as [|g3 ? g4 ? Hg3 Hn]; subst. inversion Hn; subst.
    unfold ex_e136, ex_c136. cbn [tget app nth]. destruct (Nat.eqb_spec g3 2) as [->|N]; [|rewrite Cconj_R; apply Cmult_0_l].
    destruct (Nat.eqb_spec b' 2); [lia|]. apply Cmult_0_r.
  - cbn. intros E. injection E. lra.
  - intros r. apply (ex_derive_ext (fun r => local_particle ex_lib (split_on "+" "lda_x+lda_c_pw") r)); [reflexivity|]. unfold local_particle, ex_lib. cbn. auto_derive. exact I.
Qed.
