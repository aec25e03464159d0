(** Brakets and expectation values: properties C49, C50. *)
From Coq Require Import Reals Lra Lia Permutation.
From Coquelicot Require Import Coquelicot.
From Coq Require Import Ascii String List Arith ZArith.
From Verif Require Import Base Sums Tensor DFT GridModel PadModel Lin3 VecModel VecProofs PwModel PwSpec PropVec PropPw BraketModel BraketSpec BraketProofs.
Import ListNotations.
Local Open Scope C_scope.

(** C49 *)
Theorem C49_parseval : forall f g F H bs n1 n2 n3 vol, let ns := [n1; n2; n3] in
  Forall (fun n => (0 < n)%nat) (bs ++ ns) -> tshape f = bs ++ ns -> tshape g = bs ++ ns ->
  fftn3 f = Ok F -> fftn3 g = Ok H ->
  reciprocal_braket F H vol =
   Ok (vol / INR (nprod ns) / (INR (nprod bs) * INR (nprod bs)) * Re (sumC (indices (bs ++ ns)) (fun i => (Cconj (tget f i) * tget g i)%C)))%R.
Proof. exact recip_braket_parseval. Qed.
Print Assumptions C49_parseval.

Theorem C49_real_fields_agree : forall (f g : tensor R) F H n1 n2 n3 vol, let ns := [n1; n2; n3] in
  Forall (fun n => (0 < n)%nat) ns -> tshape f = ns -> tshape g = ns ->
  fftn3 (tmap RtoC f) = Ok F -> fftn3 (tmap RtoC g) = Ok H ->
  exists r, reciprocal_braket F H vol = Ok r /\ real_braket (tmap RtoC f) (tmap RtoC g) vol = Ok (RtoC r) /\
    r = (vol / INR (nprod ns) * sumR (indices ns) (fun x => tget f x * tget g x))%R.
Proof. exact brakets_agree. Qed.
Print Assumptions C49_real_fields_agree.

Theorem C49_symmetric : forall a b vol r, tshape a = tshape b -> reciprocal_braket a b vol = Ok r -> reciprocal_braket b a vol = Ok r.
Proof. exact recip_braket_sym. Qed.
Print Assumptions C49_symmetric.

Theorem C49_linear : forall a b b' (s : R) vol t, tshape a = tshape b -> tshape b' = tshape b ->
  tshape t = tshape b -> (forall i, inb i (tshape b) -> tget t i = tget b i + RtoC s * tget b' i) ->
  exists r r' rt, reciprocal_braket a b vol = Ok r /\ reciprocal_braket a b' vol = Ok r' /\ reciprocal_braket a t vol = Ok rt /\ rt = (r + s * r')%R.
Proof. exact recip_braket_linear. Qed.
Print Assumptions C49_linear.

Theorem C49_positive : forall a vol, (0 <= vol)%R -> Forall (fun n => (0 < n)%nat) (tshape a) ->
  exists r, reciprocal_braket a a vol = Ok r /\ (0 <= r)%R /\ ((0 < vol)%R -> r = 0%R <-> forall i, inb i (tshape a) -> tget a i = RtoC 0).
Proof. exact recip_braket_pos. Qed.
Print Assumptions C49_positive.

Theorem C49_mismatched_shapes_raise : forall bra ket vol, tshape bra <> tshape ket -> real_braket bra ket vol = Err ValueErr.
Proof. exact real_braket_mismatch. Qed.
Print Assumptions C49_mismatched_shapes_raise.

Theorem C49_real_braket_norm_refuted : exists f, tshape f = [1; 1; 2]%nat /\ real_braket f f 1 = Ok (RtoC (-1)%R).
Proof. exact real_braket_not_norm. Qed.
Print Assumptions C49_real_braket_norm_refuted.
(** a real field of two values, its transform, and a vector of two entries *)
Definition ex_f : tensor R := mkT [1; 1; 2]%nat (fun i => INR (nth 2 i 0%nat)).
Example C49_example : exists F, fftn3 (tmap RtoC ex_f) = Ok F /\ Forall (fun n => (0 < n)%nat) [1; 1; 2]%nat /\ real_braket (tmap RtoC ex_f) (tmap RtoC ex_f) 4 = Ok (RtoC 2)%R.
Proof.
  eexists. split; [reflexivity|]. split; [repeat constructor|]. rewrite real_braket_same by reflexivity. f_equal. unfold ex_f. cbn.
  apply injective_projections; cbn; field.
Qed.


(** C50 *)
Theorem C50_entries : forall bra ket ham vol mode sp K B B' n1 n2 n3, let ns := [n1; n2; n3] in
  mode <> OtherMode -> tshape bra = [sp; K; B] ++ ns -> tshape ket = [sp; K; B'] ++ ns -> ham_ok ham K ns ->
  exists E, expectation bra ham vol (Some ket) false mode = Ok E /\ tshape E = [sp; K; B; B'] /\
    forall s k i j, (s < sp)%nat -> (k < K)%nat -> (i < B)%nat -> (j < B')%nat ->
      tget E [s; k; i; j] = RtoC (efactor mode vol (INR (nprod ns))) *
        sumC (indices ns) (fun g => Cconj (tget bra ([s; k; i] ++ g)) * ham_at ham k g * tget ket ([s; k; j] ++ g)).
Proof. exact expectation_full. Qed.
Print Assumptions C50_entries.

Theorem C50_diagonal_only : forall bra ket ham vol mode sp K B n1 n2 n3 E, let ns := [n1; n2; n3] in
  mode <> OtherMode -> tshape bra = [sp; K; B] ++ ns -> tshape ket = [sp; K; B] ++ ns -> ham_ok ham K ns ->
  expectation bra ham vol (Some ket) false mode = Ok E ->
  exists D, expectation bra ham vol (Some ket) true mode = Ok D /\ tshape D = [sp; K; B] /\
    forall s k i, tget D [s; k; i] = tget E [s; k; i; i].
Proof. exact expectation_diag. Qed.
Print Assumptions C50_diagonal_only.

Theorem C50_hermitian : forall bra ham vol mode sp K B n1 n2 n3 E, let ns := [n1; n2; n3] in
  mode <> OtherMode -> tshape bra = [sp; K; B] ++ ns -> ham_ok ham K ns -> ham_real ham ->
  expectation bra ham vol None false mode = Ok E ->
  forall s k i j, (s < sp)%nat -> (k < K)%nat -> (i < B)%nat -> (j < B)%nat -> tget E [s; k; i; j] = Cconj (tget E [s; k; j; i]).
Proof. exact expectation_hermitian. Qed.
Print Assumptions C50_hermitian.

Theorem C50_quadratic_form : forall bra ham vol mode sp K B n1 n2 n3 E, let ns := [n1; n2; n3] in
  mode <> OtherMode -> tshape bra = [sp; K; B] ++ ns -> ham_ok ham K ns ->
  expectation bra ham vol None false mode = Ok E ->
  forall s k (u : nat -> C), (s < sp)%nat -> (k < K)%nat ->
  sumC (seq 0 B) (fun i => sumC (seq 0 B) (fun j => Cconj (u i) * tget E [s; k; i; j] * u j)) =
  RtoC (efactor mode vol (INR (nprod ns))) *
   sumC (indices ns) (fun g => ham_at ham k g * RtoC (Cnorm2 (sumC (seq 0 B) (fun j => u j * tget bra ([s; k; j] ++ g))))).
Proof. exact expectation_form. Qed.
Print Assumptions C50_quadratic_form.

Theorem C50_kinetic_psd : forall c G kpts vol sp B n1 n2 n3 E, let ns := [n1; n2; n3] in
  tshape G = ns -> tshape c = [sp; length kpts; B] ++ ns ->
  expectation c (tmap RtoC (kinetic_operator G (Some kpts))) vol None false KineticMode = Ok E ->
  forall s k (u : nat -> C), (s < sp)%nat -> (k < length kpts)%nat ->
  exists e, sumC (seq 0 B) (fun i => sumC (seq 0 B) (fun j => Cconj (u i) * tget E [s; k; i; j] * u j)) = RtoC e /\ (0 <= e)%R.
Proof. exact kinetic_psd. Qed.
Print Assumptions C50_kinetic_psd.

Example C50_example : exists G E, tshape G = [1; 1; 3]%nat /\ tshape ex_c = ([1; length [V3 0 0 1]; 1] ++ [1; 1; 3])%nat /\
  expectation ex_c (tmap RtoC (kinetic_operator G (Some [V3 0 0 1]%R))) 8 None false KineticMode = Ok E /\
  tget E [0; 0; 0; 0]%nat = RtoC (norm2 (vadd (tget G [0; 0; 1]%nat) (V3 0 0 1)) / 2)%R.
Proof.
  destruct (proj2 (g_vectors_ok ex_cell 1 1 3)) as [G HG]; [lia|].
  destruct (g_vectors_dual ex_cell 1 1 3 G ltac:(unfold ex_cell; lin3; lra) HG) as (SG & _).
  exists G.
  destruct (expectation_full ex_c ex_c (tmap RtoC (kinetic_operator G (Some [V3 0 0 1]%R))) 8 KineticMode 1 1 1 1 1 1 3) as (E & HE & SE & GE);
    [discriminate|reflexivity|reflexivity|right; left; cbn; rewrite SG; reflexivity|].
  exists E. split; [exact SG|]. split; [reflexivity|]. split; [exact HE|].
  rewrite GE by lia. unfold ham_at, ndim. cbn [tshape tmap kinetic_operator length]. rewrite SG. cbn. unfold norm2. apply injective_projections; cbn; field.
Qed.
