(** The parameters of the orbitals reach every set of orthonormal orbitals (C144). *)
From Coq Require Import Reals Lra Lia.
From Coquelicot Require Import Coquelicot.
From Coq Require Import Ascii String List Arith ZArith Bool.
From Verif Require Import Base Sums Tensor DFT GridModel GridProofs PadModel PadProofs Lin3 VecModel VecProofs OccModel OccSpec PwModel PwSpec PwProofs BraketModel XcModel XcSpec EnergyModel EnergySpec EnergyProofs ExtProofs TotalProofs XcProofs RespProofs
  CalcModel CalcSpec DrvModel DrvSpec DrvProofs2 DrvProofs3 DrvProofs4 DrvProofs5 DrvProofs6 ReachSpec.
Import ListNotations.
Local Open Scope C_scope.

Lemma Cconj_norm z : z * Cconj z = RtoC (Cnorm2 z).
Proof. rewrite Cmult_comm. apply Cconj_mult_self. Qed.
Lemma sumC_seq_nth {X} (l : list X) d (f : X -> C) : sumC (seq 0 (length l)) (fun j => f (nth j l d)) = sumC l f.
Proof.
  induction l as [|a l IH]; [reflexivity|]. cbn [length seq sumC nth]. rewrite <- IH. rewrite <- seq_shift, sumC_map. reflexivity.
Qed.
Lemma triangular_unitary (R : nat -> nat -> C) B : (forall l j, (j < l)%nat -> R l j = RtoC 0) ->
  (forall i j, (i < B)%nat -> (j < B)%nat -> sumC (seq 0 B) (fun l => Cconj (R l i) * R l j) = RtoC (if Nat.eqb i j then 1 else 0)) ->
  forall i, (i < B)%nat -> Cnorm2 (R i i) = 1%R /\ forall j, (j < B)%nat -> i <> j -> R i j = RtoC 0.
Proof.
  intros HT HU.
  assert (P : forall i, (i < B)%nat -> Cnorm2 (R i i) = 1%R /\ forall j, (j < B)%nat -> (i < j)%nat -> R i j = RtoC 0).
  { intros i. induction i as [i IH] using lt_wf_ind. intros Hi.
    assert (S : forall j, (j < B)%nat -> Cconj (R i i) * R i j = RtoC (if Nat.eqb i j then 1 else 0)).
    { intros j Hj. rewrite <- (HU i j Hi Hj). symmetry. apply (sumC_single (seq 0 B) i (fun l => Cconj (R l i) * R l j)); [apply seq_NoDup|apply in_seq; lia|].
      intros l Hl Hne. apply in_seq in Hl. assert (Z : R l i = RtoC 0) by (destruct (Nat.lt_ge_cases i l) as [H|H]; [apply HT, H|apply (IH l); lia]). rewrite Z, Cconj_R. ring. }
    assert (N : Cnorm2 (R i i) = 1%R).
    { pose proof (S i Hi) as E. rewrite Nat.eqb_refl, Cmult_comm, Cconj_norm in E. apply RtoC_inj in E. exact E. }
    split; [exact N|]. intros j Hj Hij. pose proof (S j Hj) as E. destruct (Nat.eqb_spec i j) as [->|_]; [lia|].
    replace (R i j) with (R i i * (Cconj (R i i) * R i j)); [rewrite E; ring|]. rewrite Cmult_assoc, Cconj_norm, N. ring. }
  intros i Hi. split; [apply P, Hi|]. intros j Hj Hne. destruct (Nat.lt_ge_cases i j) as [H|H]; [apply P; assumption|apply HT; lia].
Qed.
Lemma gram_product (Q R : nat -> nat -> C) M B a b :
  (forall j l, (j < B)%nat -> (l < B)%nat -> sumC (seq 0 M) (fun i => Cconj (Q i j) * Q i l) = RtoC (if Nat.eqb j l then 1 else 0)) ->
  sumC (seq 0 M) (fun i => Cconj (sumC (seq 0 B) (fun l => Q i l * R l a)) * sumC (seq 0 B) (fun l => Q i l * R l b)) = sumC (seq 0 B) (fun l => Cconj (R l a) * R l b).
Proof.
  intros HQ. transitivity (sumC (seq 0 M) (fun i => sumC (seq 0 B) (fun j => sumC (seq 0 B) (fun l => (Cconj (R j a) * R l b) * (Cconj (Q i j) * Q i l))))).
  { apply sumC_ext. intros i _. rewrite Cconj_sum, sumC_mult. apply sumC_ext. intros j _. apply sumC_ext. intros l _. rewrite Cconj_mult. ring. }
  rewrite sumC_swap. apply sumC_ext. intros j Hj. rewrite sumC_swap. apply in_seq in Hj.
  transitivity (sumC (seq 0 B) (fun l => (Cconj (R j a) * R l b) * RtoC (if Nat.eqb j l then 1 else 0))).
  { apply sumC_ext. intros l Hl. apply in_seq in Hl. rewrite sumC_scal, HQ by lia. reflexivity. }
  rewrite (sumC_single (seq 0 B) j (fun l => (Cconj (R j a) * R l b) * RtoC (if Nat.eqb j l then 1 else 0))); [rewrite Nat.eqb_refl; ring|apply seq_NoDup|apply in_seq; lia|].
  intros l _ Hne. destruct (Nat.eqb_spec j l) as [E|_]; [congruence|ring].
Qed.
(** The columns of Q are those of an orthonormal matrix up to phases. *)
Lemma qr_of_orthonormal cqr w bs M B b : complex_qr cqr -> qr_factors cqr -> tshape w = bs ++ [M; B] -> (B <= M)%nat -> inb b bs ->
  (forall j l, (j < B)%nat -> (l < B)%nat -> sumC (seq 0 M) (fun i => Cconj (tget w (b ++ [i; j])) * tget w (b ++ [i; l])) = RtoC (if Nat.eqb j l then 1 else 0)) ->
  forall j, (j < B)%nat -> exists u, Cmod u = 1%R /\ forall i, (i < M)%nat -> tget (cqr w) (b ++ [i; j]) = u * tget w (b ++ [i; j]).
Proof.
  intros Hq Hf Hs HB Hb Ho j Hj. destruct (Hf w bs M B b Hs Hb) as (R & HT & HR). destruct (Hq w bs M B Hs) as (_ & HQ). specialize (HQ b). rewrite Nat.min_r in * by exact HB.
  pose proof (triangular_unitary R B HT) as U. assert (HU : forall i j, (i < B)%nat -> (j < B)%nat -> sumC (seq 0 B) (fun l => Cconj (R l i) * R l j) = RtoC (if Nat.eqb i j then 1 else 0)).
  { intros a c Ha Hc. rewrite <- (Ho a c Ha Hc). symmetry. rewrite <- (gram_product (fun i l => tget (cqr w) (b ++ [i; l])) R M B a c) by (intros; apply HQ; assumption).
    apply sumC_ext. intros i Hi. apply in_seq in Hi. rewrite !HR by lia. reflexivity. }
  specialize (U HU). destruct (U j Hj) as (N & Z). exists (Cconj (R j j)). split.
  - assert (N2 : (Cmod (Cconj (R j j)) * Cmod (Cconj (R j j)) = 1)%R) by (rewrite <- Cnorm2_Cmod; rewrite <- N; destruct (R j j) as [x y]; unfold Cnorm2, Cconj; cbn [fst snd Re Im]; ring).
    pose proof (Cmod_ge_0 (Cconj (R j j))) as P. nra.
  - intros i Hi. rewrite HR by lia. rewrite (sumC_single (seq 0 B) j (fun l => tget (cqr w) (b ++ [i; l]) * R l j)); [|apply seq_NoDup|apply in_seq; lia|].
    + transitivity (tget (cqr w) (b ++ [i; j]) * (R j j * Cconj (R j j))); [rewrite Cconj_norm, N; ring|ring].
    + intros l Hl Hne. apply in_seq in Hl. rewrite (proj2 (U l ltac:(lia))) by (try lia; congruence). ring.
Qed.

Lemma sum_support (mask : tensor bool) (f : list nat -> C) : (forall i, inb i (tshape mask) -> tget mask i = false -> f i = RtoC 0) ->
  sumC (indices (tshape mask)) f = sumC (seq 0 (length (mask_positions mask))) (fun j => f (nth j (mask_positions mask) [])).
Proof.
  intros Hz. rewrite (sumC_seq_nth (mask_positions mask) [] f). unfold mask_positions. rewrite sumC_filter. apply sumC_ext. intros i Hi. destruct (tget mask i) eqn:E; [reflexivity|]. apply Hz; [apply in_indices, Hi|exact E].
Qed.
Definition pack (part : C -> R) (mask : tensor bool) (sp K B : nat) (c : tensor C) : tensor R :=
  mkT [sp; K; length (mask_positions mask); B] (fun i => part (tget c ([nth 0 i 0; nth 1 i 0; nth 3 i 0]%nat ++ nth (nth 2 i 0%nat) (mask_positions mask) []))).

Lemma reach_orbitals cqr mask sp K B c : complex_qr cqr -> qr_factors cqr -> basis_orbitals sp K B mask c -> (B <= length (mask_positions mask))%nat ->
  exists re im c', tshape re = [sp; K; length (mask_positions mask); B] /\ tshape im = [sp; K; length (mask_positions mask); B] /\
    pw_coeff cqr re im mask = Ok c' /\ same_up_to_phase sp K B (tshape mask) c c'.
Proof.
  intros Hq Hf (Sc & Oc & Zc) HB. set (g := length (mask_positions mask)) in *. exists (pack Re mask sp K B c), (pack Im mask sp K B c).
  unfold pw_coeff, unitary_matrix. destruct (tzip_same (fun a b : R => (a, b)) (pack Re mask sp K B c) (pack Im mask sp K B c) eq_refl) as (t & -> & St & Gt). cbn [rmap bind].
  change (tshape (pack Re mask sp K B c)) with ([sp; K] ++ [g; B]) in St, Gt.
  assert (Et : forall s k i b, (s < sp)%nat -> (k < K)%nat -> (i < g)%nat -> (b < B)%nat -> tget t ([s; k] ++ [i; b]) = tget c ([s; k; b] ++ nth i (mask_positions mask) [])).
  { intros s k i b Hs Hk Hi Hb. rewrite Gt by (repeat constructor; assumption). unfold pack. cbn [tget nth app]. symmetry. apply surjective_pairing. }
  assert (Ho : forall s k j l, (s < sp)%nat -> (k < K)%nat -> (j < B)%nat -> (l < B)%nat -> sumC (seq 0 g) (fun i => Cconj (tget t ([s; k] ++ [i; j])) * tget t ([s; k] ++ [i; l])) = RtoC (if Nat.eqb j l then 1 else 0)).
  { intros s k j l Hs Hk Hj Hl. rewrite <- (Oc [s; k] j l ltac:(repeat constructor; assumption) Hj Hl). unfold inner. rewrite sum_support.
    - fold g. apply sumC_ext. intros i Hi. apply in_seq in Hi. rewrite !Et by (assumption || lia). reflexivity.
    - intros i Hi E. change (([s; k] ++ [l]) ++ i) with ([s; k; l] ++ i). rewrite (Zc [s; k; l] i) by (try assumption; repeat constructor; assumption). ring. }
  destruct (Hq t [sp; K] g B St) as (SQ & _). rewrite Nat.min_r in SQ by exact HB. destruct (expand_spec (cqr t) mask [sp; K] g B SQ eq_refl) as (c' & -> & Sc' & Gc' & Zc').
  exists c'. split; [reflexivity|]. split; [reflexivity|]. split; [reflexivity|]. split; [rewrite Sc', Sc; reflexivity|]. intros s k b Hs Hk Hb.
  destruct (qr_of_orthonormal cqr t [sp; K] g B [s; k] Hq Hf St HB ltac:(repeat constructor; assumption) (fun j l => Ho s k j l Hs Hk) b Hb) as (u & Hu & Eu). exists u. split; [exact Hu|].
  intros i Hi. destruct (tget mask i) eqn:E.
  - destruct (In_nth (mask_positions mask) i [] (proj2 (mask_positions_in mask i) (conj Hi E))) as (j & Hj & <-). change ([s; k; b] ++ nth j (mask_positions mask) []) with ([s; k] ++ [b] ++ nth j (mask_positions mask) []) at 1.
    rewrite (Gc' [s; k] b j) by (try assumption; repeat constructor; assumption). rewrite Eu by exact Hj. rewrite Et by assumption. reflexivity.
  - change ([s; k; b] ++ i) with ([s; k] ++ [b] ++ i) at 1. rewrite (Zc' [s; k] b i) by (try assumption; repeat constructor; assumption). rewrite (Zc [s; k; b] i) by (try assumption; repeat constructor; assumption). ring.
Qed.

(** ** the energy does not see the phases *)
Lemma phase_function sp K B ns c c' : orthonormal_bands [sp; K] B ns c -> same_up_to_phase sp K B ns c c' ->
  exists U : nat -> nat -> nat -> C, forall s k b, (s < sp)%nat -> (k < K)%nat -> (b < B)%nat -> Cmod (U s k b) = 1%R /\ forall g, inb g ns -> tget c' ([s; k; b] ++ g) = U s k b * tget c ([s; k; b] ++ g).
Proof.
  intros Ho (_ & H). exists (fun s k b => sumC (indices ns) (fun g => Cconj (tget c ([s; k; b] ++ g)) * tget c' ([s; k; b] ++ g))). intros s k b Hs Hk Hb.
  destruct (H s k b Hs Hk Hb) as (u & Hu & E). assert (Eu : sumC (indices ns) (fun g => Cconj (tget c ([s; k; b] ++ g)) * tget c' ([s; k; b] ++ g)) = u).
  { transitivity (u * inner ns c ([s; k] ++ [b]) ([s; k] ++ [b])).
    - unfold inner. rewrite <- sumC_scal. apply sumC_ext. intros g Hg. rewrite E by (apply in_indices, Hg). change (([s; k] ++ [b]) ++ g) with ([s; k; b] ++ g). ring.
    - rewrite (Ho [s; k] b b) by (try assumption; repeat constructor; assumption). rewrite Nat.eqb_refl. ring. }
  rewrite Eu. split; assumption.
Qed.
Lemma phase_energy xcd c c' pos ch G kpts vol occ ks xt sp B n1 n2 n3 : let ns := [n1; n2; n3] in let K := length kpts in
  xc_local xcd ks xt -> tshape G = ns -> tshape c = [sp; K; B] ++ ns -> tshape occ = [sp; K; B] -> orthonormal_bands [sp; K] B ns c -> same_up_to_phase sp K B ns c c' ->
  total_energy_split xcd c' pos ch G kpts vol (Some occ) ks xt = total_energy_split xcd c pos ch G kpts vol (Some occ) ks xt.
Proof.
  intros ns K Hx SG Sc So Ho Hp. destruct (phase_function sp K B ns c c' Ho Hp) as (U & HU).
  apply (total_gauge xcd c c' pos ch G kpts vol occ ks xt sp B n1 n2 n3 (fun s k b b' => if Nat.eqb b b' then U s k b else RtoC 0)); fold ns K; try assumption.
  - rewrite (proj1 Hp). exact Sc.
  - intros s k b1 b2 Hs Hk H1 H2. rewrite (sumC_single (seq 0 B) b1 _ (seq_NoDup _ _)); [|apply in_seq; lia|].
    + rewrite Nat.eqb_refl. destruct (Nat.eqb_spec b1 b2) as [<-|_]; [|ring]. rewrite Cmult_comm, Cconj_norm, Cnorm2_Cmod, (proj1 (HU s k b1 Hs Hk H1)). f_equal. ring.
    + intros b _ Hne. destruct (Nat.eqb_spec b b1) as [E|_]; [congruence|]. rewrite Cconj_R. ring.
  - intros s k b b' _ _ _ _ H. destruct (Nat.eqb_spec b b') as [->|_]; [reflexivity|]. elim H. reflexivity.
  - intros s k b g Hs Hk Hb Hg. rewrite (sumC_single (seq 0 B) b _ (seq_NoDup _ _)); [|apply in_seq; lia|].
    + rewrite Nat.eqb_refl. apply HU; assumption.
    + intros b' _ Hne. destruct (Nat.eqb_spec b b') as [E|_]; [congruence|ring].
Qed.
