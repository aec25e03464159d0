(** Capped-simplex calculations at a temperature (C156). *)
From Coq Require Import Reals Lra Lia FunctionalExtensionality.
From Coquelicot Require Import Coquelicot.
From Coq Require Import Ascii String List Arith ZArith Bool.
From Verif Require Import Base Sums Tensor DFT GridModel GridProofs PadModel PadProofs Lin3 VecModel VecProofs OccModel OccSpec OccProofs PwModel PwSpec PwProofs BraketModel XcModel XcSpec XcProofs XcProofs3 GgaProofs2 EnergyModel EnergySpec EnergyProofs ExtProofs TotalProofs SpinProofs HamModel HamSpec HamProofs3 DerProofs
  LocModel NlocModel CalcModel CalcSpec DrvModel DrvSpec DrvProofs DrvProofs2 DrvProofs3 DrvProofs4 DrvProofs5 DrvProofs6 CalcProofs3 BoundSpec BoundProofs BoundProofs2 ReachSpec ReachProofs ReachProofs2 ReachProofs3 GeomSpec IdemSpec IdemProofs IdemProofs2 AttSpec AttProofs AttProofs2 AttProofs3 AttProofs4 AttProofs5 NcAttSpec NcAttProofs NcAttProofs2
  KsSpec KsProofs4 KsLevels KsProofs5 NcKsSpec NcKsProofs NcKsProofs2 SimSpec SimProofs SimProofs2 SimProofs3 TempSpec TempProofs TempProofs2 TempProofs3 SmearSpec SmearProofs SmearProofs2.
Import ListNotations.
Local Open Scope R_scope.

Section Run.
  Variables (qr : tensor R -> tensor R) (cqr : tensor C -> tensor C) (xcd : xcdens) (pb : problem) (p0 : params) (F : tensor C -> tensor R -> R) (N : R).
  Local Notation sp := (num_spin (pb_restricted pb)). Local Notation K := (length (pb_k pb)). Local Notation B := (pb_bands pb). Local Notation ns := (tshape (pb_mask pb)).
  Local Notation osh := [sp; K; B]. Local Notation csh := ([sp; K; B] ++ ns). Local Notation w := ((3 - INR sp) / INR K).
  Hypothesis HF : forall (St : (crd -> R) -> Prop) x, St x -> (forall y, St y -> forall i, inb i osh -> 0 <= tget (o_of osh y) i) -> cts (crds csh osh) St x (fun y => F (c_of csh y) (o_of osh y)).
  Hypothesis H0 : reachable pb p0 p0.
  Hypothesis RS : forall p, reachable pb p0 p -> exists co occ, get_occupation qr pb p = Ok occ /\ electron_state sp K B (pb_mask pb) N co occ /\ objective qr cqr xcd pb p = Ok (F co occ).
  Hypothesis RD : forall p co occ, reachable pb p0 p -> basis_orbitals sp K B (pb_mask pb) co -> get_occupation qr pb p = Ok occ -> exists p', reachable pb p0 p' /\ get_occupation qr pb p' = Ok occ /\ objective qr cqr xcd pb p' = Ok (F co occ).
  Hypothesis RW : forall p occ, reachable pb p0 p -> get_occupation qr pb p = Ok occ -> within 0 w occ.
  Hypothesis He : 0 < pb_eps pb.

  (** A state in the closure of what is reached has the lowest free energy of that closure. *)
  Lemma limit_free T : exists co occ, let Ft := fun co occ => F co occ - T * soft_entropy osh (pb_eps pb) w occ in
    basis_orbitals sp K B (pb_mask pb) co /\ limit_occupation osh (described qr pb p0) occ /\ free_bound qr cqr xcd pb p0 T (Ft co occ) /\
    (described qr pb p0 occ -> exists p, lowest_free qr cqr xcd pb p0 T p) /\
    forall co' occ', basis_orbitals sp K B (pb_mask pb) co' -> limit_occupation osh (described qr pb p0) occ' -> (forall i, inb i osh -> 0 <= tget occ' i) -> Ft co occ <= Ft co' occ'.
  Proof.
    set (Ft := fun co occ => F co occ - T * soft_entropy osh (pb_eps pb) w occ).
    set (obj := fun p => do x <- free_energy_of qr cqr xcd pb T p; Ok (fst x)).
    assert (OI : forall p f, obj p = Ok f <-> exists e h, free_energy_of qr cqr xcd pb T p = Ok (f, (e, h))).
    { intros p f. unfold obj. destruct (free_energy_of qr cqr xcd pb T p) as [[f' [e h]]|]; cbn [bind fst]; split.
      - intros E. injection E as <-. exists e, h. reflexivity.
      - intros (e' & h' & E). injection E as <- _ _. reflexivity.
      - discriminate.
      - intros (e' & h' & E). discriminate. }
    assert (Cf : forall (St : (crd -> R) -> Prop) x, St x -> (forall y, St y -> forall i, inb i osh -> 0 <= tget (o_of osh y) i) -> cts (crds csh osh) St x (fun y => Ft (c_of csh y) (o_of osh y))).
    { intros St x Sx Po. unfold Ft. apply cts_minus; [apply HF; assumption|]. apply cts_mult; [apply cts_const|apply cts_soft, He]. }
    assert (Rs : forall p, reachable pb p0 p -> exists co occ, get_occupation qr pb p = Ok occ /\ electron_state sp K B (pb_mask pb) N co occ /\ obj p = Ok (Ft co occ)).
    { intros p Hre. destruct (RS p Hre) as (co & occ & Eo & Es & Hob). exists co, occ. split; [exact Eo|]. split; [exact Es|]. destruct (free_value qr cqr xcd pb p0 RW p occ _ Hre Eo (proj1 (proj2 Es)) Hob T) as (h & Ef & Eh).
      apply OI. exists (F co occ), h. rewrite Ef. unfold Ft. rewrite <- Eh. reflexivity. }
    assert (Rd : forall p co occ, reachable pb p0 p -> basis_orbitals sp K B (pb_mask pb) co -> get_occupation qr pb p = Ok occ -> exists p', reachable pb p0 p' /\ obj p' = Ok (Ft co occ)).
    { intros p co occ Hre Hbo Eo. destruct (RS p Hre) as (_ & o2 & Eo2 & (_ & So & _) & _). rewrite Eo in Eo2. injection Eo2 as <-. destruct (RD p co occ Hre Hbo Eo) as (p' & Hre' & Eo' & Hob). exists p'. split; [exact Hre'|].
      destruct (free_value qr cqr xcd pb p0 RW p' occ _ Hre' Eo' So Hob T) as (h & Ef & Eh). apply OI. exists (F co occ), h. rewrite Ef. unfold Ft. rewrite <- Eh. reflexivity. }
    destruct (infimum_obj obj Ft N qr pb p0 Cf H0 Rs Rd) as (co & occ & H1 & H2 & H3 & H4 & H5).
    assert (FB : free_bound qr cqr xcd pb p0 T (Ft co occ)).
    { split.
      - intros p Hre. destruct (H3 p Hre) as (f & Ef & Hm). apply OI in Ef. destruct Ef as (e & h & Ef). exists f, e, h. auto.
      - intros d Hd. destruct (H4 d Hd) as (p & f & Hre & Ef & Hm). apply OI in Ef. destruct Ef as (e & h & Ef). exists p, f, e, h. auto. }
    exists co, occ. split; [apply H1|]. split; [exact H2|]. split; [exact FB|]. split.
    - intros D. destruct (H5 D) as (p & Hre & Ef). apply OI in Ef. destruct Ef as (e & h & Ef). exists p. exact (bound_lowest _ _ _ _ _ _ _ p e h FB Hre Ef).
    - intros co' occ' Hco (So & HL) Po. apply le_epsilon. intros eps Heps.
      destruct (near_gen Ft sp K B ns co' occ' Cf (proj1 Hco) So Po eps Heps) as (d & Hd & Near). destruct (HL d Hd) as (o & (p & o' & Hre & Eo & Te) & Soo & Hno).
      destruct (Rs p Hre) as (_ & o2 & Eo2 & (_ & So2 & Po2 & _) & _). rewrite Eo in Eo2. injection Eo2 as <-. destruct (Rd p co' o' Hre Hco Eo) as (p' & Hre' & Hob). destruct (H3 p' Hre') as (e' & He' & Hle). rewrite Hob in He'. injection He' as <-.
      assert (Hab : Rabs (Ft co' o' - Ft co' occ') < eps) by (apply Near; [exact So2|exact Po2|]; intros i Hi; rewrite (proj2 Te) by (rewrite So2; exact Hi); apply Hno, Hi). apply Rabs_def2 in Hab. lra.
  Qed.
End Run.
