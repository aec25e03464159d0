(** Calculations with capped-simplex occupations (C153). *)
From Coq Require Import Reals Lra Lia Classical.
From Coquelicot Require Import Coquelicot.
From Coq Require Import Ascii String List Arith ZArith Bool.
From Verif Require Import Base Sums Tensor DFT GridModel PadModel Lin3 VecModel VecProofs OccModel OccSpec OccProofs PwModel PwSpec PwProofs BraketModel XcModel XcSpec EnergyModel HamModel HamSpec XcProofs XcProofs3 HamProofs3 DerProofs TotalProofs
  LocModel NlocModel CalcModel CalcSpec DrvModel DrvSpec DrvProofs2 DrvProofs3 DrvProofs4 DrvProofs5 DrvProofs6 CalcProofs3 BoundSpec BoundProofs2 ReachSpec ReachProofs2 ReachProofs3 GeomSpec IdemSpec IdemProofs IdemProofs2 AttSpec AttProofs AttProofs2 AttProofs3 AttProofs4 AttProofs5 NcAttSpec NcAttProofs NcAttProofs2
  KsSpec KsProofs4 KsLevels KsProofs5 NcKsSpec NcKsProofs NcKsProofs2 SimSpec SimProofs.
Import ListNotations.
Local Open Scope R_scope.

Section Described.
  Context (rnd : list nat -> tensor R) (rpw : list nat -> tensor R * tensor R) (pb : problem) (p0 : params) (qr : tensor R -> tensor R).
  Local Notation r := (pb_restricted pb). Local Notation K := (length (pb_k pb)). Local Notation B := (pb_bands pb).
  Hypothesis HK : (1 <= K)%nat.
  Hypothesis Hi : ae_init rnd rpw pb = Ok p0.
  Hypothesis Hm : pb_method pb = MSimplex.
  Hypothesis Hpar : (pb_electrons pb mod 2 = pb_spin pb mod 2)%Z.
  Hypothesis Hb : bands_hold (pb_method pb) (pb_electrons pb) (pb_spin pb) (pb_bands pb).

  Lemma sim_params o : described qr pb p0 o <-> exists up down occ, tshape up = [K; B] /\ tshape down = [K; B] /\ simplex_projector up down (pb_electrons pb) (pb_spin pb) r = Ok occ /\ teq occ o.
  Proof.
    pose proof Hi as Hi'. unfold ae_init in Hi'. cbv zeta in Hi'. rewrite Hm in Hi'. cbn [occ_param_init bind] in Hi'. injection Hi' as E0. split.
    - intros (p & o' & ((_ & _ & Hso) & _) & Eo & T). rewrite <- E0 in Hso. cbn [p_occ] in Hso. unfold get_occupation in Eo. rewrite Hm in Eo. destruct (p_occ p) as [u d|]; [|contradiction]. cbn [occupation] in Eo.
      exists u, d, o'. destruct Hso as [H1 H2]. split; [exact H1|]. split; [exact H2|]. split; [exact Eo|exact T].
    - intros (up & down & o' & H1 & H2 & E & T). exists (Params (p_re p0) (p_im p0) (PDict up down)), o'. split; [|split; [unfold get_occupation; rewrite Hm; exact E|exact T]].
      split; [|rewrite Hm; intros [?|?]; discriminate]. split; [reflexivity|]. split; [reflexivity|]. rewrite <- E0. cbn [p_occ]. split; assumption.
  Qed.
  Lemma sim_bounds : (0 < (pb_electrons pb - Z.abs (pb_spin pb)) / 2)%Z /\ ((pb_electrons pb + Z.abs (pb_spin pb)) / 2 < Z.of_nat B)%Z.
  Proof. pose proof Hb as H. rewrite Hm in H. exact H. Qed.
  Lemma sim_never p occ : reachable pb p0 p -> get_occupation qr pb p = Ok occ -> never_both K B (INR (3 - num_spin r) / INR K) occ.
  Proof.
    intros Hre Eo. destruct sim_bounds as (Hlo & Hhi). destruct (proj1 (sim_params occ)) as (up & down & o & Su & Sd & E & T); [exists p, occ; split; [exact Hre|split; [exact Eo|apply teq_refl']]|].
    destruct (projector_value _ _ K B HK Hlo Hhi up down r Su Sd) as (o2 & lu & ld & E2 & So & _). rewrite E in E2. injection E2 as <-.
    apply (never_both_ext K B _ _ o occ So T). apply (projector_never_both _ _ K B HK Hlo Hhi up down r o Su Sd E).
  Qed.
  Lemma sim_described o : (r = true -> pb_spin pb = 0%Z) -> described qr pb p0 o <-> capped r K B (pb_electrons pb) (pb_spin pb) o /\ never_both K B (INR (3 - num_spin r) / INR K) o.
  Proof. intros Hr. destruct sim_bounds as (Hlo & Hhi). rewrite sim_params. apply projector_iff; assumption. Qed.
  Lemma sim_limits o : (r = true -> pb_spin pb = 0%Z) -> limit_occupation [num_spin r; K; B] (described qr pb p0) o <-> capped r K B (pb_electrons pb) (pb_spin pb) o.
  Proof.
    intros Hr. destruct sim_bounds as (Hlo & Hhi). split.
    - intros HL. assert (HL' := HL). destruct HL' as (So & _).
      assert (D : forall o', described qr pb p0 o' -> capped r K B (pb_electrons pb) (pb_spin pb) o') by (intros o' Ho; apply (sim_described o' Hr), Ho).
      split; [exact So|]. split; [intros i Hi0; rewrite So in Hi0; apply (limit_entry _ _ o _ _ i HL Hi0); intros o' Ho S'; destruct (D o' Ho) as (_ & W & _); apply W; rewrite S'; exact Hi0|]. split.
      + unfold total. rewrite So. apply (limit_sum _ _ o (IZR (pb_electrons pb)) _ HL); [intros i Hi0; apply in_indices, Hi0|]. intros o' Ho S'. destruct (D o' Ho) as (_ & _ & T & _). unfold total in T. rewrite S' in T. exact T.
      + intros Er. assert (Cs : forall c (o1 : tensor R), tshape o1 = [2%nat; K; B] -> channel o1 c = sumR (map (cons c) (indices [K; B])) (tget o1)) by (intros c o1 S1; unfold channel; rewrite S1; cbn [tl]; symmetry; apply sumR_map).
        assert (Ch : forall c T, (c < 2)%nat -> (forall o', described qr pb p0 o' -> channel o' c = T) -> channel o c = T).
        { intros c T Hc H. rewrite Er in So. rewrite (Cs c o So). apply (limit_sum _ _ o T _ HL).
          - intros i Hi0. apply in_map_iff in Hi0. destruct Hi0 as (j & <- & Hj). apply in_indices in Hj. rewrite Er. constructor; [exact Hc|exact Hj].
          - intros o' Ho S'. rewrite Er in S'. rewrite <- (Cs c o' S'). apply H, Ho. }
        assert (V : forall o', described qr pb p0 o' -> channel o' 0 = (IZR (pb_electrons pb) + IZR (pb_spin pb)) / 2 /\ channel o' 1 = (IZR (pb_electrons pb) - IZR (pb_spin pb)) / 2).
        { intros o' Ho. destruct (D o' Ho) as (S' & _ & T & Ds). specialize (Ds Er). rewrite Er in S'. rewrite (total_channels o' 2 [K; B] S') in T. cbn [seq sumR] in T. lra. }
        rewrite (Ch 0%nat _ ltac:(lia) (fun o' Ho => proj1 (V o' Ho))), (Ch 1%nat _ ltac:(lia) (fun o' Ho => proj2 (V o' Ho))). lra.
    - intros Hc. split; [apply Hc|]. intros d Hd. destruct (capped_dense _ _ K B r o HK Hpar Hlo Hhi Hc d Hd) as (o' & H1 & H2 & H3). exists o'. split; [apply (sim_described o' Hr); split; assumption|]. split; [apply H1|exact H3].
  Qed.
End Described.

(** A lower bound of what a run can reach bounds the energies of the limits of its states. *)
Lemma below_gen (F : tensor C -> tensor R -> R) N qr cqr xcd pb p0 e : let sp := num_spin (pb_restricted pb) in let K := length (pb_k pb) in let B := pb_bands pb in let ns := tshape (pb_mask pb) in
  let csh := [sp; K; B] ++ ns in let osh := [sp; K; B] in
  (forall (St : (crd -> R) -> Prop) x, St x -> (forall y, St y -> forall i, inb i osh -> 0 <= tget (o_of osh y) i) -> cts (crds csh osh) St x (fun y => F (c_of csh y) (o_of osh y))) ->
  (forall p, reachable pb p0 p -> exists co occ, get_occupation qr pb p = Ok occ /\ electron_state sp K B (pb_mask pb) N co occ /\ objective qr cqr xcd pb p = Ok (F co occ)) ->
  (forall p co occ, reachable pb p0 p -> basis_orbitals sp K B (pb_mask pb) co -> get_occupation qr pb p = Ok occ -> exists p', reachable pb p0 p' /\ objective qr cqr xcd pb p' = Ok (F co occ)) ->
  (forall p, reachable pb p0 p -> exists e', objective qr cqr xcd pb p = Ok e' /\ e <= e') ->
  forall co occ, basis_orbitals sp K B (pb_mask pb) co -> limit_occupation osh (described qr pb p0) occ -> (forall i, inb i osh -> 0 <= tget occ i) -> e <= F co occ.
Proof.
  intros sp K B ns csh osh HF RS RD Min co occ Hco (So & HL) Po. apply le_epsilon. intros eps Heps.
  destruct (near_gen F sp K B ns co occ HF (proj1 Hco) So Po eps Heps) as (d & Hd & Near). destruct (HL d Hd) as (o & (p & o' & Hre & Eo & T) & Soo & Hno).
  destruct (RS p Hre) as (_ & o2 & Eo2 & (_ & So2 & Po2 & _) & _). rewrite Eo in Eo2. injection Eo2 as <-. destruct (RD p co o' Hre Hco Eo) as (p' & Hre' & Hob). destruct (Min p' Hre') as (e' & He' & Hle). rewrite Hob in He'. injection He' as <-.
  assert (Hab : Rabs (F co o' - F co occ) < eps) by (apply Near; [exact So2|exact Po2|]; intros i Hi; rewrite (proj2 T) by (rewrite So2; exact Hi); apply Hno, Hi). apply Rabs_def2 in Hab. lra.
Qed.

(** If no state is empty while another is full, filling from below leaves one level to the electrons or to the holes. *)
Lemma one_level matrix K B w c occ : filled_from_below matrix K B w c occ -> within 0 w occ -> tshape occ = [1%nat; K; B] -> never_both K B w occ -> w <> 0 ->
  exists M mu, matrix c = Ok M /\ ((forall k b, (k < K)%nat -> (b < B)%nat -> 0 < tget occ [0%nat; k; b] -> Re (tget M [0%nat; k; b; b]) = mu) \/ (forall k b, (k < K)%nat -> (b < B)%nat -> tget occ [0%nat; k; b] < w -> Re (tget M [0%nat; k; b; b]) = mu)).
Proof.
  intros (M & mu & HM & H) Hw So Hn Hw0. exists M, mu. split; [exact HM|].
  assert (Lo : forall k b, (k < K)%nat -> (b < B)%nat -> tget occ [0%nat; k; b] < w -> mu <= Re (tget M [0%nat; k; b; b])) by (intros k b Hk Hb Ho; destruct (Rle_dec mu (Re (tget M [0%nat; k; b; b]))) as [L|L]; [exact L|]; pose proof (proj1 (H k b Hk Hb) ltac:(lra)); lra).
  assert (Hi : forall k b, (k < K)%nat -> (b < B)%nat -> 0 < tget occ [0%nat; k; b] -> Re (tget M [0%nat; k; b; b]) <= mu) by (intros k b Hk Hb Ho; destruct (Rle_dec (Re (tget M [0%nat; k; b; b])) mu) as [L|L]; [exact L|]; pose proof (proj2 (H k b Hk Hb) ltac:(lra)); lra).
  assert (Wt : forall k b, (k < K)%nat -> (b < B)%nat -> 0 <= tget occ [0%nat; k; b] <= w) by (intros k b Hk Hb; apply Hw; rewrite So; repeat constructor; lia).
  destruct (classic (exists k b, (k < K)%nat /\ (b < B)%nat /\ tget occ [0%nat; k; b] = 0)) as [(k0 & b0 & Hk0 & Hb0 & E0)|Hz].
  - left. intros k b Hk Hb Ho. apply Rle_antisym; [apply Hi; assumption|]. apply Lo; try assumption. assert (tget occ [0%nat; k; b] <> w) by (apply (Hn 0%nat k0 b0 k b); try assumption; rewrite So; cbn; lia). destruct (Wt k b Hk Hb). lra.
  - right. intros k b Hk Hb Ho. apply Rle_antisym; [|apply Lo; assumption]. apply Hi; try assumption. destruct (Wt k b Hk Hb) as (W1 & _). destruct (Req_dec (tget occ [0%nat; k; b]) 0) as [E|E]; [exfalso; apply Hz; exists k, b; repeat split; assumption|lra].
Qed.
