(** States of lowest energy: Kohn-Sham orbitals, filled from below (C151). *)
From Coq Require Import Reals Lra Lia FunctionalExtensionality.
From Coquelicot Require Import Coquelicot.
From Coq Require Import Ascii String List Arith ZArith Bool.
From Verif Require Import Base Sums Tensor DFT GridModel PadModel Lin3 VecModel VecProofs OccModel OccSpec PwModel PwSpec PwProofs BraketModel XcModel XcSpec EnergyModel HamModel HamSpec XcProofs XcProofs3 HamProofs3 DerProofs ReachSpec KsSpec KsProofs KsProofs2 KsProofs3.
Import ListNotations.
Local Open Scope R_scope.

Lemma lowest_orbitals lib vg xt A c pos ch G kpts vol occ d B n1 n2 n3 mask e0 : let ns := [n1; n2; n3] in let K := length kpts in let ts := split_on "+" xt in let xcd := xc_density lib vg in
  contains "gga" xt = false -> (forall t b, In t ts -> lib t b <> None) -> m3det A <> 0 -> 0 < vol -> g_vectors A ns = Ok G -> length ch = length pos ->
  tshape mask = ns -> basis_orbitals 1 K B mask c -> tshape occ = [1%nat; K; B] -> density_grid c vol (Some occ) = Ok d ->
  (forall x, inb x ns -> ex_derive (local_particle lib ts) (tget d (0%nat :: x))) ->
  total_energy xcd c pos ch G kpts vol (Some occ) false xt = Ok e0 ->
  (forall c', basis_orbitals 1 K B mask c' -> exists e', total_energy xcd c' pos ch G kpts vol (Some occ) false xt = Ok e' /\ e0 <= e') ->
  kohn_sham_orbitals (fun x => hamiltonian_matrix xcd x pos ch d G kpts vol xt true) ns K B mask c occ.
Proof.
  intros ns K ts xcd Hg Hl HA Hv HG Hp Sm Hc So Hd Hex He Hm.
  destruct (potential_exists lib vg xt A c pos ch G kpts vol occ d B n1 n2 n3 mask Hg Hl HA Hv HG Hp Sm Hc So Hd Hex) as (v & Ev & Sv).
  exact (lowest_orbitals_in lib vg xt A c pos ch G kpts vol occ d B n1 n2 n3 mask e0 Hg Hl HA Hv HG Hp Sm Hc So Hd Hex v Ev Sv He Hm).
Qed.

(** Occupied levels below, levels with room above: a bound in between. *)
Lemma separate {T} (l : list T) (lev : T -> R) (P Q : T -> Prop) : (forall x, {P x} + {~ P x}) -> (forall x y, In x l -> In y l -> P x -> Q y -> lev x <= lev y) ->
  exists mu, forall x, In x l -> (P x -> lev x <= mu) /\ (Q x -> mu <= lev x).
Proof.
  intros Pd H.
  assert (U : exists mu, (forall x, In x l -> P x -> lev x <= mu) /\ (forall y, In y l -> Q y -> mu <= lev y)).
  2: { destruct U as (mu & H1 & H2). exists mu. intros x Hx. split; [apply H1, Hx|apply H2, Hx]. }
  assert (LB : exists m, forall y, In y l -> m <= lev y).
  { clear. induction l as [|a l (m & Hm)]; [exists 0; intros y []|]. exists (Rmin (lev a) m). intros y [<-|Hy]; [apply Rmin_l|eapply Rle_trans; [apply Rmin_r|apply Hm, Hy]]. }
  assert (MX : (forall x, In x l -> ~ P x) \/ exists x, In x l /\ P x /\ forall y, In y l -> P y -> lev y <= lev x).
  { clear -Pd. induction l as [|a l IH]; [left; intros x []|]. destruct (Pd a) as [Pa|Pa].
    - destruct IH as [IH|(x & Hx & Px & Mx)].
      + right. exists a. split; [left; reflexivity|]. split; [exact Pa|]. intros y [<-|Hy] Py; [lra|]. exfalso. exact (IH y Hy Py).
      + right. destruct (Rle_or_lt (lev a) (lev x)) as [L|L].
        * exists x. split; [right; exact Hx|]. split; [exact Px|]. intros y [<-|Hy] Py; [exact L|apply Mx; assumption].
        * exists a. split; [left; reflexivity|]. split; [exact Pa|]. intros y [<-|Hy] Py; [lra|]. specialize (Mx y Hy Py). lra.
    - destruct IH as [IH|(x & Hx & Px & Mx)].
      + left. intros x [<-|Hx]; [exact Pa|apply IH, Hx].
      + right. exists x. split; [right; exact Hx|]. split; [exact Px|]. intros y [<-|Hy] Py; [contradiction|apply Mx; assumption]. }
  destruct MX as [N|(x & Hx & Px & Mx)].
  - destruct LB as (m & Hm). exists m. split; [intros x Hx Px; exfalso; exact (N x Hx Px)|intros y Hy _; apply Hm, Hy].
  - exists (lev x). split; [exact Mx|]. intros y Hy Qy. apply (H x y Hx Hy Px Qy).
Qed.

Lemma total_shift occ o K B t : tshape occ = [1%nat; K; B] -> sumR (indices [1%nat; K; B]) (tget o) = 0 -> total (mkT (tshape occ) (fun i => tget occ i + t * tget o i)) = total occ.
Proof. intros So Z. unfold total. cbn [tshape tget]. rewrite So, sumR_plus, sumR_scal, Z. ring. Qed.

Section Filling.
Context (lib : xclib) (vg : list string -> tensor R -> tensor R -> tensor v3 -> res (tensor C)) (xt : string) (A : m3) (c : tensor C) (pos : list v3) (ch : list R) (G : tensor v3) (kpts : list v3) (vol : R) (occ d : tensor R) (B n1 n2 n3 : nat) (w e0 : R).
Let ns := [n1; n2; n3].
Let K := length kpts.
Let ts := split_on "+" xt.
Let xcd := xc_density lib vg.
Context (Hg : contains "gga" xt = false) (Hl : forall t b, In t ts -> lib t b <> None) (HA : m3det A <> 0) (Hv : 0 < vol) (HG : g_vectors A ns = Ok G) (Hp : length ch = length pos)
  (Sc : tshape c = [1%nat; K; B] ++ ns) (So : tshape occ = [1%nat; K; B]) (Hd : density_grid c vol (Some occ) = Ok d)
  (Hex : forall x, inb x ns -> ex_derive (local_particle lib ts) (tget d (0%nat :: x))) (Hw : within 0 w occ)
  (He0 : total_energy xcd c pos ch G kpts vol (Some occ) false xt = Ok e0)
  (Hmin : forall occ', tshape occ' = [1%nat; K; B] -> within 0 w occ' -> total occ' = total occ -> exists e', total_energy xcd c pos ch G kpts vol (Some occ') false xt = Ok e' /\ e0 <= e').

Definition one_at (k b : nat) (i : list nat) : R := if list_eq_dec Nat.eq_dec i [0%nat; k; b] then 1 else 0.
Lemma one_at_sum k b : (k < K)%nat -> (b < B)%nat -> sumR (indices [1%nat; K; B]) (one_at k b) = 1.
Proof.
  intros Hk Hb. rewrite (sumR_single _ [0%nat; k; b]); [unfold one_at; destruct (list_eq_dec _ _ _); [reflexivity|congruence]|apply NoDup_indices|apply in_indices; repeat constructor; lia|].
  intros i _ Hi. unfold one_at. destruct (list_eq_dec _ _ _); [congruence|reflexivity].
Qed.
Lemma one_at_pick k b (f : nat -> nat -> R) : (k < K)%nat -> (b < B)%nat -> sumR (seq 0 K) (fun k' => sumR (seq 0 B) (fun b' => one_at k b [0%nat; k'; b'] * f k' b')) = f k b.
Proof.
  intros Hk Hb. rewrite (sumR_single (seq 0 K) k); [|apply seq_NoDup|apply in_seq; lia|].
  - rewrite (sumR_single (seq 0 B) b); [|apply seq_NoDup|apply in_seq; lia|].
    + unfold one_at. destruct (list_eq_dec _ _ _); [ring|congruence].
    + intros b' _ N. unfold one_at. destruct (list_eq_dec _ _ _) as [E|]; [injection E as E; congruence|ring].
  - intros k' _ N. apply sumR_zero. intros b' _. unfold one_at. destruct (list_eq_dec _ _ _) as [E|]; [injection E as E1 E2; congruence|ring].
Qed.

Lemma move_levels M : hamiltonian_matrix xcd c pos ch d G kpts vol xt true = Ok M ->
  forall k b k' b', (k < K)%nat -> (b < B)%nat -> (k' < K)%nat -> (b' < B)%nat -> 0 < tget occ [0%nat; k; b] -> tget occ [0%nat; k'; b'] < w ->
  Re (tget M [0%nat; k; b; b]) <= Re (tget M [0%nat; k'; b'; b']).
Proof.
  intros HM k b k' b' Hk Hb Hk' Hb' Po Lo.
  destruct (list_eq_dec Nat.eq_dec [0%nat; k; b] [0%nat; k'; b']) as [E|Ne]; [injection E as -> ->; lra|].
  set (o := mkT [1%nat; K; B] (fun i => one_at k' b' i - one_at k b i)).
  destruct (occupation_derivative lib vg xt A c pos ch G kpts vol occ o d B n1 n2 n3 Hg Hl HA Hv HG Hp Sc So Hd Hex) as (M' & E & HM' & HE & DE).
  unfold xcd in HM. rewrite HM in HM'. injection HM' as <-. fold K in DE.
  assert (V : sumR (seq 0 K) (fun k0 => sumR (seq 0 B) (fun b0 => tget o [0%nat; k0; b0] * Re (tget M [0%nat; k0; b0; b0]))) = Re (tget M [0%nat; k'; b'; b']) - Re (tget M [0%nat; k; b; b])).
  { rewrite <- (one_at_pick k' b' (fun k0 b0 => Re (tget M [0%nat; k0; b0; b0])) Hk' Hb'), <- (one_at_pick k b (fun k0 b0 => Re (tget M [0%nat; k0; b0; b0])) Hk Hb).
    unfold Rminus. rewrite <- sumR_opp, <- sumR_plus. apply sumR_ext. intros k0 _. rewrite <- sumR_opp, <- sumR_plus. apply sumR_ext. intros b0 _. unfold o. cbn [tget]. ring. }
  rewrite V in DE.
  set (h := Rmin (tget occ [0%nat; k; b]) (w - tget occ [0%nat; k'; b'])). assert (Hh : 0 < h) by (unfold h; apply Rmin_glb_lt; lra).
  enough (0 <= Re (tget M [0%nat; k'; b'; b']) - Re (tget M [0%nat; k; b; b])) by lra.
  apply (slope_right E _ h DE Hh). intros t (Ht0 & Ht1).
  assert (T1 : h <= tget occ [0%nat; k; b]) by apply Rmin_l. assert (T2 : h <= w - tget occ [0%nat; k'; b']) by apply Rmin_r.
  assert (Z : E 0 = e0).
  { pose proof (HE 0) as H0. replace (mkT (tshape occ) (fun i => tget occ i + 0 * tget o i)) with occ in H0.
    - unfold xcd in He0. rewrite He0 in H0. injection H0 as <-. reflexivity.
    - destruct occ as [s f]. cbn [tshape tget]. f_equal. apply functional_extensionality. intros i. ring. }
  assert (Ne' : forall i, one_at k b i = 1 -> one_at k' b' i = 1 -> False).
  { intros i. unfold one_at. destruct (list_eq_dec _ i [0%nat; k; b]); destruct (list_eq_dec _ i [0%nat; k'; b']); intros; try lra. congruence. }
  destruct (Hmin (mkT (tshape occ) (fun i => tget occ i + t * tget o i))) as (e' & He' & Hle).
  - exact So.
  - intros i Hi. cbn [tshape tget] in *. pose proof (Hw i Hi) as Wi. unfold o. cbn [tget]. unfold one_at.
    destruct (list_eq_dec _ i [0%nat; k; b]) as [E1|E1]; destruct (list_eq_dec _ i [0%nat; k'; b']) as [E2|E2].
    + exfalso. congruence.
    + rewrite E1 in *. lra.
    + rewrite E2 in *. lra.
    + lra.
  - apply (total_shift occ o K B t So). unfold o. cbn [tget]. unfold Rminus. rewrite sumR_plus, sumR_opp, !one_at_sum by assumption. ring.
  - unfold xcd in He'. rewrite HE in He'. injection He' as ->. rewrite Z. exact Hle.
Qed.

Lemma lowest_filling : filled_from_below (fun x => hamiltonian_matrix xcd x pos ch d G kpts vol xt true) K B w c occ.
Proof.
  destruct (occupation_derivative lib vg xt A c pos ch G kpts vol occ occ d B n1 n2 n3 Hg Hl HA Hv HG Hp Sc So Hd Hex) as (M & _ & HM & _).
  pose proof (move_levels M HM) as HL.
  destruct (separate (list_prod (seq 0 K) (seq 0 B)) (fun p => Re (tget M [0%nat; fst p; snd p; snd p])) (fun p => 0 < tget occ [0%nat; fst p; snd p]) (fun p => tget occ [0%nat; fst p; snd p] < w)) as (mu & Hmu).
  - intros x. apply Rlt_dec.
  - intros [k b] [k' b'] H1 H2 P Q. apply in_prod_iff in H1, H2. destruct H1 as [H1 H3], H2 as [H2 H4]. apply in_seq in H1, H2, H3, H4. cbn [fst snd] in *. apply HL; try assumption; lia.
  - exists M, mu. split; [exact HM|]. intros k b Hk Hb. destruct (Hmu (k, b)) as (H1 & H2); [apply in_prod_iff; split; apply in_seq; lia|]. cbn [fst snd] in *.
    assert (W : 0 <= tget occ [0%nat; k; b] <= w) by (apply Hw; rewrite So; repeat constructor; lia). split; intros L.
    + destruct (Req_dec (tget occ [0%nat; k; b]) w) as [|N]; [assumption|]. assert (mu <= Re (tget M [0%nat; k; b; b])) by (apply H2; lra). lra.
    + destruct (Req_dec (tget occ [0%nat; k; b]) 0) as [|N]; [assumption|]. assert (Re (tget M [0%nat; k; b; b]) <= mu) by (apply H1; lra). lra.
Qed.
End Filling.
