(** Proofs about the Hamiltonian trace and matrix. *)
From Coq Require Import Reals Lra Lia.
From Coquelicot Require Import Complex.
From Coq Require Import Ascii String List Arith ZArith Bool.
From Verif Require Import Base Sums Tensor DFT GridModel PadModel Lin3 VecModel PwModel BraketModel XcModel EnergyModel HamModel HamSpec.
From Verif Require Import BraketSpec PadProofs PwProofs BraketProofs HamProofs.
Import ListNotations.
Local Open Scope R_scope.

Lemma expectation_rect bra ham vol mode sp K hk B n1 n2 n3 : let ns := [n1; n2; n3] in
  mode <> OtherMode -> tshape bra = [sp; K; B] ++ ns -> tshape ham = hk :: ns -> (K = 1 \/ hk = 1 \/ hk = K)%nat ->
  exists D, expectation bra ham vol None true mode = Ok D /\ tshape D = [sp; if (K =? 1)%nat then hk else K; B] /\
    forall s k i, (s < sp)%nat -> (k < if (K =? 1)%nat then hk else K)%nat -> (i < B)%nat ->
      tget D [s; k; i] = (RtoC (efactor mode vol (INR (nprod ns))) *
        sumC (indices ns) (fun g => Cconj (tget bra ([s; if (K =? 1)%nat then 0%nat else k; i] ++ g)) * tget ham ((if (hk =? 1)%nat then 0%nat else k) :: g)
           * tget bra ([s; if (K =? 1)%nat then 0%nat else k; i] ++ g)))%C.
Proof.
  intros ns Hmode Hb Hh HK. unfold expectation.
  assert (Nb : (ndim bra =? 6)%nat = true) by (unfold ndim; rewrite Hb; reflexivity). rewrite Nb. cbn [negb].
  assert (Nh : (ndim ham =? 3)%nat = false /\ (ndim ham =? 4)%nat = true) by (unfold ndim; rewrite Hh; split; reflexivity).
  destruct Nh as [-> ->]. cbn [negb orb]. rewrite (grid3_app bra [sp; K; B] ns eq_refl Hb).
  assert (Ef : forall X (f : R -> res X), (do factor <- match mode with | RealMode => Ok (vol / INR (nprod ns))%R | ReciprocalMode => Ok (vol / INR (nprod ns) * (1 / INR (nprod ns)))%R | KineticMode => Ok 1%R | OtherMode => Err ValueErr end; f factor)
    = f (efactor mode vol (INR (nprod ns)))) by (intros; destruct mode; try reflexivity; contradiction).
  rewrite Ef. clear Ef. rewrite Hb, Hh. cbn [app ns]. rewrite bshape5_refl.
  assert (Eb : bshape [sp; K; n1; n2; n3] [1%nat; hk; n1; n2; n3] = Some [sp; if (K =? 1)%nat then hk else K; n1; n2; n3]).
  { change (option_map (@rev nat) (bshape_rev [n3; n2; n1; K; sp] [n3; n2; n1; hk; 1%nat]) = Some [sp; if (K =? 1)%nat then hk else K; n1; n2; n3]).
    rewrite (bshape_rev_same n3 _ [n2; n1; hk; 1%nat] [n2; n1; if (K =? 1)%nat then hk else K; sp]); [reflexivity|].
    apply bshape_rev_same, bshape_rev_same. cbn [bshape_rev]. 
    destruct (Nat.eqb_spec K hk) as [E|E]; [rewrite E; destruct (hk =? 1)%nat; destruct (Nat.eqb_spec sp 1); subst; reflexivity|].
    destruct (Nat.eqb_spec K 1) as [E1|E1]; [destruct (Nat.eqb_spec sp 1); subst; reflexivity|].
    destruct HK as [->|[->|E2]]; try congruence. cbn. destruct (Nat.eqb_spec sp 1); subst; reflexivity. }
  rewrite Eb, bshape_refl. eexists. split; [reflexivity|]. split; [reflexivity|]. intros s k i Hs Hk Hi. cbn [tget nth]. fold ns. f_equal.
  apply sumC_ext. intros g Hg. apply in_indices in Hg.
  assert (E1 : clip1 (sp :: K :: B :: ns) ([s; k; i] ++ g) = [s; if (K =? 1)%nat then 0%nat else k; i] ++ g).
  { cbn [app]. pose proof (clip1_inb ns g Hg) as Ec.
    assert (Es : (if (sp =? 1)%nat then 0 else s)%nat = s) by (destruct (Nat.eqb_spec sp 1); lia).
    assert (Ei : (if (B =? 1)%nat then 0 else i)%nat = i) by (destruct (Nat.eqb_spec B 1); lia).
    cbn [clip1]. rewrite Ec, Es, Ei. reflexivity. }
  assert (E2 : clip1 (hk :: ns) (k :: g) = (if (hk =? 1)%nat then 0%nat else k) :: g).
  { cbn [clip1]. rewrite (clip1_inb ns g Hg). reflexivity. }
  cbn [app] in E1. cbn [app]. rewrite E1, E2. reflexivity.
Qed.

Lemma expectation_bad bra ham vol sp K hk B n1 n2 n3 : let ns := [n1; n2; n3] in
  tshape bra = [sp; K; B] ++ ns -> tshape ham = hk :: ns -> (K <> 1 /\ hk <> 1 /\ hk <> K)%nat ->
  expectation bra ham vol None true RealMode = Err ValueErr.
Proof.
  intros ns Hb Hh (H1 & H2 & H3). unfold expectation, ndim. rewrite Hb, Hh. cbn [app ns length Nat.eqb negb orb bind]. rewrite Hh. unfold ns. rewrite bshape5_refl.
  replace (bshape [sp; K; n1; n2; n3] [1%nat; hk; n1; n2; n3]) with (@None (list nat)); [reflexivity|]. symmetry.
  change (option_map (@rev nat) (bshape_rev [n3; n2; n1; K; sp] [n3; n2; n1; hk; 1%nat]) = None).
  cbn [bshape_rev]. rewrite !Nat.eqb_refl.
  rewrite (proj2 (Nat.eqb_neq K hk)) by congruence. rewrite (proj2 (Nat.eqb_neq K 1)), (proj2 (Nat.eqb_neq hk 1)) by assumption.
  repeat (destruct (_ =? _)%nat; try reflexivity).
Qed.

Lemma re_quad z v : Re (Cconj z * v * z)%C = (Re v * Cnorm2 z)%R.
Proof. destruct z, v. unfold Re, Cnorm2, Cmult, Cconj. cbn. ring. Qed.
Lemma re_pot ns vol (V : list nat -> C) w b : 
  Re (RtoC (vol / INR (nprod ns)) * sumC (indices ns) (fun x => Cconj (tget w (b ++ x)) * V x * tget w (b ++ x)))%C
  = Re (potential_element ns vol (fun x => Re (V x)) w b b).
Proof.
  unfold potential_element. rewrite !Re_mult_R, !Re_sumC. f_equal. apply sumR_ext. intros x _. rewrite !re_quad. reflexivity.
Qed.

Section Trace.
  Context (xcd : xcdens) (c : tensor C) (pos : list v3) (ch : list R) (dens : tensor R) (G : tensor v3) (kpts : list v3)
    (vol : R) (xt : string) (ks : bool) (sp B hk n1 n2 n3 : nat) (v w : tensor C).
  Let ns := [n1; n2; n3].
  Let K := length kpts.
  Context (Hc : tshape c = [sp; K; B] ++ ns) (HG : tshape G = ns) (Hv : effective_sum xcd dens pos ch G vol xt ks = Ok v)
    (Sv : tshape v = hk :: ns) (Hw : wave_grid c vol = Ok w).

  Definition chan (h : nat) (x : list nat) : R := Re (tget v (h :: x)).
  Definition hsum (s k : nat) (V : list nat -> R) : R :=
    sumR (seq 0 B) (fun b => Re (h_element ns vol V w c G (nth k kpts vzero) [s; k; b] [s; k; b])).

  Lemma Sw : tshape w = [sp; K; B] ++ ns.
  Proof. destruct (wave_grid_eq c vol [sp; K; B] ns eq_refl Hc) as (w' & E & S' & _). rewrite Hw in E. injection E as ->. exact S'. Qed.

  Lemma trace_value keep : (K = 1 \/ hk = 1 \/ hk = K)%nat ->
    let val s := if (K =? 1)%nat then sumR (seq 0 hk) (fun h => hsum s 0 (chan h))
                 else sumR (seq 0 K) (fun k => hsum s k (chan (if (hk =? 1)%nat then 0%nat else k))) in
    exists t, hamiltonian_matrix_trace xcd c pos ch dens G kpts vol xt ks keep = Ok t /\
      tshape t = (if keep then [sp] else []) /\
      (keep = true -> forall s, (s < sp)%nat -> tget t [s] = val s) /\ (keep = false -> tget t [] = sumR (seq 0 sp) val).
  Proof.
    intros HK val. unfold hamiltonian_matrix_trace. rewrite Hv. cbn [bind]. rewrite Hw. cbn [bind].
    destruct (expectation_rect w v vol RealMode sp K hk B n1 n2 n3 ltac:(discriminate) Sw Sv HK) as (fe & -> & Se & Ge). cbn [bind].
    assert (SK : tshape (tmap RtoC (kinetic_operator G (Some kpts))) = K :: ns) by (cbn; rewrite HG; reflexivity).
    destruct (expectation_rect c _ vol KineticMode sp K K B n1 n2 n3 ltac:(discriminate) Hc SK (or_intror (or_intror eq_refl))) as (fk & -> & Sk & Gk). cbn [bind].
    fold ns in Ge, Gk.
    set (M := if (K =? 1)%nat then hk else K) in *.
    assert (EK : (if (K =? 1)%nat then K else K) = K) by (destruct (K =? 1)%nat; reflexivity). rewrite EK in Sk, Gk.
    assert (Eb : bshape [sp; M; B] [sp; K; B] = Some [sp; M; B]).
    { change (option_map (@rev nat) (bshape_rev [B; M; sp] [B; K; sp]) = Some [sp; M; B]).
      rewrite (bshape_rev_same B _ [K; sp] [M; sp]); [reflexivity|]. unfold M. destruct (Nat.eqb_spec K 1) as [E1|E1].
      - rewrite E1. apply bshape_rev_one. cbn. rewrite Nat.eqb_refl. reflexivity.
      - apply bshape_rev_same. cbn. rewrite Nat.eqb_refl. reflexivity. }
    unfold tzip. rewrite Se, Sk, Eb. cbn [bind tshape].
    assert (V : forall s, (s < sp)%nat -> sumR (seq 0 M) (fun kk => sumR (seq 0 B) (fun bb =>
        Re (tget fe (bidx [sp; M; B] [s; kk; bb]) + tget fk (bidx [sp; K; B] [s; kk; bb]))%C)) = val s).
    { intros s Hs.
      assert (X : forall kk, (kk < M)%nat -> sumR (seq 0 B) (fun bb => Re (tget fe (bidx [sp; M; B] [s; kk; bb]) + tget fk (bidx [sp; K; B] [s; kk; bb]))%C)
        = hsum s (if (K =? 1)%nat then 0%nat else kk) (chan (if (hk =? 1)%nat then 0%nat else kk))).
      { intros kk Hkk. unfold hsum. apply sumR_ext. intros bb Hbb. apply in_seq in Hbb.
        rewrite bidx_inb by (repeat (constructor; [lia|]); constructor).
        assert (Ei : bidx [sp; K; B] [s; kk; bb] = [s; if (K =? 1)%nat then 0%nat else kk; bb]).
        { unfold bidx. cbn [length Nat.sub skipn clip1].
          replace (if (sp =? 1)%nat then 0 else s)%nat with s by (destruct (Nat.eqb_spec sp 1); lia).
          replace (if (B =? 1)%nat then 0 else bb)%nat with bb by (destruct (Nat.eqb_spec B 1); lia). reflexivity. }
        rewrite Ei, Ge, Gk; try lia.
        2:{ unfold M in Hkk. destruct (Nat.eqb_spec K 1); lia. }
        set (k' := if (K =? 1)%nat then 0%nat else kk). set (h' := if (hk =? 1)%nat then 0%nat else kk).
        assert (Ek' : (if (K =? 1)%nat then 0%nat else k') = k') by (unfold k'; destruct (K =? 1)%nat; reflexivity). rewrite Ek'.
        unfold h_element. rewrite !Re_plus. rewrite Rplus_comm. f_equal.
        - rewrite Re_mult_R. cbn [efactor]. rewrite Rmult_1_l. f_equal.
        - cbn [efactor]. unfold chan. rewrite <- re_pot. reflexivity. }
      rewrite (sumR_ext _ _ (fun kk => hsum s (if (K =? 1)%nat then 0%nat else kk) (chan (if (hk =? 1)%nat then 0%nat else kk)))).
      2:{ intros kk Hkk. apply in_seq in Hkk. apply X. lia. }
      unfold val, M. destruct (Nat.eqb_spec K 1) as [E1|E1]; [|reflexivity].
      apply sumR_ext. intros h Hh. apply in_seq in Hh. destruct (Nat.eqb_spec hk 1); [|reflexivity]. replace h with 0%nat by lia. reflexivity. }
    destruct keep; eexists; (split; [reflexivity|]); (split; [reflexivity|]); (split; [intros E; try discriminate E|intros E; try discriminate E]).
    - intros s Hs. cbn [tget hd]. apply V, Hs.
    - cbn [tget]. apply sumR_ext. intros s Hs. apply in_seq in Hs. apply V. lia.
  Qed.

  Lemma trace_raises keep : (K <> 1 /\ hk <> 1 /\ hk <> K)%nat ->
    hamiltonian_matrix_trace xcd c pos ch dens G kpts vol xt ks keep = Err ValueErr.
  Proof.
    intros HK. unfold hamiltonian_matrix_trace. rewrite Hv. cbn [bind]. rewrite Hw. cbn [bind].
    rewrite (expectation_bad w v vol sp K hk B n1 n2 n3 Sw Sv HK). reflexivity.
  Qed.
End Trace.

Lemma sesq_sum m l (H : nat -> nat -> nat -> C) u :
  sumC l (fun h => sesquilinear m (H h) u) = sesquilinear m (fun i j => sumC l (fun h => H h i j)) u.
Proof.
  unfold sesquilinear. rewrite sumC_swap. apply sumC_ext. intros i _. rewrite sumC_swap. apply sumC_ext. intros j _.
  rewrite <- sumC_scal, <- sumC_scal_r. apply sumC_ext. intros; ring.
Qed.
Lemma conj_expand B (u a : nat -> C) z :
  (Cconj (sumC (seq 0 B) (fun i => u i * a i)) * z * sumC (seq 0 B) (fun j => u j * a j))%C =
  sumC (seq 0 B) (fun i => sumC (seq 0 B) (fun j => Cconj (u i) * (Cconj (a i) * z * a j) * u j)%C).
Proof.
  rewrite Cconj_sum. rewrite <- Cmult_assoc, (Cmult_comm z), Cmult_assoc, sumC_mult, <- sumC_scal_r. apply sumC_ext. intros i _.
  rewrite <- sumC_scal_r. apply sumC_ext. intros j _. rewrite Cconj_mult. ring.
Qed.
Lemma element_sesq B (l : list (list nat)) (z : list nat -> C) (T : nat -> list nat -> C) u :
  sumC l (fun g => Cconj (sumC (seq 0 B) (fun i => u i * T i g)) * z g * sumC (seq 0 B) (fun j => u j * T j g))%C
  = sesquilinear B (fun i j => sumC l (fun g => Cconj (T i g) * z g * T j g)%C) u.
Proof.
  rewrite (sumC_ext l _ (fun g => sumC (seq 0 B) (fun i => sumC (seq 0 B) (fun j => Cconj (u i) * (Cconj (T i g) * z g * T j g) * u j)%C))).
  - rewrite (sumC_swap l). unfold sesquilinear. apply sumC_ext. intros i _. rewrite (sumC_swap l). apply sumC_ext. intros j _.
    rewrite <- sumC_scal, <- sumC_scal_r. apply sumC_ext. intros; ring.
  - intros g _. apply (conj_expand B u (fun i => T i g)).
Qed.
Lemma sesq_scal m (a : C) H u : (a * sesquilinear m H u)%C = sesquilinear m (fun i j => a * H i j)%C u.
Proof. unfold sesquilinear. rewrite <- sumC_scal. apply sumC_ext. intros i _. rewrite <- sumC_scal. apply sumC_ext. intros; ring. Qed.
Lemma sesq_plus m H H' u : (sesquilinear m H u + sesquilinear m H' u)%C = sesquilinear m (fun i j => H i j + H' i j)%C u.
Proof. unfold sesquilinear. rewrite <- sumC_plus. apply sumC_ext. intros i _. rewrite <- sumC_plus. apply sumC_ext. intros; ring. Qed.

Lemma psi_combined ns vol c comb B s k (u : nat -> C) x : (forall g, inb g ns -> tget comb ([0; 0; 0]%nat ++ g) = sumC (seq 0 B) (fun b => u b * tget c ([s; k; b] ++ g))%C) ->
  psi ns vol comb [0; 0; 0]%nat x = sumC (seq 0 B) (fun b => u b * psi ns vol c [s; k; b] x)%C.
Proof.
  intros H. unfold psi, idft.
  rewrite (sumC_ext (indices ns) _ (fun g => sumC (seq 0 B) (fun b => u b * (tget c ([s; k; b] ++ g) * cis (2 * PI * phase ns (zs g) (zs x))%R))%C)).
  - rewrite sumC_swap, <- !sumC_scal. apply sumC_ext. intros b _. rewrite sumC_scal. ring.
  - intros g Hg. apply in_indices in Hg. rewrite H by exact Hg. rewrite <- sumC_scal_r. apply sumC_ext. intros; ring.
Qed.

Section Matrix.
  Context (xcd : xcdens) (c : tensor C) (pos : list v3) (ch : list R) (dens : tensor R) (G : tensor v3) (kpts : list v3)
    (vol : R) (xt : string) (ks : bool) (sp B hk n1 n2 n3 : nat) (v w : tensor C).
  Let ns := [n1; n2; n3].
  Let K := length kpts.
  Context (Hc : tshape c = [sp; K; B] ++ ns) (HG : tshape G = ns) (Hv : effective_sum xcd dens pos ch G vol xt ks = Ok v)
    (Sv : tshape v = hk :: ns) (Hw : wave_grid c vol = Ok w).

  Definition hel (s k i j : nat) : C :=
    sumC (seq 0 hk) (fun h => h_element ns vol (chan v h) w c G (nth k kpts vzero) [s; k; i] [s; k; j]).

  Lemma w_value b x : length b = 3%nat -> tget w (b ++ x) = psi ns vol c b x.
  Proof. intros Hb. destruct (wave_grid_eq c vol [sp; K; B] ns eq_refl Hc) as (w' & E & _ & Gw). rewrite Hw in E. injection E as ->. apply Gw, Hb. Qed.

  Lemma trace_comb comb s k u : tshape comb = [1; 1; 1]%nat ++ ns ->
    (forall g, inb g ns -> tget comb ([0; 0; 0]%nat ++ g) = sumC (seq 0 B) (fun b => u b * tget c ([s; k; b] ++ g))%C) ->
    exists t, hamiltonian_matrix_trace xcd comb pos ch dens G [nth k kpts vzero] vol xt ks false = Ok t /\ tget t [] = Re (sesquilinear B (hel s k) u).
  Proof.
    intros Sc Ec.
    destruct (wave_grid_eq comb vol [1; 1; 1]%nat ns eq_refl Sc) as (w' & Hw' & Sw' & Gw').
    destruct (trace_value xcd comb pos ch dens G [nth k kpts vzero] vol xt ks 1 1 hk n1 n2 n3 v w' Sc HG Hv Sv Hw' false (or_introl eq_refl)) as (t & Ht & _ & _ & Gt).
    exists t. split; [exact Ht|]. rewrite (Gt eq_refl). cbn [length Nat.eqb seq sumR]. rewrite Rplus_0_r.
    unfold hel. rewrite <- sesq_sum, Re_sumC. apply sumR_ext. intros h _. unfold hsum. cbn [seq sumR nth]. rewrite Rplus_0_r. f_equal.
    fold ns. unfold h_element. rewrite <- sesq_plus. f_equal.
    - unfold kinetic_element. rewrite <- (element_sesq B (indices ns) (fun g => RtoC (let p := vadd (tget G g) (nth k kpts vzero) in dot p p / 2)) (fun i g => tget c ([s; k; i] ++ g))).
      apply sumC_ext. intros g Hg. apply in_indices in Hg. rewrite Ec by exact Hg. reflexivity.
    - unfold potential_element. rewrite <- sesq_scal. f_equal.
      rewrite <- (element_sesq B (indices ns) (fun x => RtoC (chan v h x)) (fun i x => tget w ([s; k; i] ++ x))).
      apply sumC_ext. intros x _. rewrite Gw' by reflexivity. rewrite (psi_combined ns vol c comb B s k u x Ec).
      rewrite (sumC_ext _ (fun i => u i * tget w ([s; k; i] ++ x))%C (fun b => u b * psi ns vol c [s; k; b] x)%C); [reflexivity|].
      intros b _. rewrite w_value by reflexivity. reflexivity.
  Qed.
  Lemma efun_value s k u : exists z, efun xcd c pos ch dens G kpts vol xt ks B s k u = Ok z /\ Re z = Re (RtoC (/ 2) * sesquilinear B (hel s k) u)%C.
  Proof.
    unfold efun. rewrite (grid3_app c [sp; K; B] ns eq_refl Hc).
    set (comb := mkT _ _). 
    destruct (trace_comb comb s k u eq_refl ltac:(intros; reflexivity)) as (t & -> & Ht). cbn [bind].
    eexists. split; [reflexivity|]. rewrite Ht, Re_mult_R. reflexivity.
  Qed.

  Lemma hel_hermitian s k i j : hel s k j i = Cconj (hel s k i j).
  Proof.
    unfold hel. rewrite Cconj_sum. apply sumC_ext. intros h _. unfold h_element. rewrite Cconj_plus. f_equal.
    - unfold kinetic_element. rewrite Cconj_sum. apply sumC_ext. intros g _. rewrite !Cconj_mult, Cconj_conj, Cconj_R. ring.
    - unfold potential_element. rewrite Cconj_mult, Cconj_R, Cconj_sum. f_equal. apply sumC_ext. intros g _. rewrite !Cconj_mult, Cconj_conj, Cconj_R. ring.
  Qed.

  Lemma matrix_value : exists M, hamiltonian_matrix xcd c pos ch dens G kpts vol xt ks = Ok M /\ ((0 < B)%nat -> tshape M = [sp; K; B; B]) /\
    forall s k i j, (s < sp)%nat -> (k < K)%nat -> (i < B)%nat -> (j < B)%nat -> tget M [s; k; i; j] = hel s k i j.
  Proof.
    unfold hamiltonian_matrix. rewrite Hc. cbn [app ns]. fold K. rewrite Nat.eqb_refl. cbn [negb].
    destruct (efun_value 0 0 (fun _ => RtoC 1)) as (z0 & -> & _). cbn [bind]. eexists. split; [reflexivity|]. split; [intros HB; unfold square; cbn [tshape]; destruct (Nat.eqb_spec B 0); [lia|reflexivity]|].
    intros s k i j Hs Hk Hi Hj. cbn [tget nth skipn].
    apply (hessian_hermitian_re B (hel s k)); try assumption.
    - intros; apply hel_hermitian.
    - intros y. destruct (efun_value s k y) as (z & -> & Hz). exact Hz.
  Qed.
End Matrix.

Section Basis.
  Context (xcd : xcdens) (mask : tensor bool) (pos : list v3) (ch : list R) (dens : tensor R) (G : tensor v3) (kpts : list v3)
    (vol : R) (xt : string) (ks : bool) (hk n1 n2 n3 : nat) (v : tensor C).
  Let ns := [n1; n2; n3].
  Let n := length (mask_positions mask).
  Let p (i : nat) := nth i (mask_positions mask) [].
  Context (Hm : tshape mask = ns) (HG : tshape G = ns) (Hv : effective_sum xcd dens pos ch G vol xt ks = Ok v)
    (Sv : tshape v = hk :: ns) (Hvol : (0 < vol)%R).

  (** the coefficient array of the plane waves of the mask *)
  Definition cb : tensor C := mkT ([1; length kpts; n]%nat ++ ns) (fun i => if list_eq_dec Nat.eq_dec (skipn 3 i) (p (nth 2 i 0%nat)) then RtoC 1 else RtoC 0).

  Lemma p_inb i : (i < n)%nat -> inb (p i) ns.
  Proof. intros Hi. rewrite <- Hm. apply mask_positions_in. apply nth_In. exact Hi. Qed.
  Lemma p_inj i j : (i < n)%nat -> (j < n)%nat -> p i = p j -> i = j.
  Proof. intros Hi Hj E. apply (NoDup_nth (mask_positions mask) []); auto. apply mask_positions_NoDup. Qed.

  Lemma comb_value u coeff : expand_coefficient (mkT [1; 1; n; 1]%nat (fun i => u (nth 2 i 0%nat))) mask = Ok coeff ->
    tshape coeff = [1; 1; 1]%nat ++ ns /\ forall k g, inb g ns -> tget coeff ([0; 0; 0]%nat ++ g) = sumC (seq 0 n) (fun b => u b * tget cb ([0%nat; k; b] ++ g))%C.
  Proof.
    intros E. destruct (expand_spec (mkT [1; 1; n; 1]%nat (fun i => u (nth 2 i 0%nat))) mask [1; 1]%nat n 1 eq_refl eq_refl) as (t & E' & Ht & V1 & V0).
    rewrite E in E'. injection E' as <-. split; [rewrite Ht, Hm; reflexivity|]. intros k g Hg.
    assert (Hb : inb [0; 0]%nat [1; 1]%nat) by (repeat constructor).
    destruct (tget mask g) eqn:Em.
    - assert (Hin : In g (mask_positions mask)) by (apply mask_positions_in; rewrite Hm; auto).
      apply (In_nth _ _ []) in Hin. destruct Hin as (j & Hj & Ej). fold n in Hj. fold (p j) in Ej. subst g.
      rewrite (sumC_one n j (u j)); [|exact Hj| |].
      + exact (V1 [0; 0]%nat 0%nat j Hb (Nat.lt_0_1) Hj).
      + intros i Hi Hn. cbn [cb tget app skipn nth]. destruct (list_eq_dec _ _ _) as [E2|_]; [|ring].
        exfalso. apply Hn. apply p_inj; auto.
      + cbn [cb tget app skipn nth]. destruct (list_eq_dec _ _ _) as [_|N]; [ring|contradiction].
    - rewrite sumC_zero.
      + rewrite <- (V0 [0; 0]%nat 0%nat g Hb Nat.lt_0_1); [reflexivity|rewrite Hm; exact Hg|exact Em].
      + intros i Hi. apply in_seq in Hi. cbn [cb tget app skipn nth]. destruct (list_eq_dec _ _ _) as [E2|_]; [|ring].
        exfalso. assert (Hin : In (p i) (mask_positions mask)) by (apply nth_In; unfold n in Hi; lia). rewrite <- E2 in Hin. apply mask_positions_in in Hin. destruct Hin. congruence.
  Qed.

  Lemma psi_cb k i x : (i < n)%nat -> inb x ns -> psi ns vol cb [0%nat; k; i] x = (RtoC (/ sqrt vol) * cis (2 * PI * phase ns (zs (p i)) (zs x))%R)%C.
  Proof.
    intros Hi Hx. unfold psi, idft.
    rewrite (sumC_single _ (p i)); [|apply NoDup_indices|apply in_indices, p_inb, Hi|].
    - cbn [cb tget app skipn nth]. destruct (list_eq_dec _ _ _) as [_|N]; [|contradiction]. rewrite Cmult_1_l, Cmult_assoc, <- RtoC_mult. f_equal. f_equal.
      assert (HN : INR (nprod ns) <> 0) by (apply not_0_INR; pose proof (nprod_pos ns (inb_pos x ns Hx)); lia).
      assert (Hs : sqrt vol <> 0) by (apply Rgt_not_eq, sqrt_lt_R0, Hvol). field. auto.
    - intros g _ Hg. cbn [cb tget app skipn nth]. destruct (list_eq_dec _ _ _) as [E|_]; [contradiction|]. ring.
  Qed.

  Lemma kin_cb k i j : (i < n)%nat -> (j < n)%nat ->
    kinetic_element ns cb G (nth k kpts vzero) [0%nat; k; i] [0%nat; k; j] = (if (i =? j)%nat then RtoC (let q := vadd (tget G (p i)) (nth k kpts vzero) in dot q q / 2) else RtoC 0).
  Proof.
    intros Hi Hj. unfold kinetic_element. rewrite (sumC_single _ (p i)); [|apply NoDup_indices|apply in_indices, p_inb, Hi|].
    - cbn [cb tget app skipn nth]. destruct (list_eq_dec _ _ _) as [_|N]; [|contradiction]. rewrite Cconj_R.
      destruct (Nat.eqb_spec i j) as [<-|N]; [destruct (list_eq_dec _ _ _) as [_|N]; [ring|contradiction]|].
      destruct (list_eq_dec _ _ _) as [E|_]; [|ring]. exfalso. apply N, p_inj; auto.
    - intros g _ Hg. cbn [cb tget app skipn nth]. destruct (list_eq_dec _ _ _) as [E|_]; [contradiction|]. rewrite Cconj_R. ring.
  Qed.

  Definition pw_element (k i j : nat) : C :=
    sumC (seq 0 hk) (fun h =>
      (if (i =? j)%nat then RtoC (let q := vadd (tget G (p i)) (nth k kpts vzero) in dot q q / 2) else RtoC 0)
      + RtoC (/ INR (nprod ns)) * sumC (indices ns) (fun x => RtoC (chan v h x) * cis (- (2 * PI * phase ns (zsub (zs (p i)) (zs (p j))) (zs x)))%R))%C.

  Lemma basis_element w k i j : wave_grid cb vol = Ok w -> (i < n)%nat -> (j < n)%nat ->
    hel cb G kpts vol hk n1 n2 n3 v w 0 k i j = pw_element k i j.
  Proof.
    intros Hw Hi Hj. unfold hel, pw_element. apply sumC_ext. intros h _. unfold h_element. fold ns. rewrite kin_cb by assumption. f_equal.
    unfold potential_element.
    rewrite (sumC_ext (indices ns) _ (fun x => RtoC (/ vol) * (RtoC (chan v h x) * cis (- (2 * PI * phase ns (zsub (zs (p i)) (zs (p j))) (zs x)))%R))%C).
    - rewrite sumC_scal, Cmult_assoc, <- RtoC_mult. f_equal. f_equal. unfold Rdiv. rewrite Rmult_comm, <- Rmult_assoc, Rinv_l, Rmult_1_l; lra.
    - intros x Hx. apply in_indices in Hx.
      rewrite !(w_value cb kpts vol 1 n n1 n2 n3 w eq_refl Hw) by reflexivity. fold ns. rewrite !psi_cb by assumption.
      rewrite Cconj_mult, Cconj_R, cis_conj.
      rewrite phase_sub_l by (unfold zs; rewrite !map_length, (inb_length _ _ (p_inb i Hi)), (inb_length _ _ (p_inb j Hj)); reflexivity).
      replace (- (2 * PI * (phase ns (zs (p i)) (zs x) - phase ns (zs (p j)) (zs x)))) with (- (2 * PI * phase ns (zs (p i)) (zs x)) + 2 * PI * phase ns (zs (p j)) (zs x)) by ring.
      rewrite cis_plus. replace (/ vol) with (/ sqrt vol * / sqrt vol); [rewrite RtoC_mult; ring|].
      rewrite <- Rinv_mult_distr by (apply Rgt_not_eq, sqrt_lt_R0, Hvol). rewrite sqrt_def by lra. reflexivity.
  Qed.

  Lemma basis_value : exists M, hamiltonian_matrix_basis xcd mask pos ch dens G kpts vol xt ks = Ok M /\ ((0 < n)%nat -> tshape M = [length kpts; n; n]) /\
    forall k i j, (k < length kpts)%nat -> (i < n)%nat -> (j < n)%nat -> tget M [k; i; j] = pw_element k i j.
  Proof.
    destruct (wave_grid_eq cb vol [1%nat; length kpts; n] ns eq_refl eq_refl) as (w & Hw & _ & _).
    assert (E : forall k u, exists z, efun_basis xcd mask pos ch dens G (nth k kpts vzero) vol xt ks u = Ok z /\ Re z = Re (RtoC (/ 2) * sesquilinear n (hel cb G kpts vol hk n1 n2 n3 v w 0 k) u)%C).
    { intros k u. unfold efun_basis. fold n.
      destruct (expand_spec (mkT [1; 1; n; 1]%nat (fun i => u (nth 2 i 0%nat))) mask [1; 1]%nat n 1 eq_refl eq_refl) as (t & E' & _).
      rewrite E'. cbn [bind]. destruct (comb_value u t E') as [St Gt].
      destruct (trace_comb xcd cb pos ch dens G kpts vol xt ks 1 n hk n1 n2 n3 v w eq_refl HG Hv Sv Hw t 0 k u St (Gt k)) as (t' & -> & Ht'). cbn [bind].
      eexists. split; [reflexivity|]. rewrite Ht', Re_mult_R. reflexivity. }
    unfold hamiltonian_matrix_basis. fold n. destruct (E 0%nat (fun _ => RtoC 1)) as (z0 & -> & _). cbn [bind]. eexists. split; [reflexivity|].
    split; [intros HB; unfold square; cbn [tshape]; destruct (Nat.eqb_spec n 0); [lia|reflexivity]|].
    intros k i j Hk Hi Hj. cbn [tget hd tl]. rewrite <- (basis_element w) by assumption.
    apply (hessian_hermitian_re n (hel cb G kpts vol hk n1 n2 n3 v w 0 k)); try assumption.
    - intros; apply hel_hermitian.
    - intros y. destruct (E k y) as (z & -> & Hz). exact Hz.
  Qed.
End Basis.

Lemma direct_raises xcd c pos ch dens G kpts vol xt ks : hamiltonian_matrix_direct xcd c pos ch dens G kpts vol xt ks = Err TypeErr.
Proof. unfold hamiltonian_matrix_direct. destruct (ndim dens =? 4)%nat; reflexivity. Qed.
