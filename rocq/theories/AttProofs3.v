(** States of lowest energy exist (C148). *)
From Coq Require Import Reals Lra Lia FunctionalExtensionality.
From Coquelicot Require Import Coquelicot.
From Coq Require Import Ascii String List Arith ZArith Bool.
From Verif Require Import Base Sums Tensor DFT GridModel GridProofs PadModel PadProofs Lin3 VecModel VecProofs OccModel OccSpec PwModel PwSpec PwProofs BraketModel XcModel XcSpec XcProofs XcProofs3 GgaProofs2 EnergyModel EnergySpec EnergyProofs ExtProofs TotalProofs SpinProofs
  BoundSpec BoundProofs ReachSpec ReachProofs GeomSpec AttSpec AttProofs AttProofs2.
Import ListNotations.
Local Open Scope R_scope.

(** The real coordinates of a state: real and imaginary parts of the coefficients, occupations. *)
Definition crd := (nat * list nat)%type.
Definition crd_dec (a b : crd) : {a = b} + {a <> b}.
Proof. decide equality; [apply list_eq_dec, Nat.eq_dec|apply Nat.eq_dec]. Defined.
Definition crds (csh osh : list nat) : list crd := map (pair 0%nat) (indices csh) ++ map (pair 1%nat) (indices csh) ++ map (pair 2%nat) (indices osh).
Definition c_of (csh : list nat) (x : crd -> R) : tensor C := mkT csh (fun i => (x (0%nat, i), x (1%nat, i))).
Definition o_of (osh : list nat) (x : crd -> R) : tensor R := mkT osh (fun i => x (2%nat, i)).
Definition x_of (c : tensor C) (o : tensor R) : crd -> R := fun a => match fst a with 0%nat => fst (tget c (snd a)) | 1%nat => snd (tget c (snd a)) | _ => tget o (snd a) end.
Lemma c_of_x c o csh : tshape c = csh -> c_of csh (x_of c o) = c.
Proof. intros <-. destruct c as [sh f]. unfold c_of. cbn [tshape]. f_equal. apply functional_extensionality. intros i. unfold x_of. cbn [fst snd tget]. destruct (f i); reflexivity. Qed.
Lemma o_of_x c o osh : tshape o = osh -> o_of osh (x_of c o) = o.
Proof. intros <-. destruct o as [sh f]. reflexivity. Qed.

Section State.
  Context (sp K B : nat) (ns : list nat).
  Let csh := [sp; K; B] ++ ns. Let osh := [sp; K; B]. Let L := crds csh osh.
  Lemma in_c r i : (r < 2)%nat -> inb i csh -> In (r, i) L.
  Proof.
    intros Hr Hi. unfold L, crds. apply in_indices in Hi. apply in_app_iff. destruct r as [|[|r]]; [left; apply in_map; exact Hi| |lia]. right. apply in_app_iff. left. apply in_map. exact Hi.
  Qed.
  Lemma in_o i : inb i osh -> In (2%nat, i) L.
  Proof. intros Hi. apply in_indices in Hi. unfold L, crds. apply in_app_iff. right. apply in_app_iff. right. apply in_map. exact Hi. Qed.
  Context (S : (crd -> R) -> Prop) (x : crd -> R).
  Lemma cts_c i : inb i csh -> ctsC L S x (fun y => tget (c_of csh y) i).
  Proof. intros Hi. split; cbn; apply cts_at, in_c; (lia || exact Hi). Qed.
  Lemma cts_o i : inb i osh -> cts L S x (fun y => tget (o_of osh y) i).
  Proof. intros Hi. cbn. apply cts_at, in_o, Hi. Qed.
  Lemma at3 s k b g : (s < sp)%nat -> (k < K)%nat -> (b < B)%nat -> inb g ns -> inb ([s; k; b] ++ g) csh.
  Proof. intros. unfold csh. cbn [app]. constructor; [assumption|]. constructor; [assumption|]. constructor; assumption. Qed.
  Lemma at3o s k b : (s < sp)%nat -> (k < K)%nat -> (b < B)%nat -> inb [s; k; b] osh.
  Proof. intros. unfold osh. constructor; [assumption|]. constructor; [assumption|]. constructor; [assumption|constructor]. Qed.
  Lemma cts_rho vol s q : (s < sp)%nat -> cts L S x (fun y => tget (rho sp K B ns vol (c_of csh y) (o_of osh y)) (s :: q)).
  Proof.
    intros Hs. unfold rho. cbn [tget hd tl].
    apply (cts_sum L S x (seq 0 K) (fun k y => sumR (seq 0 B) (fun b => tget (o_of osh y) [s; k; b] * Cnorm2 (psi ns vol (c_of csh y) [s; k; b] q)))). intros k Hk. apply in_seq in Hk.
    apply (cts_sum L S x (seq 0 B) (fun b y => tget (o_of osh y) [s; k; b] * Cnorm2 (psi ns vol (c_of csh y) [s; k; b] q))). intros b Hb. apply in_seq in Hb.
    apply cts_mult; [apply cts_o, at3o; lia|]. apply cts_norm2. unfold psi. apply ctsC_mult; [apply ctsC_const|]. apply (ctsC_idft L S x ns (fun g y => tget (c_of csh y) ([s; k; b] ++ g))). intros g Hg. apply cts_c, at3; (lia || exact Hg).
  Qed.
  Lemma ctsC_rho_q vol q : ctsC L S x (fun y => rho_q sp ns (rho sp K B ns vol (c_of csh y) (o_of osh y)) q).
  Proof.
    unfold rho_q. apply (ctsC_sum L S x (seq 0 sp) (fun s y => dft ns (fun z => RtoC (tget (rho sp K B ns vol (c_of csh y) (o_of osh y)) (s :: z))) q)). intros s Hs. apply in_seq in Hs.
    apply (ctsC_dft L S x ns (fun z y => RtoC (tget (rho sp K B ns vol (c_of csh y) (o_of osh y)) (s :: z)))). intros z _. apply ctsC_R, cts_rho. lia.
  Qed.
  Lemma cts_ekin G kpts s k b : (s < sp)%nat -> (k < K)%nat -> (b < B)%nat -> cts L S x (fun y => ekin G kpts (c_of csh y) ns s k b).
  Proof.
    intros Hs Hk Hb. unfold ekin. apply (cts_sum L S x (indices ns) (fun g y => norm2 (vadd (tget G g) (nth k kpts vzero)) * Cnorm2 (tget (c_of csh y) ([s; k; b] ++ g)))). intros g Hg. apply in_indices in Hg.
    apply cts_mult; [apply cts_const|apply cts_norm2, cts_c, at3; assumption].
  Qed.
  Lemma rho_nonneg vol c occ s q : (forall i, inb i osh -> 0 <= tget occ i) -> (s < sp)%nat -> 0 <= tget (rho sp K B ns vol c occ) (s :: q).
  Proof.
    intros Ho Hs. unfold rho. cbn [tget hd tl]. apply sumR_nonneg. intros k Hk. apply in_seq in Hk. apply sumR_nonneg. intros b Hb. apply in_seq in Hb. apply Rmult_le_pos; [apply Ho, at3o; lia|apply Cnorm2_nonneg].
  Qed.
  Lemma cts_xc lib vol G ts (g : bool) q : S x -> (sp = 1 \/ sp = 2)%nat -> (forall t, In t ts -> continuous_functional lib g t) -> (forall y, S y -> forall i, inb i osh -> 0 <= tget (o_of osh y) i) ->
    cts L S x (fun y => let d := rho sp K B ns vol (c_of csh y) (o_of osh y) in point_xc lib ts g (sp =? 2)%nat (dens_at sp d q) (if g then sig_at ns G sp d q else [])).
  Proof.
    intros Sx Hsp Hf Hp. cbv zeta. unfold point_xc. set (n := fun s y => tget (rho sp K B ns vol (c_of csh y) (o_of osh y)) (s :: q)).
    assert (Cn : forall s, (s < sp)%nat -> cts L S x (n s)) by (intros s Hs; apply cts_rho, Hs). assert (Pn : forall s y, (s < sp)%nat -> S y -> 0 <= n s y) by (intros s y Hs Sy; apply rho_nonneg; [apply Hp, Sy|exact Hs]).
    set (h := fun s s' y => gprod ns G (fun z => tget (rho sp K B ns vol (c_of csh y) (o_of osh y)) (s :: z)) (fun z => tget (rho sp K B ns vol (c_of csh y) (o_of osh y)) (s' :: z)) q).
    assert (Ch : forall s s', (s < sp)%nat -> (s' < sp)%nat -> cts L S x (h s s')).
    { intros s s' Hs Hs'. unfold h. apply (cts_gprod L S x ns G (fun z y => tget (rho sp K B ns vol (c_of csh y) (o_of osh y)) (s :: z)) (fun z y => tget (rho sp K B ns vol (c_of csh y) (o_of osh y)) (s' :: z))); intros z _; apply cts_rho; assumption. }
    apply (cts_sum L S x ts (fun t y => match pick lib t (sp =? 2)%nat with Some f => if g then gga_at f (sp =? 2)%nat (is_exchange t) (dens_at sp (rho sp K B ns vol (c_of csh y) (o_of osh y)) q) (if g then sig_at ns G sp (rho sp K B ns vol (c_of csh y) (o_of osh y)) q else [])
      else lda_at f (sp =? 2)%nat (is_exchange t) (dens_at sp (rho sp K B ns vol (c_of csh y) (o_of osh y)) q) | None => 0 end)).
    intros t Ht. unfold pick. destruct (Hf t Ht ((sp =? 2)%nat && negb (is_exchange t))) as (f & -> & Cf).
    set (v := map (fun s y => n s y) (seq 0 sp)). set (sg := if g then if (sp =? 2)%nat then [h 0%nat 0%nat; h 0%nat 1%nat; h 1%nat 1%nat] else [h 0%nat 0%nat] else []).
    assert (Ev : forall y, dens_at sp (rho sp K B ns vol (c_of csh y) (o_of osh y)) q = map (fun f => f y) v) by (intros y; unfold v; rewrite map_map; reflexivity).
    assert (Es : forall y, (if g then sig_at ns G sp (rho sp K B ns vol (c_of csh y) (o_of osh y)) q else []) = map (fun f => f y) sg) by (intros y; unfold sg, sig_at, h; destruct g; [|reflexivity]; destruct (sp =? 2)%nat; reflexivity).
    assert (Cv : Forall (cts L S x) v) by (unfold v; apply Forall_forall; intros u Hu; apply in_map_iff in Hu; destruct Hu as (s & <- & Hs); apply in_seq in Hs; apply Cn; lia).
    assert (Cs : Forall (cts L S x) sg) by (unfold sg; destruct g; [|constructor]; destruct Hsp as [-> | ->]; cbn [Nat.eqb]; repeat constructor; apply Ch; lia).
    assert (Pv : forall y, S y -> Forall (fun u => 0 <= u y) v) by (intros y Sy; unfold v; apply Forall_forall; intros u Hu; apply in_map_iff in Hu; destruct Hu as (s & <- & Hs); apply in_seq in Hs; apply Pn; [lia|exact Sy]).
    assert (Gen : forall v0 sg0, Forall (cts L S x) v0 -> Forall (cts L S x) sg0 -> (forall y, S y -> Forall (fun u => 0 <= u y) v0) -> length v0 = (if (sp =? 2)%nat && negb (is_exchange t) then 2 else 1)%nat ->
      length sg0 = (if g then if (sp =? 2)%nat && negb (is_exchange t) then 3 else 1 else 0)%nat -> cts L S x (fun y => f (map (fun u => u y) v0) (map (fun u => u y) sg0))).
    { intros v0 sg0 A1 A2 A3 A4 A5. apply cts_functional; try assumption. intros eps He. apply Cf; [rewrite map_length; exact A4|rewrite map_length; exact A5| |exact He]. apply Forall_map, A3, Sx. }
    assert (two : forall s, (s < sp)%nat -> cts L S x (fun y => 2 * n s y)) by (intros s Hs; apply cts_mult; [apply cts_const|apply Cn, Hs]).
    apply (cts_ext L S x (fun y => if g then gga_at f (sp =? 2)%nat (is_exchange t) (map (fun f => f y) v) (map (fun f => f y) sg) else lda_at f (sp =? 2)%nat (is_exchange t) (map (fun f => f y) v))).
    { intros y. rewrite Ev, Es. reflexivity. }
    unfold gga_at, lda_at. destruct ((sp =? 2)%nat && is_exchange t) eqn:E.
    - apply andb_true_iff in E. destruct E as (E1 & E2). rewrite E1, E2 in *. apply Nat.eqb_eq in E1. cbn [negb andb] in Gen. unfold v, sg. rewrite E1. cbn [seq map nth].
      destruct g; cbn [map nth]; (apply cts_mult; [apply cts_const|]; apply cts_plus).
      + apply (Gen [fun y => 2 * n 0%nat y] [fun y => 4 * h 0%nat 0%nat y]); [constructor; [apply two; lia|constructor]|constructor; [apply cts_mult; [apply cts_const|apply Ch; lia]|constructor]| |reflexivity|reflexivity].
        intros y Sy. constructor; [|constructor]. specialize (Pn 0%nat y ltac:(lia) Sy). lra.
      + apply (Gen [fun y => 2 * n 1%nat y] [fun y => 4 * h 1%nat 1%nat y]); [constructor; [apply two; lia|constructor]|constructor; [apply cts_mult; [apply cts_const|apply Ch; lia]|constructor]| |reflexivity|reflexivity].
        intros y Sy. constructor; [|constructor]. specialize (Pn 1%nat y ltac:(lia) Sy). lra.
      + apply (Gen [fun y => 2 * n 0%nat y] []); [constructor; [apply two; lia|constructor]|constructor| |reflexivity|reflexivity].
        intros y Sy. constructor; [|constructor]. specialize (Pn 0%nat y ltac:(lia) Sy). lra.
      + apply (Gen [fun y => 2 * n 1%nat y] []); [constructor; [apply two; lia|constructor]|constructor| |reflexivity|reflexivity].
        intros y Sy. constructor; [|constructor]. specialize (Pn 1%nat y ltac:(lia) Sy). lra.
    - assert (Lv : length v = (if (sp =? 2)%nat && negb (is_exchange t) then 2 else 1)%nat) by (unfold v; rewrite map_length, seq_length; destruct Hsp as [-> | ->]; destruct (is_exchange t); reflexivity || discriminate E).
      assert (Ls : length sg = (if g then if (sp =? 2)%nat && negb (is_exchange t) then 3 else 1 else 0)%nat) by (unfold sg; destruct g; [|reflexivity]; destruct Hsp as [-> | ->]; destruct (is_exchange t); reflexivity || discriminate E).
      destruct g; [apply Gen; assumption|]. apply (Gen v [] Cv); [constructor|exact Pv|exact Lv|reflexivity].
  Qed.
End State.
