(** States of lowest energy exist (C148). *)
From Coq Require Import Reals Lra Lia.
From Coquelicot Require Import Coquelicot.
From Coq Require Import Ascii String List Arith ZArith Bool.
From Verif Require Import Base Sums Tensor DFT GridModel GridProofs PadModel PadProofs Lin3 VecModel VecProofs OccModel OccSpec PwModel PwSpec PwProofs BraketModel XcModel XcSpec XcProofs XcProofs3 GgaProofs2 EnergyModel EnergySpec EnergyProofs ExtProofs TotalProofs SpinProofs
  BoundSpec BoundProofs ReachSpec ReachProofs GeomSpec DrvProofs2 AttSpec AttProofs AttProofs2 AttProofs3.
Import ListNotations.
Local Open Scope R_scope.

Section Adherent.
  Context {X : Type} (L : list X) (x : X -> R).
  Definition adherent (Q : (X -> R) -> Prop) : Prop := forall d, 0 < d -> exists y, near L d y x /\ Q y.
  Lemma adherent_imp (P Q : (X -> R) -> Prop) : (forall y, P y -> Q y) -> adherent P -> adherent Q.
  Proof. intros H A d Hd. destruct (A d Hd) as (y & N & Py). exists y. split; [exact N|apply H, Py]. Qed.
  Lemma adh_eq f a : cts L (fun _ => True) x f -> adherent (fun y => f y = a) -> f x = a.
  Proof.
    intros Hf A. destruct (Req_dec (f x) a) as [E|E]; [exact E|]. exfalso. assert (P : 0 < Rabs (a - f x)) by (apply Rabs_pos_lt; lra).
    destruct (proj1 (cts_iff L _ x f) Hf _ P) as (d & Hd & H). destruct (A d Hd) as (y & N & Ey). specialize (H y I N). rewrite Ey in H. lra.
  Qed.
  Lemma adh_ge f : cts L (fun _ => True) x f -> adherent (fun y => 0 <= f y) -> 0 <= f x.
  Proof.
    intros Hf A. apply Rnot_lt_le. intros Hn. destruct (proj1 (cts_iff L _ x f) Hf (- f x) ltac:(lra)) as (d & Hd & H). destruct (A d Hd) as (y & N & Ey). specialize (H y I N). apply Rabs_def2 in H. lra.
  Qed.
  Lemma adh_eqC (f : (X -> R) -> C) a : ctsC L (fun _ => True) x f -> adherent (fun y => f y = a) -> f x = a.
  Proof.
    intros (F1 & F2) A. apply injective_projections; [apply (adh_eq (fun y => fst (f y)) _ F1)|apply (adh_eq (fun y => snd (f y)) _ F2)]; eapply adherent_imp; try exact A; intros y E; cbv beta in *; rewrite E; reflexivity.
  Qed.
End Adherent.

Lemma cts_energy lib xt pos ch G kpts vol sp B n1 n2 n3 (St : (crd -> R) -> Prop) x : let ns := [n1; n2; n3] in let K := length kpts in let csh := [sp; K; B] ++ ns in let osh := [sp; K; B] in let L := crds csh osh in
  (sp = 1 \/ sp = 2)%nat -> (forall t, In t (split_on "+" xt) -> continuous_functional lib (contains "gga" xt) t) -> St x ->
  (forall y, St y -> forall i, inb i osh -> 0 <= tget (o_of osh y) i) ->
  cts L St x (fun y => energy_value lib xt sp B ns G kpts pos ch vol (c_of csh y) (o_of osh y)).
Proof.
  intros ns K csh osh L Hs Hf Sx Po. unfold energy_value. fold K.
  apply cts_plus; [apply cts_plus; [apply cts_plus|]|].
  + apply cts_mult; [|apply cts_const]. apply (cts_sum L St x (seq 0 sp) (fun s y => sumR (seq 0 K) (fun k => sumR (seq 0 B) (fun b => ekin G kpts (c_of csh y) ns s k b * tget (o_of osh y) [s; k; b])))). intros s Hs'. apply in_seq in Hs'.
    apply (cts_sum L St x (seq 0 K) (fun k y => sumR (seq 0 B) (fun b => ekin G kpts (c_of csh y) ns s k b * tget (o_of osh y) [s; k; b]))). intros k Hk. apply in_seq in Hk.
    apply (cts_sum L St x (seq 0 B) (fun b y => ekin G kpts (c_of csh y) ns s k b * tget (o_of osh y) [s; k; b])). intros b Hb. apply in_seq in Hb.
    apply cts_mult; [apply (cts_ekin sp K B ns); lia|apply (cts_o sp K B ns), (at3o sp K B); lia].
  + apply cts_mult; [apply cts_const|]. apply (ctsC_sum L St x (indices ns) (fun q y => if is_origin q then RtoC 0 else (Cconj (structure_factor ch pos (tget G q)) * rho_q sp ns (rho sp K B ns vol (c_of csh y) (o_of osh y)) q * RtoC (/ (norm2 (tget G q) + / 10 ^ 10)))%C)).
    intros q _. destruct (is_origin q); [apply ctsC_const|]. apply ctsC_mult; [|apply ctsC_const]. apply ctsC_mult; [apply ctsC_const|apply (ctsC_rho_q sp K B ns)].
  + apply cts_mult; [apply cts_const|]. apply (cts_sum L St x (indices ns) (fun q y => if is_origin q then 0 else Cnorm2 (rho_q sp ns (rho sp K B ns vol (c_of csh y) (o_of osh y)) q) / norm2 (tget G q))).
    intros q _. destruct (is_origin q); [apply cts_const|]. apply cts_mult; [apply cts_norm2, (ctsC_rho_q sp K B ns)|apply cts_const].
  + apply cts_mult; [apply cts_const|]. apply (cts_sum L St x (indices ns) (fun q y => let d := rho sp K B ns vol (c_of csh y) (o_of osh y) in
      point_xc lib (split_on "+" xt) (contains "gga" xt) (sp =? 2)%nat (dens_at sp d q) (if contains "gga" xt then sig_at ns G sp d q else []) * sumR (seq 0 sp) (fun s => tget d (s :: q)))).
    intros q _. cbv zeta. apply cts_mult; [apply (cts_xc sp K B ns St x lib vol G _ _ q Sx Hs Hf Po)|]. apply (cts_sum L St x (seq 0 sp) (fun s y => tget (rho sp K B ns vol (c_of csh y) (o_of osh y)) (s :: q))). intros s Hs'. apply in_seq in Hs'. apply (cts_rho sp K B ns). lia.
Qed.

(** A continuous function of the state has a lowest value. *)
Lemma attained_gen (F : tensor C -> tensor R -> R) sp K B mask N (O : tensor R -> Prop) : let ns := tshape mask in let csh := [sp; K; B] ++ ns in let osh := [sp; K; B] in
  (forall (St : (crd -> R) -> Prop) x, St x -> (forall y, St y -> forall i, inb i osh -> 0 <= tget (o_of osh y) i) -> cts (crds csh osh) St x (fun y => F (c_of csh y) (o_of osh y))) ->
  closed_occupations sp K B O -> (exists c occ, electron_state sp K B mask N c occ /\ O occ) ->
  exists c occ, electron_state sp K B mask N c occ /\ O occ /\ forall c' occ', electron_state sp K B mask N c' occ' -> O occ' -> F c occ <= F c' occ'.
Proof.
  intros ns csh osh HF HO (c0 & o0 & H0 & O0). assert (Sm : tshape mask = ns) by reflexivity. set (L := crds csh osh).
  set (St := fun x => electron_state sp K B mask N (c_of csh x) (o_of osh x) /\ O (o_of osh x)).
  assert (Enc : forall c occ, electron_state sp K B mask N c occ -> c_of csh (x_of c occ) = c /\ o_of osh (x_of c occ) = occ).
  { intros c occ ((Sc & _) & So & _). split; [apply c_of_x, Sc|apply o_of_x, So]. }
  assert (Ex : exists x, St x /\ forall y, St y -> F (c_of csh x) (o_of osh x) <= F (c_of csh y) (o_of osh y)).
  { apply (extreme crd_dec L (1 + Rabs N) St (fun x => F (c_of csh x) (o_of osh x))).
    - intros x (((_ & Oc & _) & _ & Po & Ne) & _) a Ha. pose proof (Rabs_pos N) as PN. unfold L, crds in Ha. apply in_app_iff in Ha.
      assert (CB : forall i, inb i csh -> Cnorm2 (tget (c_of csh x) i) <= 1).
      { intros i Hi. destruct (inb_split i [sp; K; B] ns Hi) as (b & g & -> & Hb & Hg). inversion Hb as [|s ? b1 ? Hs1 Hb1]; subst. inversion Hb1 as [|k ? b2 ? Hk Hb2]; subst. inversion Hb2 as [|b ? b3 ? Hb' Hb3]; subst. inversion Hb3; subst.
        assert (U := Oc [s; k] b b ltac:(constructor; [exact Hs1|constructor; [exact Hk|constructor]]) Hb' Hb'). rewrite Nat.eqb_refl, Sm in U. unfold inner in U.
        rewrite (sumC_ext _ _ (fun g => RtoC (Cnorm2 (tget (c_of csh x) ([s; k; b] ++ g))))) in U by (intros; apply Cconj_mult_self). rewrite sumC_RtoC in U. apply RtoC_inj in U. rewrite <- U.
        apply (le_sumR (indices ns) (fun g => Cnorm2 (tget (c_of csh x) ([s; k; b] ++ g)))); [intros; apply Cnorm2_nonneg|apply in_indices, Hg]. }
      assert (AB : forall u v, u * u + v * v <= 1 -> Rabs u <= 1 /\ Rabs v <= 1).
      { intros u v H. pose proof (Rle_0_sqr u). pose proof (Rle_0_sqr v). unfold Rsqr in *. split; apply Rabs_le; nra. }
      destruct Ha as [Ha|Ha]; [|apply in_app_iff in Ha; destruct Ha as [Ha|Ha]]; apply in_map_iff in Ha; destruct Ha as (i & <- & Hi); apply in_indices in Hi.
      + destruct (AB _ _ (CB i Hi)) as (U & _). cbn in U. lra.
      + destruct (AB _ _ (CB i Hi)) as (_ & U). cbn in U. lra.
      + pose proof (Po i Hi) as Pi. cbn [o_of tget] in Pi. rewrite Rabs_pos_eq by exact Pi. pose proof (Rle_abs N). enough (x (2%nat, i) <= N) by lra. rewrite <- Ne.
        assert (Te : BoundSpec.electrons (o_of osh x) = total (o_of osh x)) by (symmetry; apply (total_channels (o_of osh x) sp [K; B] eq_refl)). rewrite Te. unfold total. change (tshape (o_of osh x)) with osh.
        change (x (2%nat, i)) with (tget (o_of osh x) i). apply (le_sumR (indices osh) (tget (o_of osh x))); [intros j Hj; apply in_indices in Hj; apply Po, Hj|apply in_indices, Hi].
    - intros x Hx. destruct (Classical_Prop.classic (exists d, 0 < d /\ forall y, near L d y x -> ~ St y)) as [H|H]; [exact H|]. exfalso. apply Hx. clear Hx.
      assert (Ad : adherent L x St).
      { intros d Hd. destruct (Classical_Prop.classic (exists y, near L d y x /\ St y)) as [G'|G']; [exact G'|]. exfalso. apply H. exists d. split; [exact Hd|]. intros y Ny Sy. apply G'. exists y. split; assumption. }
      split; [split; [split; [|split]|split; [|split]]|].
      + cbn [c_of tshape]. rewrite Sm. reflexivity.
      + intros b k k' Hb Hk Hk'. apply (adh_eqC L x (fun y => inner (tshape mask) (c_of csh y) (b ++ [k]) (b ++ [k']))).
        * unfold inner. rewrite Sm. apply (ctsC_sum L (fun _ => True) x (indices ns) (fun g y => (Cconj (tget (c_of csh y) ((b ++ [k]) ++ g)) * tget (c_of csh y) ((b ++ [k']) ++ g))%C)). intros g Hg. apply in_indices in Hg.
          assert (I1 : forall q, (q < B)%nat -> inb ((b ++ [q]) ++ g) csh) by (intros q Hq; apply (inb_app (b ++ [q]) g ([sp; K] ++ [B]) ns); [apply inb_app; [exact Hb|constructor; [exact Hq|constructor]]|exact Hg]).
          apply ctsC_mult; [apply ctsC_conj|]; apply (cts_c sp K B ns); apply I1; assumption.
        * eapply adherent_imp; [|exact Ad]. intros y (((_ & Oc & _) & _) & _). apply Oc; assumption.
      + intros b i Hb Hi Mi. apply (adh_eqC L x (fun y => tget (c_of csh y) (b ++ i))).
        * apply (cts_c sp K B ns). apply inb_app; [exact Hb|rewrite <- Sm; exact Hi].
        * eapply adherent_imp; [|exact Ad]. intros y (((_ & _ & Z) & _) & _). apply Z; assumption.
      + reflexivity.
      + intros i Hi. apply (adh_ge L x (fun y => tget (o_of osh y) i)); [apply (cts_o sp K B ns), Hi|]. eapply adherent_imp; [|exact Ad]. intros y ((_ & _ & P & _) & _). apply P, Hi.
      + apply (adh_eq L x (fun y => BoundSpec.electrons (o_of osh y))).
        * unfold BoundSpec.electrons, channel. cbn [o_of tshape hd tl osh]. apply (cts_sum L (fun _ => True) x (seq 0 sp) (fun s y => sumR (indices [K; B]) (fun i => y (2%nat, s :: i)))). intros s Hs'. apply in_seq in Hs'.
          apply (cts_sum L (fun _ => True) x (indices [K; B]) (fun i y => y (2%nat, s :: i))). intros i Hi. apply in_indices in Hi. apply cts_at. apply (in_o sp K B ns). constructor; [lia|exact Hi].
        * eapply adherent_imp; [|exact Ad]. intros y ((_ & _ & _ & P) & _). exact P.
      + apply Classical_Prop.NNPP. intros NO. destruct (HO (o_of osh x) eq_refl NO) as (d & Hd & Hc). destruct (Ad d Hd) as (y & Ny & (_ & Oy)). apply (Hc (o_of osh y) eq_refl); [|exact Oy]. intros i Hi. apply (Ny (2%nat, i)), (in_o sp K B ns), Hi.
    - intros x Sx. apply (cts_iff L St x (fun x => F (c_of csh x) (o_of osh x))). apply (HF St x Sx). intros y ((_ & _ & P & _) & _). exact P.
    - exists (x_of c0 o0). destruct (Enc c0 o0 H0) as (E1 & E2). unfold St. rewrite E1, E2. split; assumption. }
  destruct Ex as (x & (Sx & Ox) & Min). exists (c_of csh x), (o_of osh x). split; [exact Sx|]. split; [exact Ox|]. intros c' occ' H' O'.
  destruct (Enc c' occ' H') as (E1 & E2). specialize (Min (x_of c' occ')). unfold St in Min. rewrite E1, E2 in Min. apply Min. split; assumption.
Qed.
(** It changes little with the occupation. *)
Lemma near_gen (F : tensor C -> tensor R -> R) sp K B ns c occ : let csh := [sp; K; B] ++ ns in let osh := [sp; K; B] in
  (forall (St : (crd -> R) -> Prop) x, St x -> (forall y, St y -> forall i, inb i osh -> 0 <= tget (o_of osh y) i) -> cts (crds csh osh) St x (fun y => F (c_of csh y) (o_of osh y))) ->
  tshape c = csh -> tshape occ = osh -> (forall i, inb i osh -> 0 <= tget occ i) ->
  forall eps, 0 < eps -> exists d, 0 < d /\ forall occ', tshape occ' = osh -> (forall i, inb i osh -> 0 <= tget occ' i) ->
    (forall i, inb i osh -> Rabs (tget occ' i - tget occ i) < d) -> Rabs (F c occ' - F c occ) < eps.
Proof.
  intros csh osh HF Sc So Po eps Heps. set (St := fun y => forall i, inb i osh -> 0 <= tget (o_of osh y) i).
  assert (Enc : forall o, tshape o = osh -> c_of csh (x_of c o) = c /\ o_of osh (x_of c o) = o) by (intros o So'; split; [apply c_of_x, Sc|apply o_of_x, So']).
  assert (Sx : St (x_of c occ)) by (unfold St; rewrite (proj2 (Enc occ So)); exact Po).
  destruct (proj1 (cts_iff (crds csh osh) St (x_of c occ) _) (HF St (x_of c occ) Sx (fun y H => H)) eps Heps) as (d & Hd & H).
  exists d. split; [exact Hd|]. intros occ' So' Po' Hn.
  specialize (H (x_of c occ')). cbv beta in H. rewrite (proj1 (Enc occ So)), (proj2 (Enc occ So)), (proj1 (Enc occ' So')), (proj2 (Enc occ' So')) in H. apply H.
  - unfold St. rewrite (proj2 (Enc occ' So')). exact Po'.
  - intros a Ha. unfold crds in Ha. apply in_app_iff in Ha. destruct Ha as [Ha|Ha]; [|apply in_app_iff in Ha; destruct Ha as [Ha|Ha]]; apply in_map_iff in Ha; destruct Ha as (i & <- & Hi); apply in_indices in Hi; unfold x_of; cbn [fst snd].
    + unfold Rminus. rewrite Rplus_opp_r, Rabs_R0. exact Hd.
    + unfold Rminus. rewrite Rplus_opp_r, Rabs_R0. exact Hd.
    + apply Hn, Hi.
Qed.

Lemma attained lib vg xt A pos ch G kpts vol sp B n1 n2 n3 mask N (O : tensor R -> Prop) : let ns := [n1; n2; n3] in let K := length kpts in
  m3det A <> 0 -> g_vectors A ns = Ok G -> 0 < vol -> (sp = 1 \/ sp = 2)%nat -> length ch = length pos -> tshape mask = ns ->
  (forall t, In t (split_on "+" xt) -> continuous_functional lib (contains "gga" xt) t) -> closed_occupations sp K B O ->
  (exists c occ, electron_state sp K B mask N c occ /\ O occ) ->
  exists c occ e, electron_state sp K B mask N c occ /\ O occ /\ total_energy (xc_density lib vg) c pos ch G kpts vol (Some occ) false xt = Ok e /\
    forall c' occ', electron_state sp K B mask N c' occ' -> O occ' -> exists e', total_energy (xc_density lib vg) c' pos ch G kpts vol (Some occ') false xt = Ok e' /\ e <= e'.
Proof.
  intros ns K HA HG Hv Hs Hl Sm Hf HO H0.
  assert (HP : forall t, In t (split_on "+" xt) -> pick lib t (sp =? 2)%nat <> None).
  { intros t Ht. unfold pick. destruct (Hf t Ht ((sp =? 2)%nat && negb (is_exchange t))) as (f & -> & _). discriminate. }
  assert (En : forall c occ, electron_state sp K B mask N c occ -> total_energy (xc_density lib vg) c pos ch G kpts vol (Some occ) false xt = Ok (energy_value lib xt sp B ns G kpts pos ch vol c occ)).
  { intros c occ ((Sc & _) & So & _). rewrite Sm in Sc. apply (energy_formula lib vg xt A c pos ch G kpts vol occ sp B n1 n2 n3 HA HG Hv Hs Hl Sc So HP). }
  destruct (attained_gen (energy_value lib xt sp B ns G kpts pos ch vol) sp K B mask N O) as (c & occ & Hst & Ho & Min); [|exact HO|exact H0|].
  { rewrite Sm. intros St x Sx Po. apply (cts_energy lib xt pos ch G kpts vol sp B n1 n2 n3 St x Hs Hf Sx Po). }
  exists c, occ, (energy_value lib xt sp B ns G kpts pos ch vol c occ). split; [exact Hst|]. split; [exact Ho|]. split; [apply En, Hst|]. intros c' occ' H' O'. exists (energy_value lib xt sp B ns G kpts pos ch vol c' occ'). split; [apply En, H'|apply Min; assumption].
Qed.
