(** Spin scaling of exchange and derivatives of the LDA energy. *)
From Coq Require Import Reals Lra Lia ZifyBool Permutation.
From Coquelicot Require Import Coquelicot.
From Coq Require Import Ascii String List Arith ZArith Bool.
From Verif Require Import Base Sums Tensor DFT GridModel GridProofs PadModel PadProofs Lin3 VecModel VecProofs OccModel PwModel PwSpec PwProofs PwGrad BraketModel BraketSpec BraketProofs XcModel XcSpec EnergyModel EnergySpec EnergyProofs ExtProofs TotalProofs RespProofs ShiftProofs XcProofs.
Import ListNotations.
Local Open Scope R_scope.

(** e_xc of a real exchange-correlation density without spin axis *)
Lemma e_xc_real xcd d G vol xt ks sp n1 n2 n3 (eps : list nat -> R) grid : let ns := [n1; n2; n3] in
  tshape d = sp :: ns -> grid = ns -> xcd d G ks xt = Ok (tmap RtoC (mkT grid eps)) ->
  e_xc xcd d G vol xt ks = Ok (vol / INR (nprod ns) * sumR (indices ns) (fun x => eps x * sumR (seq 0 sp) (fun s => tget d (s :: x)))).
Proof.
  intros ns Sd -> Hx. unfold e_xc, ndim. rewrite Sd. cbn [length ns Nat.eqb negb]. rewrite Hx. cbn [bind].
  destruct (tzip_trail Cmult (tmap RtoC (mkT ns eps)) (tmap RtoC d) sp n1 n2 n3 eq_refl Sd) as (p & -> & Sp & Gp). cbn [bind].
  assert (E : tsum_all p = RtoC (sumR (indices ns) (fun x => eps x * sumR (seq 0 sp) (fun s => tget d (s :: x))))).
  { rewrite (tsum_all_4 p sp ns Sp), <- sumC_RtoC, sumC_swap. apply sumC_ext. intros x Hx'. apply in_indices in Hx'. rewrite RtoC_mult, <- sumC_RtoC, <- sumC_scal.
    apply sumC_ext. intros s Hs. apply in_seq in Hs. rewrite Gp by (auto; lia). reflexivity. }
  rewrite E. rewrite (grid3_app d [sp] ns eq_refl Sd). unfold safe_real. cbn [tshape indices forallb tget snd RtoC].
  rewrite Rabs_R0. destruct (Rle_dec 0 (/ 10 ^ 8)) as [_|N].
  - cbn [bind tget tmap fst andb]. match goal with |- Ok ?a = Ok ?b => cut (a = b); [intros ->; reflexivity|] end. unfold Rdiv. fold ns. set (q := sumR _ _). change (fst (RtoC q)) with q. ring.
  - exfalso. apply N. left. apply Rinv_0_lt_compat, pow_lt. lra.
Qed.

Lemma column1 (d : tensor R) ns x : tshape d = 1%nat :: ns -> column d x = [tget d (0%nat :: x)].
Proof. intros S. unfold column. rewrite S. reflexivity. Qed.
Lemma column2 (d : tensor R) ns x : tshape d = 2%nat :: ns -> column d x = [tget d (0%nat :: x); tget d (1%nat :: x)].
Proof. intros S. unfold column. rewrite S. reflexivity. Qed.

Lemma split_none c s : (forall a, In a (list_ascii_of_string s) -> a <> c) -> split_on c s = [s].
Proof.
  induction s as [|a s IH]; intros H; [reflexivity|]. cbn [split_on]. destruct (Ascii.eqb_spec a c) as [E|_]; [exfalso; apply (H a); [left; reflexivity|exact E]|].
  rewrite IH; [reflexivity|]. intros b Hb. apply H. right. exact Hb.
Qed.

(** ** C55 *)
Lemma exchange_unpol lib vg xt f d G vol n1 n2 n3 : let ns := [n1; n2; n3] in
  exchange_name xt -> lib xt false = Some f -> tshape d = 1%nat :: ns ->
  e_xc (xc_density lib vg) d G vol xt false = Ok (vol / INR (nprod ns) * sumR (indices ns) (fun x => tget d (0%nat :: x) * f [tget d (0%nat :: x)] [])).
Proof.
  intros ns (Hs & Hx & Hg) Hf Sd.
  assert (E : xc_density lib vg d G false xt = Ok (tmap RtoC (mkT ns (fun x => f [tget d (0%nat :: x)] [] + 0)))).
  { unfold xc_density. rewrite Hg, Hs. unfold lda_sum, lda. cbn [mapM bind]. rewrite Sd. unfold pick, is_exchange. rewrite Hx. cbn [Nat.eqb andb orb negb]. rewrite Hf. cbn [bind mapM rmap tl].
    unfold tmap, sum_grids. cbn [tshape tget sumR]. unfold lda_at, column. rewrite ?Sd. cbn [hd tl seq map andb nth]. reflexivity. }
  rewrite (e_xc_real _ d G vol xt false 1 n1 n2 n3 _ ns Sd eq_refl E). f_equal. f_equal. apply sumR_ext. intros x _. cbn [seq sumR]. ring.
Qed.

Lemma exchange_pol lib vg xt f d G vol n1 n2 n3 : let ns := [n1; n2; n3] in
  exchange_name xt -> lib xt false = Some f -> tshape d = 2%nat :: ns ->
  let u x := tget d (0%nat :: x) in let w x := tget d (1%nat :: x) in
  e_xc (xc_density lib vg) d G vol xt false =
    Ok (vol / INR (nprod ns) * sumR (indices ns) (fun x => (u x + w x) * (/ 2 * (f [2 * u x] [] + f [2 * w x] [])))).
Proof.
  intros ns (Hs & Hx & Hg) Hf Sd u w.
  assert (E : xc_density lib vg d G false xt = Ok (tmap RtoC (mkT ns (fun x => / 2 * (f [2 * u x] [] + f [2 * w x] []) + 0)))).
  { unfold xc_density. rewrite Hg, Hs. unfold lda_sum, lda. cbn [mapM bind]. rewrite Sd. unfold pick, is_exchange. rewrite Hx. cbn [Nat.eqb andb orb negb]. rewrite Hf. cbn [bind mapM rmap tl].
    unfold tmap, sum_grids. cbn [tshape tget sumR]. unfold lda_at, column. rewrite ?Sd. cbn [hd tl seq map andb nth]. reflexivity. }
  rewrite (e_xc_real _ d G vol xt false 2 n1 n2 n3 _ ns Sd eq_refl E). f_equal. f_equal. apply sumR_ext. intros x _. cbn [seq sumR]. unfold u, w. ring.
Qed.

Lemma spin_scaling lib vg xt f d G vol n1 n2 n3 : let ns := [n1; n2; n3] in
  exchange_name xt -> lib xt false = Some f -> tshape d = 2%nat :: ns ->
  let u x := tget d (0%nat :: x) in let w x := tget d (1%nat :: x) in
  exists e eu ew, e_xc (xc_density lib vg) d G vol xt false = Ok e /\
    e_xc (xc_density lib vg) (mkT (1%nat :: ns) (fun i => 2 * u (tl i))) G vol xt false = Ok eu /\
    e_xc (xc_density lib vg) (mkT (1%nat :: ns) (fun i => 2 * w (tl i))) G vol xt false = Ok ew /\
    (eu + ew) / 2 - e = vol / (2 * INR (nprod ns)) * sumR (indices ns) (fun x => (u x - w x) * (f [2 * u x] [] - f [2 * w x] [])).
Proof.
  intros ns Hn Hf Sd u w. pose proof (exchange_pol lib vg xt f d G vol n1 n2 n3 Hn Hf Sd) as E. cbv zeta in E. fold ns u w in E.
  pose proof (exchange_unpol lib vg xt f (mkT (1%nat :: ns) (fun i => 2 * u (tl i))) G vol n1 n2 n3 Hn Hf eq_refl) as Eu.
  pose proof (exchange_unpol lib vg xt f (mkT (1%nat :: ns) (fun i => 2 * w (tl i))) G vol n1 n2 n3 Hn Hf eq_refl) as Ew. fold ns in Eu, Ew. cbn [tget tl] in Eu, Ew.
  do 3 eexists. split; [exact E|]. split; [exact Eu|]. split; [exact Ew|]. unfold Rdiv. rewrite Rinv_mult.
  set (c := vol * / INR (nprod ns)). replace (vol * (/ 2 * / INR (nprod ns))) with (c * / 2) by (unfold c; ring).
  rewrite <- !sumR_scal, <- sumR_plus, <- sumR_scal_r, <- sumR_minus. apply sumR_ext. intros x _. field.
Qed.

Lemma spin_scaling_equal lib vg xt f d G vol n1 n2 n3 : let ns := [n1; n2; n3] in
  exchange_name xt -> lib xt false = Some f -> tshape d = 2%nat :: ns ->
  (forall x, inb x ns -> tget d (0%nat :: x) = tget d (1%nat :: x)) ->
  exists e, e_xc (xc_density lib vg) d G vol xt false = Ok e /\
    e_xc (xc_density lib vg) (mkT (1%nat :: ns) (fun i => 2 * tget d (0%nat :: tl i))) G vol xt false = Ok e.
Proof.
  intros ns Hn Hf Sd Heq. pose proof (exchange_pol lib vg xt f d G vol n1 n2 n3 Hn Hf Sd) as E. cbv zeta in E. fold ns in E.
  pose proof (exchange_unpol lib vg xt f (mkT (1%nat :: ns) (fun i => 2 * tget d (0%nat :: tl i))) G vol n1 n2 n3 Hn Hf eq_refl) as Eu. fold ns in Eu. cbn [tget tl] in Eu.
  eexists. split; [exact E|]. rewrite Eu. f_equal. f_equal. apply sumR_ext. intros x Hx. apply in_indices in Hx. rewrite <- (Heq x Hx). field.
Qed.

(** For a strictly decreasing energy per particle the energy returned is too high whenever the
    two spin densities differ somewhere. *)
Lemma spin_scaling_strict lib vg xt f d G vol n1 n2 n3 : let ns := [n1; n2; n3] in
  exchange_name xt -> lib xt false = Some f -> (forall a b, 0 <= a < b -> f [b] [] < f [a] []) -> 0 < vol ->
  tshape d = 2%nat :: ns -> (forall i, inb i (tshape d) -> 0 <= tget d i) ->
  (exists x, inb x ns /\ tget d (0%nat :: x) <> tget d (1%nat :: x)) ->
  exists e eu ew, e_xc (xc_density lib vg) d G vol xt false = Ok e /\
    e_xc (xc_density lib vg) (mkT (1%nat :: ns) (fun i => 2 * tget d (0%nat :: tl i))) G vol xt false = Ok eu /\
    e_xc (xc_density lib vg) (mkT (1%nat :: ns) (fun i => 2 * tget d (1%nat :: tl i))) G vol xt false = Ok ew /\
    (eu + ew) / 2 < e.
Proof.
  intros ns Hn Hf Hdec Hv Sd Hp (x0 & Hx0 & Hne). destruct (spin_scaling lib vg xt f d G vol n1 n2 n3 Hn Hf Sd) as (e & eu & ew & E & Eu & Ew & H).
  fold ns in H, Eu, Ew. exists e, eu, ew. repeat split; auto.
  set (F x := (tget d (0%nat :: x) - tget d (1%nat :: x)) * (f [2 * tget d (0%nat :: x)] [] - f [2 * tget d (1%nat :: x)] [])) in H.
  assert (Hlt : forall a b, 0 <= a -> 0 <= b -> a <> b -> (a - b) * (f [2 * a] [] - f [2 * b] []) < 0).
  { intros a b Ha Hb Hab. destruct (Rtotal_order a b) as [L|[L|L]]; [|lra|].
    - pose proof (Hdec (2 * a) (2 * b) ltac:(lra)). nra.
    - pose proof (Hdec (2 * b) (2 * a) ltac:(lra)). nra. }
  assert (HF : forall x, inb x ns -> F x <= 0).
  { intros x Hx. unfold F. assert (P0 : 0 <= tget d (0%nat :: x)) by (apply Hp; rewrite Sd; constructor; [lia|exact Hx]). assert (P1 : 0 <= tget d (1%nat :: x)) by (apply Hp; rewrite Sd; constructor; [lia|exact Hx]).
    destruct (Req_dec (tget d (0%nat :: x)) (tget d (1%nat :: x))) as [Q|Q]; [rewrite Q; lra|]. left. apply Hlt; assumption. }
  assert (HF0 : F x0 < 0).
  { unfold F. apply Hlt; [apply Hp; rewrite Sd; constructor; [lia|exact Hx0]|apply Hp; rewrite Sd; constructor; [lia|exact Hx0]|exact Hne]. }
  assert (Hs : sumR (indices ns) F < 0).
  { pose proof (sumR_ge_term (indices ns) (fun x => - F x) x0) as T.
    assert (T' : - F x0 <= sumR (indices ns) (fun x => - F x)).
    { apply T; [intros x Hx; apply in_indices in Hx; pose proof (HF x Hx); lra|apply in_indices, Hx0]. }
    rewrite sumR_opp in T'. lra. }
  assert (HN : 0 < INR (nprod ns)) by (apply lt_0_INR, nprod_pos, (inb_pos _ _ Hx0)).
  assert (Hc : 0 < vol / (2 * INR (nprod ns))) by (apply Rdiv_lt_0_compat; lra).
  change (fun x => (tget d (0%nat :: x) - tget d (1%nat :: x)) * (f [2 * tget d (0%nat :: x)] [] - f [2 * tget d (1%nat :: x)] [])) with F in H. nra.
Qed.

(** ** C56 *)
Lemma derive_lin_mult (g : R -> R) (a c : R) : ex_derive g a -> is_derive (fun r => (r + c) * g r) a (Derive g a * a + g a + c * Derive g a).
Proof. intros D. auto_derive; [exact D|idtac]. change (fun x : R => g x) with g. ring. Qed.
Lemma derive_r_mult (g : R -> R) (a : R) : ex_derive g a -> is_derive (fun r => r * g r) a (Derive g a * a + g a).
Proof. intros D. auto_derive; [exact D|]. change (fun x : R => g x) with g. ring. Qed.

Lemma vxc_lda_unpol (exc : list R -> R) (d : tensor R) ns : tshape d = 1%nat :: ns -> (forall x, inb x ns -> ex_derive (fun r => exc [r]) (tget d (0%nat :: x))) ->
  exists v, vxc_lda exc d = Ok v /\ tshape v = 1%nat :: ns /\
    forall x, inb x ns -> is_derive (fun r => r * exc [r]) (tget d (0%nat :: x)) (tget v (0%nat :: x)).
Proof.
  intros Sd Hex. unfold vxc_lda. rewrite Sd. cbn [Nat.eqb orb]. eexists. split; [reflexivity|]. split; [reflexivity|]. intros x Hx. cbn [tget hd tl].
  rewrite (column1 d ns x Sd). cbn [nth upd].
  apply (derive_r_mult (fun r => exc [r])), Hex, Hx.
Qed.

Lemma vxc_lda_pol (exc : list R -> R) (d : tensor R) ns : tshape d = 2%nat :: ns ->
  (forall x, inb x ns -> ex_derive (fun r => exc [r; tget d (1%nat :: x)]) (tget d (0%nat :: x)) /\ ex_derive (fun r => exc [tget d (0%nat :: x); r]) (tget d (1%nat :: x))) ->
  exists v, vxc_lda exc d = Ok v /\ tshape v = 2%nat :: ns /\
    forall x, inb x ns -> let u := tget d (0%nat :: x) in let w := tget d (1%nat :: x) in
      is_derive (fun r => (r + w) * exc [r; w]) u (tget v (0%nat :: x) + w * Derive (fun r => exc [r; w]) u) /\
      is_derive (fun r => (u + r) * exc [u; r]) w (tget v (1%nat :: x) + u * Derive (fun r => exc [u; r]) w).
Proof.
  intros Sd Hex. unfold vxc_lda. rewrite Sd. cbn [Nat.eqb orb]. eexists. split; [reflexivity|]. split; [reflexivity|]. intros x Hx. set (u := tget d (0%nat :: x)). set (w := tget d (1%nat :: x)). cbv zeta. cbn [tget hd tl].
  rewrite (column2 d ns x Sd). cbn [nth upd]. fold u w. destruct (Hex x Hx) as [D1 D2]. fold u w in D1, D2. split.
  - apply (derive_lin_mult (fun r => exc [r; w]) u w D1).
  - apply (is_derive_ext (fun r => (r + u) * exc [u; r])); [intros r; f_equal; apply Rplus_comm|]. apply (derive_lin_mult (fun r => exc [u; r]) w u D2).
Qed.

Lemma vxc_lda_pol_wrong : exists (exc : list R -> R) (d v : tensor R), tshape d = [2; 1; 1; 1]%nat /\ vxc_lda exc d = Ok v /\
  let u := tget d [0; 0; 0; 0]%nat in let w := tget d [1; 0; 0; 0]%nat in
  ~ is_derive (fun r => (r + w) * exc [r; w]) u (tget v [0; 0; 0; 0]%nat).
Proof.
  exists (fun l => nth 0 l 0 + nth 1 l 0), (mkT [2; 1; 1; 1]%nat (fun _ => 1)). eexists. split; [reflexivity|]. split; [reflexivity|]. cbv zeta.
  cbn [tget hd tl column tshape seq map nth upd]. intros H.
  assert (D : Derive (fun x : R => x + 1) 1 = 1) by (apply is_derive_unique; auto_derive; [exact I|ring]).
  rewrite D in H. apply is_derive_unique in H.
  assert (D2 : Derive (fun r : R => (r + 1) * (r + 1)) 1 = 4) by (apply is_derive_unique; auto_derive; [exact I|ring]).
  assert (E : Derive (fun r : R => (r + 1) * (r + 1)) 1 = 1 * 1 + (1 + 1)) by exact H. lra.
Qed.
