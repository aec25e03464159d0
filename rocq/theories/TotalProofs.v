(** Proofs about the effective potential, kinetic energy and total energy. *)
From Coq Require Import List Arith ZArith Reals Bool Lra Lia ZifyBool Permutation.
From Coquelicot Require Import Complex.
From Verif Require Import Base Sums Tensor DFT GridModel GridProofs Lin3 VecModel VecProofs OccModel OccSpec OccProofs PwModel PwSpec PwProofs BraketModel BraketSpec BraketProofs EnergyModel EnergySpec EnergyProofs ExtProofs.
Import ListNotations.
Local Open Scope C_scope.

(** ** C45 *)
Lemma bind_ok {X Y} (r : res X) (f : X -> res Y) y : bind r f = Ok y -> exists x, r = Ok x /\ f x = Ok y.
Proof. destruct r as [x|e]; cbn; [|discriminate]. eauto. Qed.

Lemma effective_parts xcd dens pos ch G vol xt ks sp n1 n2 n3 vxc : let ns := [n1; n2; n3] in
  tshape dens = sp :: ns -> tshape G = ns -> length ch = length pos -> xcd dens G ks xt = Ok vxc ->
  exists D vhr ver vh ve, fftn3 (tmap RtoC dens) = Ok D /\ hartree_reciprocal D G ks = Ok vhr /\ ifftn3 vhr = Ok vh /\
    external_reciprocal pos ch G vol = Ok ver /\ ifftn3 ver = Ok ve /\ tshape vh = ns /\ tshape ve = ns /\ tshape D = sp :: ns /\
    (forall s g, tget D (s :: g) = dft ns (fun x => RtoC (tget dens (s :: x))) g) /\
    (forall x, tget vh x = idft ns (tget vhr) x) /\ (forall x, tget ve x = idft ns (tget ver) x) /\
    effective_split xcd dens pos ch G vol xt ks = Ok (vh, ve, vxc).
Proof.
  intros ns Sd SG Hl Hx.
  destruct (fftn3_eq (tmap RtoC dens) [sp] ns eq_refl Sd) as (D & HD & SD & GD).
  destruct (external_eq pos ch G vol n1 n2 n3 SG Hl) as (ver & Ev & Sv & _).
  assert (H : exists vhr, hartree_reciprocal D G ks = Ok vhr /\ tshape vhr = ns).
  { unfold hartree_reciprocal, ndim. rewrite SD, SG. cbn [app length ns Nat.eqb negb].
    match goal with |- context [tzip ?f ?a ?b] => destruct (tzip_same f a b) as (t & -> & St & Gt); [rewrite (tsum0_shape D sp ns SD); reflexivity|] end.
    cbn [bind]. eexists. split; [reflexivity|]. rewrite (tsum0_shape D sp ns SD) in St. exact St. }
  destruct H as (vhr & Eh & Sh).
  destruct (ifftn3_eq vhr [] ns eq_refl Sh) as (vh & Ivh & Svh & Gvh).
  destruct (ifftn3_eq ver [] ns eq_refl Sv) as (ve & Ive & Sve & Gve).
  exists D, vhr, ver, vh, ve. repeat split; auto.
  - intros s g. change (s :: g) with ([s] ++ g). rewrite GD by reflexivity. reflexivity.
  - intros x. apply (Gvh [] x eq_refl).
  - intros x. apply (Gve [] x eq_refl).
  - unfold effective_split, ndim. rewrite Sd. cbn [length ns Nat.eqb orb negb]. rewrite HD. cbn [bind]. rewrite Eh. cbn [bind]. rewrite Ev. cbn [bind].
    rewrite Hx. cbn [bind]. rewrite Ivh. cbn [bind]. rewrite Ive. reflexivity.
Qed.

Lemma effective_adds xcd dens pos ch G vol xt ks sp n1 n2 n3 vxc : let ns := [n1; n2; n3] in
  tshape dens = sp :: ns -> tshape G = ns -> length ch = length pos -> xcd dens G ks xt = Ok vxc -> tshape vxc = sp :: ns \/ tshape vxc = ns ->
  exists vh ve v, effective_split xcd dens pos ch G vol xt ks = Ok (vh, ve, vxc) /\ tshape vh = ns /\ tshape ve = ns /\
    effective_sum xcd dens pos ch G vol xt ks = Ok v /\
    ((tshape vxc = sp :: ns /\ tshape v = sp :: ns /\ forall s x, (s < sp)%nat -> inb x ns -> tget v (s :: x) = tget vh x + tget ve x + tget vxc (s :: x)) \/
     (tshape vxc = ns /\ tshape v = 1%nat :: ns /\ forall x, inb x ns -> tget v (0%nat :: x) = tget vh x + tget ve x + tget vxc x)).
Proof.
  intros ns Sd SG Hl Hx Sx.
  destruct (effective_parts xcd dens pos ch G vol xt ks sp n1 n2 n3 vxc Sd SG Hl Hx) as (D & vhr & ver & vh & ve & _ & _ & _ & _ & _ & Svh & Sve & _ & _ & _ & _ & E).
  exists vh, ve. unfold effective_sum. rewrite E. cbn [bind].
  destruct (tzip_same Cplus (expand0 vh) (expand0 ve)) as (a & -> & Sa & Ga); [cbn; rewrite Svh, Sve; reflexivity|]. cbn [bind].
  assert (Sa' : tshape a = (1 :: ns)%nat) by (rewrite Sa; cbn; rewrite Svh; reflexivity).
  assert (Ga' : forall x, inb x ns -> tget a (0%nat :: x) = tget vh x + tget ve x).
  { intros x Hx'. rewrite Ga; [reflexivity|]. cbn. rewrite Svh. constructor; [lia|exact Hx']. }
  destruct Sx as [Sx|Sx].
  - destruct (tzip_lead1 Cplus a vxc sp n1 n2 n3 Sa' Sx) as (v & Ev & Sv & Gv). exists v. repeat split; auto. left. repeat split; auto.
    intros s x Hs Hx'. rewrite Gv, Ga' by assumption. reflexivity.
  - assert (Hz : exists v, tzip Cplus a vxc = Ok v /\ tshape v = (1 :: ns)%nat /\ forall x, inb x ns -> tget v (0%nat :: x) = tget a (0%nat :: x) + tget vxc x).
    { unfold tzip. rewrite Sa', Sx. change (1%nat :: ns) with ([1%nat] ++ ns). rewrite bshape_suffix. eexists. split; [reflexivity|]. split; [reflexivity|].
      intros x Hx'. cbn [tget]. rewrite (bidx_inb ([1%nat] ++ ns)) by (constructor; [lia|exact Hx']).
      change (0%nat :: x) with ([0%nat] ++ x) at 2. rewrite bidx_suffix by exact Hx'. reflexivity. }
    destruct Hz as (v & Ev & Sv & Gv). exists v. repeat split; auto. right. repeat split; auto. intros x Hx'. rewrite Gv, Ga' by assumption. reflexivity.
Qed.
Lemma effective_rank3 xcd dens pos ch G vol xt ks n1 n2 n3 : tshape dens = [n1; n2; n3] ->
  effective_split xcd dens pos ch G vol xt ks = effective_split xcd (expand0 dens) pos ch G vol xt ks.
Proof. intros S. unfold effective_split, ndim, expand0. rewrite S. reflexivity. Qed.

(** ** C46 *)
Definition ekin (G : tensor v3) (kpts : list v3) (c : tensor C) (ns : list nat) (s k b : nat) : R :=
  sumR (indices ns) (fun g => norm2 (vadd (tget G g) (nth k kpts vzero)) * Cnorm2 (tget c ([s; k; b] ++ g)))%R.

Lemma bshape_kin K sp B n1 n2 n3 : bshape [1%nat; K; 1%nat; n1; n2; n3] [sp; K; B; n1; n2; n3] = Some [sp; K; B; n1; n2; n3].
Proof.
  change (option_map (@rev nat) (bshape_rev [n3; n2; n1; 1%nat; K; 1%nat] [n3; n2; n1; B; K; sp]) = Some [sp; K; B; n1; n2; n3]).
  rewrite (bshape_rev_same n3 _ [n2; n1; B; K; sp] [n2; n1; B; K; sp]); [reflexivity|].
  apply bshape_rev_same, bshape_rev_same, bshape_rev_one_l, bshape_rev_same, bshape_rev_one_l. reflexivity.
Qed.

Lemma kinetic_none G kpts c sp B n1 n2 n3 : let ns := [n1; n2; n3] in tshape G = ns -> tshape c = [sp; length kpts; B] ++ ns ->
  exists t, e_kinetic G kpts c None = Ok t /\ tshape t = [sp; length kpts; B] /\
    forall s k b, (s < sp)%nat -> (k < length kpts)%nat -> (b < B)%nat -> tget t [s; k; b] = (ekin G kpts c ns s k b / 2)%R.
Proof.
  intros ns SG Sc. unfold e_kinetic, ndim. rewrite SG. cbn [length ns Nat.eqb negb].
  unfold tzip. cbn [tshape app]. unfold absolute_square, tmap. cbn [tshape]. rewrite Sc. cbn [app ns]. change (bshape (1%nat :: length kpts :: 1%nat :: ns) (sp :: length kpts :: B :: ns)) with (bshape [1%nat; length kpts; 1%nat; n1; n2; n3] [sp; length kpts; B; n1; n2; n3]). rewrite bshape_kin. cbn [bind tshape length Nat.eqb negb].
  eexists. split; [reflexivity|]. split; [reflexivity|]. intros s k b Hs Hk Hb. cbn [tget]. f_equal. unfold ekin. cbn [tshape]. fold ns.
  apply sumR_ext. intros g Hg. apply in_indices in Hg.
  rewrite (bidx_inb (sp :: length kpts :: B :: ns)) by (repeat (constructor; [assumption|]); exact Hg).
  unfold bidx. cbn [length app ns]. rewrite (inb_length _ _ Hg). cbn [length ns Nat.sub skipn].
  change [1%nat; length kpts; 1%nat; n1; n2; n3] with (1%nat :: length kpts :: 1%nat :: ns). cbn [clip1 Nat.eqb]. rewrite clip1_inb by exact Hg. cbn [nth skipn].
  rewrite Cconj_mult_self. f_equal. unfold norm2. destruct (Nat.eqb_spec (length kpts) 1) as [E|E]; [|reflexivity].
  replace k with 0%nat by lia. reflexivity.
Qed.

Lemma sumR_3 a b c (f : list nat -> R) :
  sumR (indices [a; b; c]) f = sumR (seq 0 a) (fun i => sumR (seq 0 b) (fun j => sumR (seq 0 c) (fun k => f [i; j; k]))).
Proof. rewrite sumR_indices_cons. apply sumR_ext. intros i _. apply sumR_KB. Qed.

Lemma kinetic_some G kpts c occ sp B n1 n2 n3 : let ns := [n1; n2; n3] in tshape G = ns -> tshape c = [sp; length kpts; B] ++ ns ->
  tshape occ = [sp; length kpts; B] ->
  exists t, e_kinetic G kpts c (Some occ) = Ok t /\ tshape t = [] /\
    tget t [] = (sumR (seq 0 sp) (fun s => sumR (seq 0 (length kpts)) (fun k => sumR (seq 0 B) (fun b => ekin G kpts c ns s k b * tget occ [s; k; b]))) / 2)%R.
Proof.
  intros ns SG Sc So. destruct (kinetic_none G kpts c sp B n1 n2 n3 SG Sc) as (t0 & E0 & S0 & G0).
  unfold e_kinetic in *. destruct (negb _); [discriminate|]. destruct (tzip _ _ _) as [p|]; cbn [bind] in *; [|discriminate].
  destruct (negb (ndim p =? 6)%nat); [discriminate|]. injection E0 as <-. cbn [tmap tshape tget] in *.
  set (e := mkT (lead p) _). destruct (tzip_same Rmult e occ) as (q & -> & Sq & Gq); [cbn; congruence|]. cbn [bind].
  eexists. split; [reflexivity|]. split; [reflexivity|]. cbn [tget]. f_equal. change (tshape e) with (lead p) in *. rewrite Sq, S0, sumR_3.
  apply sumR_ext. intros s Hs. apply sumR_ext. intros k Hk. apply sumR_ext. intros b Hb. apply in_seq in Hs, Hk, Hb.
  rewrite Gq by (rewrite S0; repeat constructor; lia). f_equal. unfold e. cbn [tget]. specialize (G0 s k b ltac:(lia) ltac:(lia) ltac:(lia)). fold ns in G0. lra.
Qed.

Lemma ekin_nonneg G kpts c ns s k b : (0 <= ekin G kpts c ns s k b)%R.
Proof. apply sumR_nonneg. intros g _. apply Rmult_le_pos; [apply norm2_ge0|apply Cnorm2_nonneg]. Qed.
Lemma ekin_zero G kpts c ns s k b : ekin G kpts c ns s k b = 0%R <->
  forall g, inb g ns -> tget c ([s; k; b] ++ g) <> RtoC 0 -> vadd (tget G g) (nth k kpts vzero) = vzero.
Proof.
  split.
  - intros E g Hg Hne. assert (Z := sumR_nonneg_zero _ _ (fun y Hy => Rmult_le_pos _ _ (norm2_ge0 (vadd (tget G y) (nth k kpts vzero))) (Cnorm2_nonneg (tget c ([s; k; b] ++ y)))) E g (proj2 (in_indices ns g) Hg)).
    cbn beta in Z. apply Rmult_integral in Z. destruct Z as [Z|Z]; [apply norm2_zero, Z|]. apply Cnorm2_zero in Z. contradiction.
  - intros H. apply sumR_zero. intros g Hg. apply in_indices in Hg.
    destruct (Req_dec (Cnorm2 (tget c ([s; k; b] ++ g))) 0) as [Z|Z]; [cbn [app] in *; rewrite Z; ring|].
    rewrite (H g Hg); [|intros Q; apply Z; rewrite Q; unfold Cnorm2, RtoC; cbn; ring]. unfold norm2, dot, vzero. cbn. ring.
Qed.

Lemma kinetic_facts G kpts c sp B n1 n2 n3 : let ns := [n1; n2; n3] in let K := length kpts in
  tshape G = ns -> tshape c = [sp; K; B] ++ ns ->
  (forall occ, tshape occ = [sp; K; B] -> exists t, e_kinetic G kpts c (Some occ) = Ok t /\ tshape t = [] /\
     tget t [] = sumR (indices ([sp; K; B] ++ ns)) (fun i =>
       tget occ (firstn 3 i) * Cnorm2 (tget c i) * (norm2 (vadd (tget G (skipn 3 i)) (nth (nth 1 i 0%nat) kpts vzero)) / 2))%R) /\
  (forall occ t, tshape occ = [sp; K; B] -> (forall i, inb i [sp; K; B] -> (0 <= tget occ i)%R) -> e_kinetic G kpts c (Some occ) = Ok t ->
     (0 <= tget t [])%R /\
     (tget t [] = 0%R <-> forall s k b g, (s < sp)%nat -> (k < K)%nat -> (b < B)%nat -> inb g ns ->
         tget occ [s; k; b] <> 0%R -> tget c ([s; k; b] ++ g) <> RtoC 0 -> vadd (tget G g) (nth k kpts vzero) = vzero)).
Proof.
  intros ns K SG Sc. split.
  - intros occ So. destruct (kinetic_some G kpts c occ sp B n1 n2 n3 SG Sc So) as (t & E & S & V). exists t. repeat split; auto.
    rewrite V, sumR_indices_app, sumR_3. unfold Rdiv at 1. rewrite <- sumR_scal_r. apply sumR_ext. intros s _. rewrite <- sumR_scal_r. apply sumR_ext. intros k _.
    rewrite <- sumR_scal_r. apply sumR_ext. intros b _. unfold ekin. fold ns. rewrite <- !sumR_scal_r. apply sumR_ext. intros g _. cbn [firstn skipn nth app]. field.
  - intros occ t So Hp Et. destruct (kinetic_some G kpts c occ sp B n1 n2 n3 SG Sc So) as (t' & E & S & V). rewrite E in Et. injection Et as <-. fold ns K in V.
    assert (P : forall s k b, In s (seq 0 sp) -> In k (seq 0 K) -> In b (seq 0 B) -> (0 <= ekin G kpts c ns s k b * tget occ [s; k; b])%R).
    { intros s k b Hs Hk Hb. apply in_seq in Hs, Hk, Hb. apply Rmult_le_pos; [apply ekin_nonneg|apply Hp; repeat constructor; lia]. }
    assert (P1 : forall s k, In s (seq 0 sp) -> In k (seq 0 K) -> (0 <= sumR (seq 0 B) (fun b => ekin G kpts c ns s k b * tget occ [s; k; b]))%R)
      by (intros; apply sumR_nonneg; intros; apply P; assumption).
    assert (P2 : forall s, In s (seq 0 sp) -> (0 <= sumR (seq 0 K) (fun k => sumR (seq 0 B) (fun b => ekin G kpts c ns s k b * tget occ [s; k; b])))%R)
      by (intros; apply sumR_nonneg; intros; apply P1; assumption).
    assert (P3 := sumR_nonneg _ _ P2). rewrite V. split; [lra|]. split.
    + intros Z s k b g Hs Hk Hb Hg Ho Hc.
      assert (Z0 : sumR (seq 0 sp) (fun s => sumR (seq 0 K) (fun k => sumR (seq 0 B) (fun b => ekin G kpts c ns s k b * tget occ [s; k; b])))%R = 0%R) by lra.
      assert (Is : In s (seq 0 sp)) by (apply in_seq; lia). assert (Ik : In k (seq 0 K)) by (apply in_seq; lia). assert (Ib : In b (seq 0 B)) by (apply in_seq; lia).
      pose proof (sumR_nonneg_zero _ _ P2 Z0 s Is) as Z1. cbn beta in Z1.
      pose proof (sumR_nonneg_zero _ _ (fun k Hk => P1 s k Is Hk) Z1 k Ik) as Z2. cbn beta in Z2.
      pose proof (sumR_nonneg_zero _ _ (fun b Hb => P s k b Is Ik Hb) Z2 b Ib) as Z3. cbn beta in Z3.
      apply Rmult_integral in Z3. destruct Z3 as [Z3|Z3]; [|contradiction]. apply (proj1 (ekin_zero G kpts c ns s k b) Z3 g Hg Hc).
    + intros H. rewrite sumR_zero; [lra|]. intros s Hs. apply sumR_zero. intros k Hk. apply sumR_zero. intros b Hb. apply in_seq in Hs, Hk, Hb.
      destruct (Req_dec (tget occ [s; k; b]) 0) as [Z|Z]; [rewrite Z; ring|].
      rewrite (proj2 (ekin_zero G kpts c ns s k b)); [ring|]. intros g Hg Hc. apply (H s k b g); auto; lia.
Qed.

(** linear in the occupation *)
Lemma kinetic_linear G kpts c sp B n1 n2 n3 o1 o2 a b : let ns := [n1; n2; n3] in let K := length kpts in
  tshape G = ns -> tshape c = [sp; K; B] ++ ns -> tshape o1 = [sp; K; B] -> tshape o2 = [sp; K; B] ->
  exists t1 t2 t, e_kinetic G kpts c (Some o1) = Ok t1 /\ e_kinetic G kpts c (Some o2) = Ok t2 /\
    e_kinetic G kpts c (Some (mkT [sp; K; B] (fun i => a * tget o1 i + b * tget o2 i)%R)) = Ok t /\
    tget t [] = (a * tget t1 [] + b * tget t2 [])%R.
Proof.
  intros ns K SG Sc S1 S2.
  destruct (kinetic_some G kpts c o1 sp B n1 n2 n3 SG Sc S1) as (t1 & E1 & _ & V1).
  destruct (kinetic_some G kpts c o2 sp B n1 n2 n3 SG Sc S2) as (t2 & E2 & _ & V2).
  destruct (kinetic_some G kpts c (mkT [sp; K; B] (fun i => a * tget o1 i + b * tget o2 i)%R) sp B n1 n2 n3 SG Sc eq_refl) as (t & E & _ & V).
  exists t1, t2, t. repeat split; auto. rewrite V, V1, V2. unfold Rdiv. rewrite <- !Rmult_assoc, <- Rmult_plus_distr_r. f_equal.
  rewrite <- !sumR_scal, <- sumR_plus. apply sumR_ext. intros s _. rewrite <- !sumR_scal, <- sumR_plus. apply sumR_ext. intros k _.
  rewrite <- !sumR_scal, <- sumR_plus. apply sumR_ext. intros x _. cbn [tget]. ring.
Qed.

(** agreement with kinetic_operator and braket.expectation *)
Lemma kinetic_as_expectation G kpts c sp B n1 n2 n3 vol : let ns := [n1; n2; n3] in let K := length kpts in
  tshape G = ns -> tshape c = [sp; K; B] ++ ns ->
  exists t E, e_kinetic G kpts c None = Ok t /\ expectation c (tmap RtoC (kinetic_operator G (Some kpts))) vol None true KineticMode = Ok E /\
    tshape t = tshape E /\ forall i, inb i [sp; K; B] -> tget E i = RtoC (tget t i).
Proof.
  intros ns K SG Sc. destruct (kinetic_none G kpts c sp B n1 n2 n3 SG Sc) as (t & Et & St & Gt).
  assert (Hh : ham_ok (tmap RtoC (kinetic_operator G (Some kpts))) K ns) by (right; left; cbn; rewrite SG; reflexivity).
  destruct (expectation_full c c (tmap RtoC (kinetic_operator G (Some kpts))) vol KineticMode sp K B B n1 n2 n3 ltac:(discriminate) Sc Sc Hh) as (E & HE & _ & GE).
  destruct (expectation_diag c c (tmap RtoC (kinetic_operator G (Some kpts))) vol KineticMode sp K B n1 n2 n3 E ltac:(discriminate) Sc Sc Hh HE) as (D & HD & SD & GD).
  exists t, D. split; [exact Et|]. split; [exact HD|]. split; [rewrite St, SD; reflexivity|]. intros i Hi. destruct (inb3' _ _ _ _ Hi) as (s & k & b & -> & Hs & Hk & Hb).
  rewrite GD, GE, Gt by assumption. cbn [efactor]. unfold ekin. fold ns. unfold Rdiv. rewrite <- sumR_scal_r, <- sumC_RtoC.
  rewrite Cmult_1_l. apply sumC_ext. intros g Hg.
  assert (Eh : ham_at (tmap RtoC (kinetic_operator G (Some kpts))) k g = RtoC (norm2 (vadd (tget G g) (nth k kpts vzero)) / 2)).
  { unfold ham_at, ndim. cbn [tmap kinetic_operator tshape length]. rewrite SG. cbn [length ns Nat.eqb hd tget tmap kinetic_operator tl].
    unfold norm2. destruct (Nat.eqb_spec (length kpts) 1) as [Q|Q]; [replace k with 0%nat by (unfold K in *; lia)|]; reflexivity. }
  rewrite Eh, <- Cmult_assoc, (Cmult_comm (RtoC _) (tget c _)), Cmult_assoc, Cconj_mult_self, <- RtoC_mult. f_equal. cbn [app]. unfold Rdiv. ring.
Qed.

(** ** C47 *)
Lemma total_split xcd c pos ch G kpts vol occ ks xt e : total_energy xcd c pos ch G kpts vol occ ks xt = Ok e <->
  exists ek ee eh ex, total_energy_split xcd c pos ch G kpts vol occ ks xt = Ok (ek, ee, eh, ex) /\ e = (ek + ee + eh + ex)%R.
Proof.
  unfold total_energy. destruct (total_energy_split _ _ _ _ _ _ _ _ _ _) as [[[[ek ee] eh] ex]|x]; cbn [bind]; split.
  - intros H. injection H as <-. exists ek, ee, eh, ex. auto.
  - intros (a & b & d & f & H & ->). injection H as -> -> -> ->. reflexivity.
  - discriminate.
  - intros (a & b & d & f & H & _). discriminate.
Qed.

Lemma total_separately xcd c pos ch G kpts vol occ ks xt ek ee eh ex sp K B n1 n2 n3 : let ns := [n1; n2; n3] in
  tshape c = [sp; K; B] ++ ns -> tshape occ = [sp; K; B] ->
  total_energy_split xcd c pos ch G kpts vol (Some occ) ks xt = Ok (ek, ee, eh, ex) ->
  exists d0 d D t, density_grid c vol (Some occ) = Ok d0 /\ teq d d0 /\ fftn3 (tmap RtoC d) = Ok D /\
    e_kinetic G kpts c (Some occ) = Ok t /\ ek = tget t [] /\ e_external D pos ch G vol = Ok ee /\ e_hartree D G vol ks = Ok eh /\ e_xc xcd d G vol xt ks = Ok ex.
Proof.
  intros ns Sc So H. unfold total_energy_split in H.
  apply bind_ok in H. destruct H as (w & Hw & H). cbv zeta in H. apply bind_ok in H. destruct H as (d & Hd & H). apply bind_ok in H. destruct H as (D & HD & H).
  apply bind_ok in H. destruct H as (t & Ht & H). apply bind_ok in H. destruct H as (e1 & He1 & H). apply bind_ok in H. destruct H as (e2 & He2 & H).
  apply bind_ok in H. destruct H as (e3 & He3 & H). injection H as <- <- <- <-.
  destruct (density_eq c vol occ sp K B n1 n2 n3 Sc So) as (d0 & E0 & _ & _).
  destruct (wave_to_density_eq c vol occ sp K B n1 n2 n3 w d0 Sc So Hw E0) as (d' & Ed' & Eq). rewrite Ed' in Hd. injection Hd as ->.
  exists d0, d, D, t. unfold wave_to_density_reciprocal in HD. rewrite Ed' in HD. cbn [bind] in HD. repeat split; auto; apply Eq.
Qed.

Lemma total_default_occ xcd c pos ch G kpts vol ks xt : total_energy_split xcd c pos ch G kpts vol None ks xt =
  total_energy_split xcd c pos ch G kpts vol (Some (mkT (firstn 3 (tshape c)) (fun _ => 1%R))) ks xt.
Proof. reflexivity. Qed.

(** ** C48 *)
Lemma e_kinetic_none_rank G kpts c t : e_kinetic G kpts c None = Ok t -> ndim t = 3%nat.
Proof.
  unfold e_kinetic. destruct (negb _); [discriminate|]. destruct (tzip _ _ _) as [p|]; cbn [bind]; [|discriminate].
  destruct (ndim p =? 6)%nat eqn:E; cbn [negb]; [|discriminate]. intros H. injection H as <-. apply Nat.eqb_eq in E.
  unfold ndim, tmap, lead in *. cbn [tshape]. rewrite firstn_length. unfold ndim. rewrite E. reflexivity.
Qed.
Lemma band_energy_raises xcd c pos ch G kpts vol occ ks xt : raises (band_energy xcd c pos ch G kpts vol occ ks xt).
Proof.
  unfold band_energy, raises. destruct (density_grid c vol occ) as [d|e]; cbn [bind]; [|exists e; reflexivity].
  destruct (density_grid c vol None) as [d'|e]; cbn [bind]; [|exists e; reflexivity].
  destruct (effective_sum _ _ _ _ _ _ _ _) as [v|e]; cbn [bind]; [|exists e; reflexivity].
  destruct (real_braket _ _ _) as [x|e]; cbn [bind]; [|exists e; reflexivity].
  destruct (e_kinetic G kpts c None) as [t|e] eqn:E; cbn [bind]; [|exists e; reflexivity].
  apply e_kinetic_none_rank in E. destruct (list_eq_dec _ _ _) as [S|_]; [unfold ndim in E; rewrite S in E; discriminate|]. exists AssertionErr. reflexivity.
Qed.
