(** Time reversal and reordering of k-points and bands in the total energy. *)
From Coq Require Import List Arith ZArith Reals Bool Lra Lia ZifyBool Permutation String.
From Coquelicot Require Import Complex.
From Verif Require Import Base Sums Tensor DFT GridModel GridProofs PadModel PadProofs Lin3 VecModel VecProofs OccModel OccSpec OccProofs PwModel PwSpec PwProofs
  BraketModel BraketSpec BraketProofs EnergyModel EnergySpec EnergyProofs ExtProofs TotalProofs RespProofs SymSpec.
From Coq Require Import List.
Import ListNotations.
Local Open Scope C_scope.

(** Two sets of orbitals, k-points and occupations with the same density and kinetic energy. *)
Lemma total_same xcd c c' pos ch G kpts kpts' vol occ occ' ks xt sp B n1 n2 n3 : let ns := [n1; n2; n3] in let K := length kpts in let K' := length kpts' in
  xc_local xcd ks xt -> tshape G = ns ->
  tshape c = [sp; K; B] ++ ns -> tshape c' = [sp; K'; B] ++ ns -> tshape occ = [sp; K; B] -> tshape occ' = [sp; K'; B] ->
  (forall s x, (s < sp)%nat -> inb x ns ->
    sumR (seq 0 K) (fun k => sumR (seq 0 B) (fun b => tget occ [s; k; b] * Cnorm2 (psi ns vol c [s; k; b] x)))%R =
    sumR (seq 0 K') (fun k => sumR (seq 0 B) (fun b => tget occ' [s; k; b] * Cnorm2 (psi ns vol c' [s; k; b] x)))%R) ->
  (forall s, (s < sp)%nat -> sumR (seq 0 K) (fun k => sumR (seq 0 B) (fun b => ekin G kpts c ns s k b * tget occ [s; k; b]))%R =
    sumR (seq 0 K') (fun k => sumR (seq 0 B) (fun b => ekin G kpts' c' ns s k b * tget occ' [s; k; b]))%R) ->
  total_energy_split xcd c pos ch G kpts vol (Some occ) ks xt = total_energy_split xcd c' pos ch G kpts' vol (Some occ') ks xt.
Proof.
  intros ns K K' Hx SG Sc Sc' So So' HD HK. unfold total_energy_split.
  destruct (density_eq c vol occ sp K B n1 n2 n3 Sc So) as (d & Ed & Sd & Vd).
  destruct (density_eq c' vol occ' sp K' B n1 n2 n3 Sc' So') as (d' & Ed' & Sd' & Vd').
  destruct (wave_grid_eq c vol [sp; K; B] ns eq_refl Sc) as (w & Ew & _ & _). destruct (wave_grid_eq c' vol [sp; K'; B] ns eq_refl Sc') as (w' & Ew' & _ & _).
  rewrite Ew, Ew'. cbn [bind]. destruct (wave_to_density_eq c vol occ sp K B n1 n2 n3 w d Sc So Ew Ed) as (e & Ee & He).
  destruct (wave_to_density_eq c' vol occ' sp K' B n1 n2 n3 w' d' Sc' So' Ew' Ed') as (e' & Ee' & He').
  unfold wave_to_density_reciprocal. rewrite Ee, Ee'. cbn [bind].
  assert (Hd : teq d d').
  { split; [congruence|]. intros i Hi. rewrite Sd in Hi. inversion Hi as [|s x sp' ns' Hs Hx' Q1 Q2]; subst. unfold ns in Vd, Vd'. rewrite Vd, Vd' by assumption. apply HD; assumption. }
  assert (T : teq e e') by (apply (teq_trans _ d); [exact He|]; apply (teq_trans _ d'); [exact Hd|apply teq_sym, He']).
  destruct (kinetic_some G kpts c occ sp B n1 n2 n3 SG Sc So) as (t & Et & St & Vt).
  destruct (kinetic_some G kpts' c' occ' sp B n1 n2 n3 SG Sc' So') as (t' & Et' & St' & Vt').
  rewrite Et, Et'. apply rteq_bind; [apply fftn3_teq, tmap_teq, T|]. intros D D' HDD. cbn [bind].
  rewrite (e_external_teq D D' pos ch G vol HDD). rewrite (e_hartree_teq D D' G vol ks HDD). rewrite (e_xc_teq xcd e e' G vol xt ks Hx T).
  assert (V : tget t [] = tget t' []).
  { rewrite Vt, Vt'. f_equal. apply sumR_ext. intros s Hs. apply in_seq in Hs. apply HK. lia. }
  rewrite V. reflexivity.
Qed.

(** ** Time reversal *)
Lemma idft_conj ns F x : inb x ns -> idft ns (fun g => Cconj (F (neg_index ns g))) x = Cconj (idft ns F x).
Proof.
  intros Hx. unfold idft. rewrite Cconj_mult, Cconj_R, Cconj_sum. f_equal.
  rewrite <- (sumC_reindex (indices ns) (neg_index ns) (fun g => Cconj (F (neg_index ns g)) * cis (2 * PI * phase ns (zs g) (zs x)))).
  - apply sumC_ext. intros g Hg. apply in_indices in Hg. rewrite Cconj_mult, neg_index_inv by exact Hg. f_equal.
    rewrite (cis_phase_congr ns _ _ (zs x) (inb_pos _ _ Hx) (congr_neg ns g Hg)) by (rewrite zs_length; apply (inb_length _ _ Hx)).
    rewrite phase_opp_l, cis_conj. f_equal. ring.
  - apply NoDup_indices.
  - intros g Hg. apply in_indices in Hg. apply in_indices, neg_index_inb, Hg.
  - intros g h Hg Hh E. apply in_indices in Hg, Hh. rewrite <- (neg_index_inv ns g Hg), <- (neg_index_inv ns h Hh), E. reflexivity.
Qed.
Lemma Cnorm2_conj z : Cnorm2 (Cconj z) = Cnorm2 z.
Proof. unfold Cnorm2, Cconj. destruct z. cbn. ring. Qed.
Lemma fr_neg' n i : (i < n)%nat -> (2 * i <> n)%nat -> fr n ((n - i) mod n) = (- fr n i)%R.
Proof.
  intros Hi Hne2. unfold fr. rewrite <- opp_IZR. f_equal. destruct (Nat.eq_dec i 0) as [->|Hne].
  - rewrite Nat.sub_0_r, Nat.mod_same by lia. unfold fftfreq. destruct (_ <=? _)%Z eqn:E; [lia|]. pose proof (Z.div_pos (Z.of_nat n - 1) 2 ltac:(lia) ltac:(lia)). lia.
  - rewrite Nat.mod_small by lia. unfold fftfreq. pose proof (Z.div_mod (Z.of_nat n - 1) 2 ltac:(lia)). pose proof (Z.mod_pos_bound (Z.of_nat n - 1) 2 ltac:(lia)).
    destruct (Z.of_nat (n - i) <=? _)%Z eqn:E1; destruct (Z.of_nat i <=? _)%Z eqn:E2; lia.
Qed.

Lemma g_neg' A n1 n2 n3 G x : g_vectors A [n1; n2; n3] = Ok G -> ~ unpaired [n1; n2; n3] x ->
  inb x [n1; n2; n3] -> tget G (neg_index [n1; n2; n3] x) = vneg (tget G x).
Proof.
  intros HG H Hx. unfold g_vectors in HG. destruct (vector_grid_get _ _ _ _ _ _ HG) as [_ Hv].
  destruct (inb3 _ _ _ _ Hx) as (i & j & k & -> & Hi & Hj & Hk). cbn [neg_index combine map fst snd]. rewrite !Hv. cbn [coef].
  rewrite !fr_neg'; [lin3; ring|..]; try assumption; intros E; apply H; [exists 2%nat|exists 1%nat|exists 0%nat]; cbn; split; [lia|exact E|lia|exact E|lia|exact E].
Qed.
Lemma reversal A n1 n2 n3 : let ns := [n1; n2; n3] in forall (flip : nat -> bool) xcd c c' pos ch G kpts kpts' vol occ ks xt sp B, let K := length kpts in
  xc_local xcd ks xt -> g_vectors A ns = Ok G ->
  tshape c = [sp; K; B] ++ ns -> tshape c' = [sp; K; B] ++ ns -> tshape occ = [sp; K; B] -> length kpts' = K ->
  (forall k, (k < K)%nat -> nth k kpts' vzero = if flip k then vneg (nth k kpts vzero) else nth k kpts vzero) ->
  (forall s k b g, (s < sp)%nat -> (k < K)%nat -> (b < B)%nat -> inb g ns ->
    tget c' ([s; k; b] ++ g) = if flip k then Cconj (tget c ([s; k; b] ++ neg_index ns g)) else tget c ([s; k; b] ++ g)) ->
  (forall s k b g, (s < sp)%nat -> (k < K)%nat -> (b < B)%nat -> inb g ns -> flip k = true -> unpaired ns g -> tget c ([s; k; b] ++ g) = RtoC 0) ->
  total_energy_split xcd c' pos ch G kpts' vol (Some occ) ks xt = total_energy_split xcd c pos ch G kpts vol (Some occ) ks xt.
Proof.
  intros ns flip xcd c c' pos ch G kpts kpts' vol occ ks xt sp B K Hx HG Sc Sc' So HK Hk Hc Hn.
  assert (SG : tshape G = ns) by (unfold g_vectors in HG; apply (vector_grid_get _ _ _ _ _ _ HG)).
  symmetry. apply (total_same xcd c c' pos ch G kpts kpts' vol occ occ ks xt sp B n1 n2 n3); try assumption; try (rewrite HK; assumption).
  - intros s x Hs Hxx. rewrite HK. apply sumR_ext. intros k Hk'. apply sumR_ext. intros b Hb. apply in_seq in Hk', Hb. f_equal. unfold psi. fold ns.
    rewrite (idft_ext ns (fun g => tget c' ([s; k; b] ++ g)) (fun g => if flip k then Cconj (tget c ([s; k; b] ++ neg_index ns g)) else tget c ([s; k; b] ++ g)))
      by (intros g Hg; apply Hc; lia || assumption).
    destruct (flip k); [|reflexivity].
    rewrite (idft_conj ns (fun g => tget c ([s; k; b] ++ g)) x Hxx). rewrite <- (Cconj_R (INR (nprod ns) / sqrt vol)) at 2. rewrite <- Cconj_mult, Cnorm2_conj. reflexivity.
  - intros s Hs. rewrite HK. apply sumR_ext. intros k Hk'. apply sumR_ext. intros b Hb. apply in_seq in Hk', Hb. f_equal. unfold ekin. fold ns.
    rewrite (Hk k) by lia. destruct (flip k) eqn:Ef.
    + rewrite <- (sumR_reindex (indices ns) (neg_index ns) (fun g => norm2 (vadd (tget G g) (vneg (nth k kpts vzero))) * Cnorm2 (tget c' ([s; k; b] ++ g)))%R).
      * apply sumR_ext. intros g Hg. apply in_indices in Hg. rewrite Hc by (try lia; apply neg_index_inb, Hg). rewrite Ef, neg_index_inv, Cnorm2_conj by exact Hg.
        destruct (Ceq_dec (tget c ([s; k; b] ++ g)) (RtoC 0)) as [Z|Z].
        { rewrite Z. unfold Cnorm2, RtoC. cbn. ring. }
        assert (Gn : tget G (neg_index ns g) = vneg (tget G g)).
        { apply (g_neg' A n1 n2 n3 G g HG); [|exact Hg]. intros U. apply Z, (Hn s k b g); try assumption; lia. }
        rewrite Gn.
        f_equal. unfold norm2. lin3; ring.
      * apply NoDup_indices.
      * intros g Hg. apply in_indices in Hg. apply in_indices, neg_index_inb, Hg.
      * intros g h Hg Hh E. apply in_indices in Hg, Hh. rewrite <- (neg_index_inv ns g Hg), <- (neg_index_inv ns h Hh), E. reflexivity.
    + apply sumR_ext. intros g Hg. apply in_indices in Hg. rewrite Hc by (lia || assumption). rewrite Ef. reflexivity.
Qed.
Lemma odd_paired ns g : Forall (fun n => Nat.odd n = true) ns -> ~ unpaired ns g.
Proof.
  intros H (a & Ha & E). rewrite Forall_forall in H. specialize (H (nth a ns 0%nat) (nth_In _ _ Ha)). rewrite <- E, Nat.odd_mul in H. discriminate.
Qed.
Lemma cubic_paired n i : (1 <= n)%nat -> (n <> 2)%nat -> (i < n)%nat -> cubic_mask_axis (Z.of_nat n) (Z.of_nat i) = true -> (2 * i <> n)%nat.
Proof.
  intros H1 H2 Hi H E. unfold cubic_mask_axis in H.
  pose proof (Z.div_mod (Z.of_nat n - 1) 2 ltac:(lia)). pose proof (Z.mod_pos_bound (Z.of_nat n - 1) 2 ltac:(lia)).
  set (m := ((Z.of_nat n - 1) / 2)%Z) in *. clearbody m.
  pose proof (Z.div_mod m 2 ltac:(lia)). pose proof (Z.mod_pos_bound m 2 ltac:(lia)).
  pose proof (Z.div_mod (- m) 2 ltac:(lia)). pose proof (Z.mod_pos_bound (- m) 2 ltac:(lia)).
  assert (E1 : py_bound (Z.of_nat n) (m / 2 + 1) = (m / 2 + 1)%Z) by (unfold py_bound; destruct (Z.ltb_spec (m / 2 + 1) 0); lia).
  assert (E2 : py_bound (Z.of_nat n) (- m / 2) = (- m / 2 + Z.of_nat n)%Z) by (unfold py_bound; destruct (Z.ltb_spec (- m / 2) 0); lia).
  rewrite E1, E2 in H. destruct (Z.leb_spec (m / 2 + 1) (Z.of_nat i)); [|lia]. destruct (Z.ltb_spec (Z.of_nat i) (- m / 2 + Z.of_nat n)); [discriminate H|lia].
Qed.

Lemma unpaired_changes : exists A G c c' kpts t t', m3det A <> 0%R /\ g_vectors A [2; 1; 1]%nat = Ok G /\ tshape c = [1; 1; 1; 2; 1; 1]%nat /\ tshape c' = [1; 1; 1; 2; 1; 1]%nat /\
  (forall g, inb g [2; 1; 1]%nat -> tget c' ([0; 0; 0]%nat ++ g) = Cconj (tget c ([0; 0; 0]%nat ++ neg_index [2; 1; 1]%nat g))) /\
  e_kinetic G kpts c (Some (mkT [1; 1; 1]%nat (fun _ => 1%R))) = Ok t /\ e_kinetic G (map vneg kpts) c' (Some (mkT [1; 1; 1]%nat (fun _ => 1%R))) = Ok t' /\ tget t [] <> tget t' [].
Proof.
  destruct (proj2 (g_vectors_ok m3id 2 1 1)) as (G & HG); [repeat split; lia|].
  set (c := mkT [1; 1; 1; 2; 1; 1]%nat (fun i => if Nat.eqb (nth 3 i 0%nat) 1 then RtoC 1 else RtoC 0)).
  set (kp := [V3 1 0 0]).
  assert (SG : tshape G = [2; 1; 1]%nat) by (unfold g_vectors in HG; apply (vector_grid_get _ _ _ _ _ _ HG)).
  destruct (kinetic_some G kp c (mkT [1; 1; 1]%nat (fun _ => 1%R)) 1 1 2 1 1 SG eq_refl eq_refl) as (t & E & _ & V).
  destruct (kinetic_some G (map vneg kp) c (mkT [1; 1; 1]%nat (fun _ => 1%R)) 1 1 2 1 1 SG eq_refl eq_refl) as (t' & E' & _ & V').
  exists m3id, G, c, c, kp, t, t'. split; [rewrite m3det_id; lra|]. split; [exact HG|]. split; [reflexivity|]. split; [reflexivity|].
  split; [|split; [exact E|split; [exact E'|]]].
  - intros g Hg. destruct (inb3 _ _ _ _ Hg) as (i & j & k & -> & Hi & Hj & Hk). destruct i as [|[|]]; [| |lia]; cbn; rewrite Cconj_R; reflexivity.
  - rewrite V, V'. unfold ekin. unfold g_vectors in HG. destruct (vector_grid_get _ _ _ _ _ _ HG) as [_ Hv].
    cbn [seq length kp sumR indices flat_map map app nth tget c Nat.eqb]. rewrite !Hv. rewrite recip_id. unfold coef, fr. cbn [fftfreq Z.of_nat Pos.of_succ_nat].
    unfold norm2. lin3. unfold Cnorm2, RtoC. cbn.
    pose proof PI_RGT_0. nra.
Qed.

(** ** Reordering *)
Lemma perm_seq_lt K sg : Permutation (map sg (seq 0 K)) (seq 0 K) -> forall k, (k < K)%nat -> (sg k < K)%nat.
Proof. intros H k Hk. assert (In (sg k) (seq 0 K)) by (apply (Permutation_in _ H), in_map, in_seq; lia). apply in_seq in H0. lia. Qed.
Lemma sumR_reorder K sg f : Permutation (map sg (seq 0 K)) (seq 0 K) -> sumR (seq 0 K) (fun k => f (sg k)) = sumR (seq 0 K) f.
Proof. intros H. rewrite <- (sumR_map sg (seq 0 K) f). apply sumR_perm, H. Qed.
Lemma reorder xcd c c' pos ch G kpts kpts' vol occ occ' ks xt sp B n1 n2 n3 sg (tau : nat -> nat -> nat -> nat) : let ns := [n1; n2; n3] in let K := length kpts in
  xc_local xcd ks xt -> tshape G = ns ->
  tshape c = [sp; K; B] ++ ns -> tshape c' = [sp; K; B] ++ ns -> tshape occ = [sp; K; B] -> tshape occ' = [sp; K; B] -> length kpts' = K ->
  Permutation (map sg (seq 0 K)) (seq 0 K) -> (forall s k, (s < sp)%nat -> (k < K)%nat -> Permutation (map (tau s k) (seq 0 B)) (seq 0 B)) ->
  (forall k, (k < K)%nat -> nth k kpts' vzero = nth (sg k) kpts vzero) ->
  (forall s k b, (s < sp)%nat -> (k < K)%nat -> (b < B)%nat -> tget occ' [s; k; b] = tget occ [s; sg k; tau s k b]) ->
  (forall s k b g, (s < sp)%nat -> (k < K)%nat -> (b < B)%nat -> inb g ns -> tget c' ([s; k; b] ++ g) = tget c ([s; sg k; tau s k b] ++ g)) ->
  total_energy_split xcd c' pos ch G kpts' vol (Some occ') ks xt = total_energy_split xcd c pos ch G kpts vol (Some occ) ks xt.
Proof.
  intros ns K Hx SG Sc Sc' So So' HK Hsg Htau Hk Ho Hc. symmetry.
  apply (total_same xcd c c' pos ch G kpts kpts' vol occ occ' ks xt sp B n1 n2 n3); try assumption; try (rewrite HK; assumption).
  - intros s x Hs Hxx. rewrite HK. rewrite <- (sumR_reorder K sg) by exact Hsg. apply sumR_ext. intros k Hk'. apply in_seq in Hk'.
    rewrite <- (sumR_reorder B (tau s k)) by (apply Htau; lia). apply sumR_ext. intros b Hb. apply in_seq in Hb. rewrite Ho by lia. f_equal.
    unfold psi. fold ns. f_equal. f_equal. apply idft_ext. intros g Hg. symmetry. apply Hc; lia || assumption.
  - intros s Hs. rewrite HK. rewrite <- (sumR_reorder K sg) by exact Hsg. apply sumR_ext. intros k Hk'. apply in_seq in Hk'.
    rewrite <- (sumR_reorder B (tau s k)) by (apply Htau; lia). apply sumR_ext. intros b Hb. apply in_seq in Hb. rewrite Ho by lia. f_equal.
    unfold ekin. fold ns. apply sumR_ext. intros g Hg. apply in_indices in Hg. rewrite Hk by lia. f_equal. f_equal. symmetry. apply Hc; lia || assumption.
Qed.
