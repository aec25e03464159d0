(** More proofs about the local pseudopotential: energy, the fft method, numbers of entries. *)
From Coq Require Import List Arith ZArith Reals Bool Lra Lia Permutation.
From Coquelicot Require Import Complex.
From Verif Require Import Base Sums Tensor DFT GridModel GridProofs Lin3 VecModel VecProofs PwModel PwSpec PwProofs BraketModel BraketSpec BraketProofs EnergyModel EnergySpec EnergyProofs ExtProofs TotalProofs SymProofs ShiftProofs EwaldModel SbtModel SbtSpec SbtProofs SbtProofs2 LocModel LocSpec LocProofs.
From Coq Require Import List.
Import ListNotations.
Local Open Scope C_scope.

(** *** Energy *)
Lemma braket_trail v D vol sp n1 n2 n3 : let ns := [n1; n2; n3] in tshape v = ns -> tshape D = sp :: ns ->
  reciprocal_braket v D vol =
  Ok (vol / (INR (nprod ns) * INR (nprod ns)) * Re (sumC (seq 0 sp) (fun s => sumC (indices ns) (fun x => (Cconj (tget v x) * tget D (s :: x))%C))))%R.
Proof.
  intros ns Sv SD. unfold reciprocal_braket. rewrite (grid3_app v [] ns eq_refl Sv), (grid3_app D [sp] ns eq_refl SD).
  destruct (list_eq_dec _ _ _) as [_|N]; [|contradiction].
  destruct (tzip_trail (fun a b => Cconj a * b) v D sp n1 n2 n3 Sv SD) as (t & -> & St & Gt). cbn [bind].
  f_equal. rewrite Re_scal_r, Sv. fold ns. f_equal.
  - unfold Rdiv. rewrite Rinv_mult. ring.
  - f_equal. unfold tsum_all. rewrite St. rewrite sumC_indices_cons. apply sumC_ext. intros s Hs. apply sumC_ext. intros x Hx.
    apply in_seq in Hs. apply in_indices in Hx. fold ns in Gt. rewrite Gt by (try exact Hx; lia). reflexivity.
Qed.
Lemma energy_real (d : tensor R) V D vol sp n1 n2 n3 : let ns := [n1; n2; n3] in Forall (fun n => (0 < n)%nat) ns ->
  tshape V = ns -> tshape d = sp :: ns -> fftn3 (tmap RtoC d) = Ok D ->
  exists v, ifftn3 V = Ok v /\ tshape v = ns /\
    energy_local D V vol = Ok (vol / INR (nprod ns) * sumR (seq 0 sp) (fun s => sumR (indices ns) (fun x => Re (tget v x) * tget d (s :: x))))%R.
Proof.
  intros ns Hp SV Sd HD. destruct (ifftn3_eq V [] ns eq_refl SV) as (v & Ev & Sv & Gv). exists v. split; [exact Ev|]. split; [exact Sv|].
  destruct (fftn3_eq (tmap RtoC d) [sp] ns eq_refl Sd) as (D' & HD' & SD & GD). rewrite HD in HD'. injection HD' as <-.
  unfold energy_local. rewrite (braket_trail V D vol sp n1 n2 n3 SV SD). f_equal. fold ns.
  assert (HN : INR (nprod ns) <> 0%R) by (apply not_0_INR; pose proof (nprod_pos ns Hp); lia).
  rewrite (sumC_ext _ _ (fun s => RtoC (INR (nprod ns)) * sumC (indices ns) (fun x => Cconj (tget v x) * RtoC (tget d (s :: x))))).
  - rewrite sumC_scal, Re_mult_R, Re_sumC.
    rewrite (sumR_ext _ (fun s => Re (sumC (indices ns) (fun x => Cconj (tget v x) * RtoC (tget d (s :: x))))) (fun s => sumR (indices ns) (fun x => Re (tget v x) * tget d (s :: x))%R)).
    + field. exact HN.
    + intros s _. rewrite Re_sumC. apply sumR_ext. intros x _. unfold Re, Cconj, Cmult, RtoC. simpl. ring.
  - intros s _. transitivity (RtoC (INR (nprod ns)) * sumC (indices ns) (fun x => Cconj (idft ns (tget V) x) * RtoC (tget d (s :: x)))).
    + rewrite <- (parseval ns (idft ns (tget V)) (fun x => RtoC (tget d (s :: x))) Hp). apply sumC_ext. intros x Hx. apply in_indices in Hx.
      rewrite dft_idft by exact Hx. f_equal. change (s :: x) with ([s] ++ x). rewrite GD by reflexivity. reflexivity.
    + f_equal. apply sumC_ext. intros x _. f_equal. f_equal. symmetry. exact (Gv [] x eq_refl).
Qed.
Lemma energy_bands c occ V vol sp K B n1 n2 n3 : let ns := [n1; n2; n3] in Forall (fun n => (0 < n)%nat) ns ->
  tshape c = [sp; K; B] ++ ns -> tshape occ = [sp; K; B] -> tshape V = ns ->
  exists w D H, wave_grid c vol = Ok w /\ density_grid_reciprocal c vol (Some occ) = Ok D /\ hamiltonian_local w V vol = Ok H /\ tshape H = [sp; K; B; B] /\
    energy_local D V vol = Ok (sumR (seq 0 sp) (fun s => sumR (seq 0 K) (fun k => sumR (seq 0 B) (fun b => tget occ [s; k; b] * Re (tget H [s; k; b; b])))))%R.
Proof.
  intros ns Hp Sc So SV. destruct (wave_grid_eq c vol [sp; K; B] ns eq_refl Sc) as (w & Ew & Sw & Gw).
  destruct (density_eq c vol occ sp K B n1 n2 n3 Sc So) as (d & Ed & Sd & Gd).
  destruct (fftn3_eq (tmap RtoC d) [sp] ns eq_refl Sd) as (D & HD & SD & GD).
  destruct (energy_real d V D vol sp n1 n2 n3 Hp SV Sd HD) as (v & Ev & Sv & Ee).
  destruct (expectation_full w w v vol RealMode sp K B B n1 n2 n3) as (H & EH & SH & GH); [discriminate|exact Sw|exact Sw|left; exact Sv|].
  exists w, D, H. split; [exact Ew|]. split; [unfold density_grid_reciprocal; rewrite Ed; exact HD|]. split; [unfold hamiltonian_local; rewrite Ev; exact EH|]. split; [exact SH|].
  rewrite Ee. f_equal. fold ns. rewrite <- sumR_scal. apply sumR_ext. intros s Hs. apply in_seq in Hs.
  rewrite (sumR_ext (indices ns) _ (fun x => sumR (seq 0 K) (fun k => sumR (seq 0 B) (fun b => tget occ [s; k; b] * (Re (tget v x) * Cnorm2 (psi ns vol c [s; k; b] x))))%R)).
  - rewrite sumR_swap, <- sumR_scal. apply sumR_ext. intros k Hk. apply in_seq in Hk. rewrite sumR_swap, <- sumR_scal. apply sumR_ext. intros b Hb. apply in_seq in Hb.
    rewrite GH by lia. fold ns. cbn [efactor]. rewrite Re_mult_R, Re_sumC, sumR_scal.
    rewrite (sumR_ext _ (fun g => Re (Cconj (tget w ([s; k; b] ++ g)) * ham_at v k g * tget w ([s; k; b] ++ g))) (fun x => Re (tget v x) * Cnorm2 (psi ns vol c [s; k; b] x))%R); [rewrite <- !Rmult_assoc; f_equal; apply Rmult_comm|].
    intros x _. rewrite Gw by reflexivity. unfold ham_at, ndim. rewrite Sv. change ((length ns =? 3)%nat) with true. cbn iota. fold ns. generalize (psi ns vol c [s; k; b] x) (tget v x). intros [p1 p2] [q1 q2]. unfold Re, Cnorm2, Cmult, Cconj. simpl. ring.
  - intros x Hx. apply in_indices in Hx. rewrite (Gd s x) by (try exact Hx; lia). rewrite <- sumR_scal. apply sumR_ext. intros k _. rewrite <- sumR_scal. apply sumR_ext. intros b _. cbv beta. rewrite <- !Rmult_assoc. f_equal. apply Rmult_comm.
Qed.

(** *** The fft method *)
Lemma fft_formula jn spline A n1 n2 n3 G vol atoms V : let ns := [n1; n2; n3] in m3det A <> 0%R -> (2 <= n1)%nat -> (2 <= n2)%nat -> (2 <= n3)%nat ->
  g_vectors A ns = Ok G -> local_of jn spline atoms G vol FftMethod = Ok V ->
  exists X, r_vectors (m3t A) ns = Ok X /\ forall x, inb x ns -> ~ at_origin x -> tget V x = RtoC (INR (nprod ns) / vol) * sumC atoms (fun a =>
      (RtoC (4 * PI / INR (nprod ns)) * dft ns (fun y => RtoC (spline (a_r a) (screened a) (norm (tget X y)))) x - RtoC (4 * PI * a_z a / norm2 (tget G x)))
      * cis (- dot (tget G x) (a_pos a))).
Proof.
  intros ns HA H1 H2 H3 HG H. pose proof (g2r_inferred A n1 n2 n3 G HA H1 H2 H3 HG) as E2. destruct (g2r_ok A n1 n2 n3 G HG) as (S & rv & Hr & Sr).
  exists rv. split; [rewrite <- Hr; symmetry; exact E2|]. intros x Hx Hox. apply local_ok in H. destruct H as (rv' & _ & Hr' & _ & _ & HF & _ & HV). rewrite Hr in Hr'. injection Hr' as <-.
  rewrite HV. unfold total. rewrite S. fold ns. rewrite Cmult_comm. f_equal. apply sumC_ext. intros a Hin. f_equal. unfold factor.
  rewrite (is_origin_nz x Hox : is_origin x = false). rewrite Forall_forall in HF. destruct (HF a Hin) as (t & Et). rewrite Et. cbn [getT]. unfold sr, short_range in Et.
  destruct (length (a_v a) =? length (a_r a))%nat; [|discriminate]. fold (screened a) in Et.
  match goal with H : context [fftn3 ?u] |- _ => set (w := u) in * end.
  destruct (fftn3_eq w [] ns eq_refl) as (f & Ef & Sf & Gf); [exact Sr|]. rewrite Ef in Et. cbn [bind] in Et.
  assert (E := f_equal getT Et). cbn [getT] in E. subst t. cbn [tmap tget]. rewrite S. fold ns. rewrite (Gf [] x eq_refl : tget f x = _). cbn [app].
  rewrite <- norm_sq. change (sqrt (vx (tget G x) ^ 2 + vy (tget G x) ^ 2 + vz (tget G x) ^ 2)%R) with (tget (grid_vector_radius G) x). rewrite !radius_norm.
  rewrite (dft_ext ns (fun y => tget w y) (fun y => RtoC (spline (a_r a) (screened a) (norm (tget rv y)))) x).
  - unfold Rdiv. rewrite !RtoC_mult. ring.
  - intros y _. unfold w. cbn [tmap tget]. rewrite <- radius_norm. reflexivity.
Qed.
(** For a symmetric cell the transform is the quadrature of the Fourier integral over the cell, times 4 pi / vol. *)
Lemma fft_quadrature jn spline A n1 n2 n3 G X vol atoms V : let ns := [n1; n2; n3] in m3det A <> 0%R -> m3t A = A -> (2 <= n1)%nat -> (2 <= n2)%nat -> (2 <= n3)%nat -> vol <> 0%R ->
  g_vectors A ns = Ok G -> r_vectors A ns = Ok X -> local_of jn spline atoms G vol FftMethod = Ok V ->
  forall x, inb x ns -> ~ at_origin x -> tget V x = RtoC (INR (nprod ns) / vol) * sumC atoms (fun a =>
      (RtoC (4 * PI / vol) * cell_integral ns X vol (fun s => spline (a_r a) (screened a) s) (tget G x) - RtoC (4 * PI * a_z a / norm2 (tget G x)))
      * cis (- dot (tget G x) (a_pos a))).
Proof.
  intros ns HA Ht H1 H2 H3 Hv HG HX H x Hx Hox. destruct (fft_formula jn spline A n1 n2 n3 G vol atoms V HA H1 H2 H3 HG H) as (X' & HX' & HV).
  rewrite Ht in HX'. fold ns in HX'. rewrite HX in HX'. injection HX' as <-. rewrite (HV x Hx Hox). fold ns. f_equal. apply sumC_ext. intros a _. do 2 f_equal.
  unfold cell_integral. rewrite Cmult_assoc, <- RtoC_mult. unfold dft.
  assert (HN : INR (nprod ns) <> 0%R) by (apply not_0_INR; unfold ns; cbn [nprod]; nia).
  replace (4 * PI / vol * (vol / INR (nprod ns)))%R with (4 * PI / INR (nprod ns))%R by (field; split; assumption). f_equal. apply sumC_ext. intros y Hy. apply in_indices in Hy.
  rewrite <- !cis_conj, (fft_pair A n1 n2 n3 G X HA HG HX x y Hx Hy). reflexivity.
Qed.

(** *** Numbers of entries *)
Section L.
Variable jn : Z -> R -> R.
Variable spline : list R -> list R -> R -> R.
Lemma shared_data pos G r v z vol m : pos <> [] ->
  rteq (potential_local_reciprocal jn spline pos G [r] [v] [z] vol m) (local_of jn spline (map (fun p => mkAtom p r v z) pos) G vol m).
Proof.
  intros Hp. destruct (local_of jn spline (map (fun p => mkAtom p r v z) pos) G vol m) as [V|e] eqn:E.
  - apply local_ok in E. destruct E as (rv & H3 & Hr & Hm & _ & HF & HS & HV). unfold potential_local_reciprocal. rewrite H3. cbn [Nat.eqb negb]. rewrite Hr. cbn [bind].
    destruct pos as [|p pos]; [contradiction|]. pose proof (Forall_inv HF) as (t & Et). unfold sr in Et. cbn [a_r a_v a_z] in Et.
    destruct m; [| |contradiction]; cbn [length seq mapM nth_error nth Nat.min Nat.sub]; rewrite Et; cbn [bind length Nat.eqb]; rewrite bshape_refl;
    (assert (Eb : bshape [1%nat] [length (p :: pos)] = Some [length (p :: pos)]) by (unfold bshape; cbn [rev app bshape_rev length]; destruct (Nat.eqb_spec 1 (S (length pos))) as [El|]; [rewrite <- El; reflexivity|reflexivity]));
    cbn [length] in Eb; rewrite Eb; cbn [rteq]; (split; [cbn [tshape]; symmetry; exact HS|]); intros x _; cbn [tget]; rewrite HV; unfold total; rewrite sumC_map; f_equal;
    rewrite <- (sumC_nth (p :: pos) vzero); cbn [length]; apply sumC_ext; intros i Hi; apply in_seq in Hi; rewrite (clip_hd (S (length pos)) i) by lia;
    cbn [a_pos clip1 hd Nat.eqb nth]; f_equal; unfold factor; destruct (is_origin x); try reflexivity; unfold sr; cbn [a_r a_v a_z]; rewrite Et; reflexivity.
  - destruct (Nat.eqb_spec (ndim G) 3) as [H3|H3]; [|unfold local_of, potential_local_reciprocal in *; apply Nat.eqb_neq in H3; rewrite H3 in *; cbn [negb] in *; injection E as <-; reflexivity].
    destruct (g2r_vector_grid G None) as [rv|e'] eqn:Hr; [|unfold local_of, potential_local_reciprocal in *; rewrite H3, Hr in *; cbn [negb Nat.eqb bind] in *; injection E as <-; reflexivity].
    destruct (match m with OtherMethod => true | _ => false end) eqn:Em.
    + destruct m; try discriminate. unfold local_of, potential_local_reciprocal in *. rewrite H3, Hr in *. cbn [negb Nat.eqb bind] in *. injection E as <-. reflexivity.
    + assert (Hm : m <> OtherMethod) by (intros ->; discriminate). destruct pos as [|p pos]; [contradiction|].
      destruct (sr jn spline m G rv (mkAtom p r v z)) as [t|e1] eqn:Et.
      * exfalso. destruct (local_returns jn spline m G rv vol (map (fun p => mkAtom p r v z) (p :: pos)) H3 Hr Hm) as [V HV]; [discriminate| |rewrite E in HV; discriminate].
        apply Forall_map. apply Forall_forall. intros q _. exists t. exact Et.
      * rewrite (local_body jn spline m G rv) in E by assumption. cbn [map mapM] in E. rewrite Et in E. cbn [bind] in E. injection E as <-.
        unfold potential_local_reciprocal. rewrite H3, Hr. cbn [negb Nat.eqb bind length seq mapM nth_error nth Nat.min Nat.sub]. unfold sr in Et. cbn [a_r a_v a_z] in Et.
        destruct m; [| |contradiction]; rewrite Et; reflexivity.
Qed.
Lemma count_mismatch pos G rs vs zs vol m : length rs = length vs -> length rs = length zs -> length pos <> length rs -> length rs <> 1%nat -> length pos <> 1%nat ->
  raises (potential_local_reciprocal jn spline pos G rs vs zs vol m).
Proof.
  intros H1 H2 H3 H4 H5. unfold potential_local_reciprocal. destruct (negb _); [eexists; reflexivity|]. destruct (g2r_vector_grid G None) as [rv|e]; [|eexists; reflexivity]. cbn [bind].
  assert (K : forall (r : res (list (tensor C))), (forall v1, r = Ok v1 -> length v1 = length rs) -> raises (do v1 <- r; if (length v1 =? 0)%nat then Err ValueErr else
     match bshape [length v1] [length zs] with | Some [n1] => match bshape [n1] [length pos] with | Some [n] => 
       Ok (mkT (tshape G) (fun x => (sumC (seq 0 n) (fun a => (if is_origin x then RtoC 0 else
              (tget (nth (hd 0%nat (clip1 [length v1] [hd 0%nat (clip1 [n1] [a])])) v1 (mkT [] (fun _ => RtoC 0))) x
               - RtoC (nth (hd 0%nat (clip1 [length zs] [hd 0%nat (clip1 [n1] [a])])) zs 0%R / tget (grid_vector_radius G) x ^ 2 * (4 * PI)))%C) * cis (- dot (tget G x) (nth (hd 0%nat (clip1 [length pos] [a])) pos vzero))) * RtoC (INR (nprod (tshape G)) / vol))%C))
       | _ => Err ValueErr end | _ => Err ValueErr end)).
  { intros r Hr. destruct r as [v1|e]; [|eexists; reflexivity]. cbn [bind]. rewrite (Hr v1 eq_refl), <- H2. destruct (length rs =? 0)%nat; [eexists; reflexivity|]. rewrite bshape_refl.
    unfold bshape. cbn [rev app bshape_rev]. rewrite (proj2 (Nat.eqb_neq (length rs) (length pos))), (proj2 (Nat.eqb_neq (length rs) 1)), (proj2 (Nat.eqb_neq (length pos) 1)) by congruence.
    eexists; reflexivity. }
  destruct m; [| |eexists; reflexivity]; apply K; intros v1 Hv; apply mapM_ok, Forall2_len in Hv; rewrite seq_length in Hv; congruence.
Qed.
Lemma other_method pos G rs vs zs vol A n1 n2 n3 : g_vectors A [n1; n2; n3] = Ok G -> potential_local_reciprocal jn spline pos G rs vs zs vol OtherMethod = Err ValueErr.
Proof.
  intros HG. destruct (g2r_ok A n1 n2 n3 G HG) as (S & rv & Hr & _). unfold potential_local_reciprocal. unfold ndim. rewrite S. cbn [length Nat.eqb negb]. rewrite Hr. reflexivity.
Qed.
End L.
(** One atom: the fft method gives the transform of the local potential only where the short-range part has no such component, or for a cell of volume 4 pi. *)
Lemma fft_normalisation jn spline A n1 n2 n3 G X vol a V : let ns := [n1; n2; n3] in m3det A <> 0%R -> m3t A = A -> (2 <= n1)%nat -> (2 <= n2)%nat -> (2 <= n3)%nat -> vol <> 0%R ->
  g_vectors A ns = Ok G -> r_vectors A ns = Ok X -> local_of jn spline [a] G vol FftMethod = Ok V ->
  forall x, inb x ns -> ~ at_origin x -> let I := cell_integral ns X vol (fun s => spline (a_r a) (screened a) s) (tget G x) in
    (tget V x = RtoC (INR (nprod ns) / vol) * ((I - RtoC (4 * PI * a_z a / norm2 (tget G x))) * cis (- dot (tget G x) (a_pos a))) <-> I = RtoC 0 \/ vol = (4 * PI)%R).
Proof.
  intros ns HA Ht H1 H2 H3 Hv HG HX H x Hx Hox I. pose proof (fft_quadrature jn spline A n1 n2 n3 G X vol [a] V HA Ht H1 H2 H3 Hv HG HX H x Hx Hox) as E. cbn [sumC] in E. fold ns I in E. rewrite E.
  assert (HN : INR (nprod ns) <> 0%R) by (apply not_0_INR; unfold ns; cbn [nprod]; nia).
  set (q := RtoC (4 * PI * a_z a / norm2 (tget G x))). set (p := cis _). set (f := RtoC (INR (nprod ns) / vol)). clearbody I q. clear E H.
  assert (Hf : f <> RtoC 0) by (intros F; apply RtoC_inj in F; unfold Rdiv in F; apply Rmult_integral in F; destruct F as [F|F]; [contradiction|exact (Rinv_neq_0_compat _ Hv F)]).
  assert (Hp : p <> RtoC 0) by (apply cis_neq_0).
  replace (f * ((RtoC (4 * PI / vol) * I - q) * p + RtoC 0)) with (f * p * (RtoC (4 * PI / vol) * I - q)) by ring.
  replace (f * ((I - q) * p)) with (f * p * (I - q)) by ring. split.
  - intros F. assert (K : f * p * ((RtoC (4 * PI / vol) - RtoC 1) * I) = RtoC 0).
    { replace (f * p * ((RtoC (4 * PI / vol) - RtoC 1) * I)) with (f * p * (RtoC (4 * PI / vol) * I - q) - f * p * (I - q)) by ring. rewrite F. ring. }
    assert (D : forall u v : C, u * v = RtoC 0 -> u <> RtoC 0 -> v = RtoC 0) by (intros u v Z Nu; rewrite <- (Cmult_1_l v), <- (Cinv_l u Nu), <- Cmult_assoc, Z; ring).
    apply D in K; [|intros Z; apply D in Z; [contradiction|assumption]]. destruct (Req_dec vol (4 * PI)) as [Ev|Nv]; [right; exact Ev|left].
    apply D in K; [exact K|]. rewrite <- RtoC_minus. intros Z. apply RtoC_inj in Z. apply Nv. apply (Rmult_eq_reg_r (/ vol)); [|apply Rinv_neq_0_compat; exact Hv]. rewrite Rinv_r by exact Hv. unfold Rdiv in Z. lra.
  - intros [->| ->]; [ring|]. replace (4 * PI / (4 * PI))%R with 1%R by (field; pose proof PI_RGT_0; lra). ring.
Qed.

(** Data for the examples: one atom in an oblique cell with a 1x1x3 grid; the spline is 0, so that only the Coulomb tail remains. *)
Definition ex_atom : atom := mkAtom (V3 0 0 0) [1; 2]%R [- (1); - (1 / 2)]%R 1%R.
Definition ex_spline : list R -> list R -> R -> R := fun _ _ _ => 0%R.
Definition ex_jn : Z -> R -> R := fun _ _ => 1%R.
Lemma ex_local A n1 n2 n3 G vol : m3det A <> 0%R -> (0 < vol)%R -> g_vectors A [n1; n2; n3] = Ok G ->
  exists V, local_of ex_jn ex_spline [ex_atom] G vol SbtMethod = Ok V /\ tshape V = [n1; n2; n3] /\ forall x, inb x [n1; n2; n3] -> ~ at_origin x -> (Re (tget V x) < 0)%R.
Proof.
  intros HA Hv HG. destruct (proj2 (local_returns_iff ex_jn ex_spline SbtMethod A n1 n2 n3 G vol [ex_atom] HG)) as (V & HV).
  { split; [discriminate|]. split; [discriminate|]. repeat constructor. }
  exists V. split; [exact HV|]. destruct (local_formula ex_jn ex_spline A n1 n2 n3 G vol [ex_atom] V HG HV) as (k & _ & _ & S & F). split; [exact S|].
  intros x Hx Hox. rewrite (F x Hx Hox). cbn [sumC]. cbv zeta. unfold ex_spline. cbn [a_z a_pos ex_atom].
  pose proof (norm2_gt0 _ (g_nonzero A n1 n2 n3 G x HA HG Hx (is_origin_nz x Hox))) as Hn. set (q := norm2 (tget G x)) in *.
  assert (D : dot (tget G x) (V3 0 0 0) = 0%R) by (unfold dot; cbn [vx vy vz]; ring). rewrite D, Ropp_0.
  assert (C0 : cis 0 = RtoC 1) by (unfold cis; rewrite cos_0, sin_0; reflexivity). rewrite C0.
  rewrite Cplus_0_r, Cmult_1_r, <- RtoC_mult. cbn [Re RtoC fst].
  assert (HN : (0 < INR (nprod [n1; n2; n3]))%R) by (apply lt_0_INR; apply nprod_pos; exact (inb_pos _ _ Hx)).
  assert (P : (0 < INR (nprod [n1; n2; n3]) / vol)%R) by (apply Rdiv_lt_0_compat; assumption).
  assert (Q : (0 < 4 * PI * (1 / q))%R) by (apply Rmult_lt_0_compat; [pose proof PI_RGT_0; lra|apply Rdiv_lt_0_compat; lra]).
  match goal with |- (?u * _ < 0)%R => pose proof (Rmult_lt_0_compat u _ P Q) as K; replace (u * (4 * PI * (0 - 1 / q)))%R with (- (u * (4 * PI * (1 / q))))%R by ring end. lra.
Qed.
(** A spline whose short-range part is concentrated at the nucleus. *)
Definition ex_peak : list R -> list R -> R -> R := fun _ _ s => if Req_EM_T s 0 then 1%R else 0%R.
Lemma ex_fft_wrong : exists G X V x, g_vectors m3id [2; 2; 2]%nat = Ok G /\ r_vectors m3id [2; 2; 2]%nat = Ok X /\
  local_of ex_jn ex_peak [ex_atom] G 1 FftMethod = Ok V /\ inb x [2; 2; 2]%nat /\
  tget V x <> RtoC (INR (nprod [2; 2; 2]%nat) / 1) * ((cell_integral [2; 2; 2]%nat X 1 (fun s => ex_peak (a_r ex_atom) (screened ex_atom) s) (tget G x) - RtoC (4 * PI * a_z ex_atom / norm2 (tget G x))) * cis (- dot (tget G x) (a_pos ex_atom))).
Proof.
  destruct (proj2 (g_vectors_ok m3id 2 2 2)) as [G HG]; [lia|]. destruct (vector_grid_ok m3id 2 2 2 true) as [X HX]; try lia.
  destruct (proj2 (local_returns_iff ex_jn ex_peak FftMethod m3id 2 2 2 G 1 [ex_atom] HG)) as (V & HV); [split; [discriminate|]; split; [discriminate|]; repeat constructor|].
  exists G, X, V, [0; 0; 1]%nat. split; [exact HG|]. split; [exact HX|]. split; [exact HV|].
  assert (Hx : inb [0; 0; 1]%nat [2; 2; 2]%nat) by (repeat constructor). split; [exact Hx|]. intros E.
  assert (HA : m3det m3id <> 0%R) by (lin3; lra).
  assert (Hox : ~ at_origin [0; 0; 1]%nat) by (intros H; inversion H as [|a l Ha H1]; subst; inversion H1 as [|b l' Hb H2]; subst; inversion H2; subst; discriminate).
  apply (fft_normalisation ex_jn ex_peak m3id 2 2 2 G X 1 ex_atom V HA eq_refl) in E; try assumption; try lia; try lra.
  destruct E as [E|E]; [|pose proof PI2_1; lra]. apply (f_equal Re) in E. unfold cell_integral in E. rewrite Re_mult_R, Re_sumC in E.
  set (term := fun y : list nat => Re (RtoC (ex_peak (a_r ex_atom) (screened ex_atom) (norm (tget X y))) * cis (- dot (tget G [0; 0; 1]%nat) (tget X y)))) in E.
  assert (Z : forall y, norm (tget X y) = 0%R -> term y = 1%R).
  { intros y H. unfold term, ex_peak. destruct (Req_EM_T _ 0) as [_|N]; [|contradiction]. assert (tget X y = vzero) as ->.
    { apply norm2_zero. rewrite <- norm_sq, H. ring. }
    replace (dot (tget G [0; 0; 1]%nat) vzero) with 0%R by (unfold dot, vzero; cbn [vx vy vz]; ring). rewrite Ropp_0. unfold cis, Re, Cmult, RtoC. cbn [fst snd]. rewrite cos_0. ring. }
  assert (P : (1 <= sumR (indices [2; 2; 2]%nat) term)%R).
  { rewrite <- (Z [0; 0; 0]%nat).
    - apply sumR_ge_term; [|apply in_indices; repeat constructor]. intros y _. destruct (Req_EM_T (norm (tget X y)) 0) as [H|H]; [rewrite (Z y H); lra|].
      unfold term, ex_peak. destruct (Req_EM_T _ 0) as [H'|_]; [contradiction|]. unfold Re, Cmult, RtoC. cbn [fst snd]. lra.
    - destruct (vector_grid_get _ _ _ _ _ _ HX) as (_ & ->). unfold norm. replace (norm2 _) with 0%R; [apply sqrt_0|]. symmetry. apply norm2_zero. rewrite !coef_0 by lia. apply vmul_zero. }
  assert (E' : (1 / INR (nprod [2; 2; 2]%nat) * sumR (indices [2; 2; 2]%nat) term = 0)%R) by exact E.
  assert (HN : (0 < 1 / INR (nprod [2; 2; 2]%nat))%R) by (apply Rdiv_lt_0_compat; [lra|apply lt_0_INR; cbn; lia]).
  pose proof (Rmult_lt_0_compat _ _ HN (Rlt_le_trans _ _ _ Rlt_0_1 P)). lra.
Qed.
