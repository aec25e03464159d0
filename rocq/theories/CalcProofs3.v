From Coq Require Import Reals Lra Lia Ascii String List Arith ZArith Bool.
From Coquelicot Require Import Complex.
From Verif Require Import Base Sums Tensor Lin3 VecModel VecProofs OccModel OccSpec OccProofs EwaldModel EwaldProofs GridModel GridSpec GridProofs CalcModel CalcSpec CalcProofs CalcProofs2.
Import ListNotations.
Local Open Scope R_scope.

(** ** Number of bands *)
Lemma bands_enough N s e : (N mod 2 = s mod 2)%Z -> ((N + Z.abs s) / 2 <= num_bands N e)%Z <-> (Z.abs s <= 2 * e + N mod 2)%Z.
Proof.
  intros Hp. unfold num_bands.
  assert (Ha : (Z.abs s mod 2 = N mod 2)%Z).
  { rewrite Hp. destruct (Z.abs_eq_or_opp s) as [-> | ->]; [reflexivity|].
    pose proof (Z.div_mod s 2 ltac:(lia)). pose proof (Z.mod_pos_bound s 2 ltac:(lia)).
    pose proof (Z.div_mod (- s) 2 ltac:(lia)). pose proof (Z.mod_pos_bound (- s) 2 ltac:(lia)). lia. }
  pose proof (Z.div_mod N 2 ltac:(lia)). pose proof (Z.mod_pos_bound N 2 ltac:(lia)).
  pose proof (Z.div_mod (Z.abs s) 2 ltac:(lia)).
  pose proof (Z.div_mod (N + Z.abs s) 2 ltac:(lia)). pose proof (Z.mod_pos_bound (N + Z.abs s) 2 ltac:(lia)).
  pose proof (Z.div_mod (N + 1) 2 ltac:(lia)). pose proof (Z.mod_pos_bound (N + 1) 2 ltac:(lia)).
  lia.
Qed.

Lemma driver_electrons K N s e r occ : (0 <= num_bands N e)%Z ->
  uniform K N s (Some (Z.to_nat (num_bands N e))) r = Ok occ -> (N mod 2 = s mod 2)%Z -> (Z.abs s <= N)%Z ->
  OccSpec.total occ <= IZR N /\ (OccSpec.total occ = IZR N <-> (Z.abs s <= 2 * e + N mod 2)%Z).
Proof.
  intros Hb H Hp Hs. destruct (uniform_total_iff _ _ _ _ _ _ H Hp Hs) as [H1 H2]. split; [exact H1|].
  rewrite H2, Z2Nat.id by exact Hb. apply bands_enough. exact Hp.
Qed.

(** ** Grids and masks *)
Lemma create_grids_inv pkg read c g r k : create_grids pkg read c = Ok (g, r, k) ->
  exists cr gs n ks nk, create_crystal pkg read c = Ok cr /\ getattr c "grid_sizes" = Ok gs /\ proper_grid_size (cfg_grid gs) = Ok n /\
    getattr c "k_grid_sizes" = Ok ks /\ proper_grid_size (cfg_grid ks) = Ok nk /\
    g_vectors (cr_cell cr) (nats n) = Ok g /\ r_vectors (cr_cell cr) (nats n) = Ok r /\ k_vectors (cr_cell cr) (nats nk) = Ok k.
Proof.
  unfold create_grids. intros H.
  destruct (create_crystal pkg read c) as [cr|] eqn:E1; [|discriminate]. cbn [bind] in H.
  destruct (getattr c "grid_sizes") as [gs|] eqn:E2; [|discriminate]. cbn [bind] in H.
  destruct (proper_grid_size (cfg_grid gs)) as [n|] eqn:E3; [|discriminate]. cbn [bind] in H.
  destruct (getattr c "k_grid_sizes") as [ks|] eqn:E4; [|discriminate]. cbn [bind] in H.
  destruct (proper_grid_size (cfg_grid ks)) as [nk|] eqn:E5; [|discriminate]. cbn [bind] in H.
  destruct (g_vectors (cr_cell cr) (nats n)) as [g'|] eqn:E6; [|discriminate]. cbn [bind] in H.
  destruct (r_vectors (cr_cell cr) (nats n)) as [r'|] eqn:E7; [|discriminate]. cbn [bind] in H.
  destruct (k_vectors (cr_cell cr) (nats nk)) as [k'|] eqn:E8; [|discriminate]. cbn [bind] in H.
  injection H as <- <- <-. exists cr, gs, n, ks, nk. repeat split; assumption.
Qed.

Lemma vector_grid_shape B sizes nz g : vector_grid B sizes nz = Ok g -> tshape g = sizes.
Proof.
  unfold vector_grid. destruct sizes as [|n1 [|n2 [|n3 [|]]]]; try discriminate.
  destruct (_ || _); [discriminate|]. intros H. injection H as <-. reflexivity.
Qed.

Lemma mask_shape pkg read c mask : create_freq_mask pkg read c = Ok mask ->
  exists gs n, getattr c "grid_sizes" = Ok gs /\ proper_grid_size (cfg_grid gs) = Ok n /\ tshape mask = nats n.
Proof.
  unfold create_freq_mask. intros H.
  destruct (create_crystal pkg read c) as [cr|] eqn:E1; [|discriminate]. cbn [bind] in H.
  destruct (getattr c "grid_sizes") as [gs|] eqn:E2; [|discriminate]. cbn [bind] in H.
  destruct (proper_grid_size (cfg_grid gs)) as [n|] eqn:E3; [|discriminate]. cbn [bind] in H.
  destruct (getattr c "freq_mask_method") as [m|] eqn:E4; [|discriminate]. cbn [bind] in H.
  exists gs, n. split; [reflexivity|]. split; [exact E3|]. destruct m; try discriminate.
  destruct (String.eqb s "cubic").
  - destruct (cubic_mask n) as [f|]; [|discriminate]. cbn [bind] in H.
    destruct (estimate_max_cutoff_energy _ _); [|discriminate]. cbn [bind] in H. injection H as <-. reflexivity.
  - destruct (String.eqb s "spherical"); [|discriminate].
    destruct (getattr c "cutoff_energy") as [cut|]; [|discriminate]. cbn [bind] in H.
    destruct (cfg_real cut) as [cu|]; [|discriminate]. cbn [bind] in H. unfold spherical_mask in H.
    destruct (g_vectors (cr_cell cr) (nats n)) as [g|] eqn:Eg; [|discriminate]. cbn [bind] in H. injection H as <-.
    cbn [tshape tmap]. apply (vector_grid_shape _ _ _ _ Eg).
Qed.

Lemma grids_and_mask_agree pkg read c g r k mask :
  create_grids pkg read c = Ok (g, r, k) -> create_freq_mask pkg read c = Ok mask ->
  tshape g = tshape mask /\ tshape r = tshape mask.
Proof.
  intros H1 H2. destruct (create_grids_inv _ _ _ _ _ _ H1) as (cr & gs & n & ks & nk & _ & Eg & En & _ & _ & Hg & Hr & _).
  destruct (mask_shape _ _ _ _ H2) as (gs' & n' & Eg' & En' & ->). rewrite Eg in Eg'. injection Eg' as <-.
  rewrite En in En'. injection En' as <-. split; [apply (vector_grid_shape _ _ _ _ Hg)|apply (vector_grid_shape _ _ _ _ Hr)].
Qed.

Lemma grids_k_count pkg read c g r k l : create_grids pkg read c = Ok (g, r, k) ->
  (exists ks, assoc "k_grid_sizes"%string c = Some ks /\ requested (cfg_grid ks) = Some l) ->
  exists nk, Forall2 (least_at_least smooth7) l nk /\ length k = nprod (map Z.to_nat nk).
Proof.
  intros H (ks & Ek & Er). destruct (create_grids_inv _ _ _ _ _ _ H) as (cr & gs & n & ks' & nk & _ & _ & _ & Ek' & Enk & _ & _ & Hk).
  unfold getattr in Ek'. rewrite Ek in Ek'. injection Ek' as <-. exists nk. split.
  - eapply pgs_spec; eassumption.
  - apply (k_vectors_length _ _ _ Hk).
Qed.

(** ** Pseudopotential construction *)
Lemma pseudo_default {PP} pkg read (nc us : crystal -> string -> res PP) :
  raises (create_pseudopotential pkg read nc us (setattr default_config "use_pseudopotential" (VBool true))).
Proof.
  unfold create_pseudopotential. cbn [bind]. unfold getattr at 1. rewrite assoc_set. cbn [bind truthy negb].
  destruct (create_crystal _ _ _); [|eexists; reflexivity]. cbn [bind]. eexists. reflexivity.
Qed.
Lemma pseudo_needs_type {PP} pkg read (nc us : crystal -> string -> res PP) c :
  ~ has_key c "pseudopotential_type" -> raises (create_pseudopotential pkg read nc us c).
Proof.
  intros Hk. apply assoc_none in Hk. unfold create_pseudopotential.
  destruct (getattr c "use_pseudopotential") as [u|]; [|eexists; reflexivity]. cbn [bind].
  destruct (negb (truthy u)); [eexists; reflexivity|].
  destruct (create_crystal _ _ _); [|eexists; reflexivity]. cbn [bind]. unfold getattr at 1. rewrite Hk. eexists. reflexivity.
Qed.
Lemma default_keys : ~ has_key default_config "pseudopotential_type".
Proof. apply assoc_none. reflexivity. Qed.


Lemma create_crystal_parity pkg read c cr : create_crystal pkg read c = Ok cr -> (num_electron cr mod 2 = cr_spin cr mod 2)%Z.
Proof.
  unfold create_crystal. intros H.
  destruct (getattr c "crystal") as [name|]; [|discriminate]. cbn [bind] in H.
  match type of H with (do _ <- ?x; _) = _ => destruct x as [path|]; [|discriminate] end. cbn [bind] in H.
  destruct (getattr c "spin") as [sp|]; [|discriminate]. cbn [bind] in H.
  match type of H with (do _ <- ?x; _) = _ => destruct x as [spin|]; [|discriminate] end. cbn [bind] in H.
  destruct (create_from_file read path spin) as [cr'|]; [|discriminate]. cbn [bind] in H.
  destruct (check_spin_number (num_electron cr') (cr_spin cr')) as [u|] eqn:E; [|discriminate]. cbn [bind] in H. injection H as <-.
  unfold check_spin_number in E. destruct (_ =? _)%Z eqn:E2; [|discriminate]. apply Z.eqb_eq in E2. exact E2.
Qed.

(** ** The nuclear repulsion reads six configuration keys *)
Lemma getattr_other c k k0 v : k0 <> k -> getattr (setattr c k v) k0 = getattr c k0.
Proof. intros H. unfold getattr. rewrite assoc_set_other by exact H. reflexivity. Qed.
Lemma ewald_frame erfc pkg read c k v : ~ In k geometry_keys ->
  get_ewald_coulomb_repulsion erfc pkg read (setattr c k v) = get_ewald_coulomb_repulsion erfc pkg read c.
Proof.
  intros H. cbn in H.
  assert (Hc : create_crystal pkg read (setattr c k v) = create_crystal pkg read c).
  { unfold create_crystal. rewrite !getattr_other by (intros E; apply H; rewrite <- E; tauto). reflexivity. }
  unfold get_ewald_coulomb_repulsion, create_grids. rewrite Hc, !getattr_other by (intros E; apply H; rewrite <- E; tauto). reflexivity.
Qed.

(** ** Remaining pieces *)
Lemma stale_energy : ~ (forall (total entropy : R -> R) (grad : R -> R -> R) (optimizer : R -> unit -> R * unit)
    (apply_updates : R -> R -> R) smearing epoch w thr ew p0 out,
  ground_state total entropy grad optimizer apply_updates (fun p => p) smearing epoch w thr ew p0 tt = Ok out ->
  logged_total out = total (returned out) + ew).
Proof.
  intros H.
  specialize (H (fun p => p) (fun _ => 0) (fun _ _ => -1) (fun g o => (g, o)) Rplus 0 1%nat 5%nat 0 0 1 _ eq_refl).
  cbn in H. lra.
Qed.

Lemma save_succeeds {A} default (fs : filesystem A) output : exists fs', save_beta_sbt default fs output None = Ok fs'.
Proof. eexists. reflexivity. Qed.
Lemma filename_raises {A} default (fs : filesystem A) output name :
  save_beta_sbt default fs output (Some name) = Err UnboundLocalErr /\ load_beta_sbt default fs (Some name) = Err UnboundLocalErr.
Proof. split; reflexivity. Qed.

Lemma combine_nth_error {A B} (l : list A) : forall (l' : list B) i a b, nth_error l i = Some a -> nth_error l' i = Some b ->
  nth_error (combine l l') i = Some (a, b).
Proof.
  induction l as [|x l IH]; intros [|y l'] [|i] a b H1 H2; cbn in *; try discriminate; try congruence.
  apply IH; assumption.
Qed.
Lemma precalc_spec {A Rg Bg L} (sbt : Rg -> Bg -> L -> A) default fs r_grid beta l out fs' :
  pre_calc_beta_sbt sbt default fs r_grid beta l true = Ok (out, fs') -> length r_grid = length beta -> length beta = length l ->
  load_beta_sbt default fs' None = Ok out /\ length out = length r_grid /\
  forall i r b m, nth_error r_grid i = Some r -> nth_error beta i = Some b -> nth_error l i = Some m -> nth_error out i = Some (sbt r b m).
Proof.
  unfold pre_calc_beta_sbt. intros H Hl1 Hl2.
  set (o := map _ _) in H. destruct (save_beta_sbt default fs o None) as [f|] eqn:E; [|discriminate]. cbn [bind] in H.
  injection H as <- <-. split; [eapply load_after_save; exact E|]. split.
  - unfold o. rewrite map_length, !combine_length. lia.
  - intros i r b m Hr Hb Hm. unfold o. rewrite nth_error_map.
    rewrite (combine_nth_error _ _ _ _ _ (combine_nth_error _ _ _ _ _ Hr Hb) Hm). reflexivity.
Qed.

Lemma precalc_writes {A Rg Bg L} (sbt : Rg -> Bg -> L -> A) default fs r_grid beta l save : exists out fs',
  pre_calc_beta_sbt sbt default fs r_grid beta l save = Ok (out, fs') /\ (forall save', exists fs2, pre_calc_beta_sbt sbt default fs r_grid beta l save' = Ok (out, fs2)) /\
  (save = false -> fs' = fs) /\ forall name, name <> default -> assoc name fs' = assoc name fs.
Proof.
  unfold pre_calc_beta_sbt. set (o := map _ _). destruct save; cbn [save_beta_sbt bind].
  - exists o, ((default, np_savez o) :: fs). split; [reflexivity|]. split; [intros []; eexists; reflexivity|]. split; [discriminate|]. intros name Hn. cbn [assoc].
    destruct (String.eqb_spec name default); [contradiction|reflexivity].
  - exists o, fs. split; [reflexivity|]. split; [intros []; eexists; reflexivity|]. split; [reflexivity|]. reflexivity.
Qed.

Lemma config_not_merged : ~ (forall m, unique_keys m -> (forall k, has_key m k -> has_key default_config k) ->
  exists c, get_config (Some (YMap m)) = Ok c /\ forall k, has_key default_config k -> has_key c k).
Proof.
  intros H. destruct (H [("crystal", VStr "silicon")]%string) as (c & Hc & _).
  - constructor; [intros []|constructor].
  - intros k [<-|[]]. left. reflexivity.
  - discriminate.
Qed.

Lemma vmapstack_spec {A B} times (f : tensor A -> tensor B) : shape_determined f ->
  exists g, vmapstack times [] f = Ok g /\ forall t, (times <= length (tshape t))%nat ->
    (forall i j, length i = times -> tget (g t) (i ++ j) = tget (f (sub t i)) j) /\
    (forall i, length i = times -> tshape (g t) = firstn times (tshape t) ++ tshape (f (sub t i))).
Proof.
  intros Hf. eexists. split; [reflexivity|]. intros t Ht. split.
  - intros i j Hi. apply iterate_vmap; assumption.
  - intros i Hi. apply iterate_vmap_shape; assumption.
Qed.
Lemma vmapstack_raises {A B} times args (f : tensor A -> tensor B) :
  raises (vmapstack times args f) <-> args <> [] /\ length args <> times.
Proof.
  unfold vmapstack, raises. destruct args as [|a l]; [split; [intros [e H]; discriminate|tauto]|].
  destruct (Nat.eqb_spec (length (a :: l)) times) as [E|E].
  - split; [intros [e H]; discriminate|tauto].
  - split; [split; [discriminate|exact E]|eauto].
Qed.

Lemma parse_args_untouched pi pf c args c' : parse_args pi pf c args = Ok c' ->
  forall k, ~ In k (map fst args) -> assoc k c' = assoc k c.
Proof. intros H k Hk. eapply apply_args_untouched; eassumption. Qed.
Lemma concat_cons a l : String.concat "" (String a EmptyString :: l) = String a (String.concat "" l).
Proof. destruct l; reflexivity. Qed.
Lemma chars_spec s : exists l, chars s = map VStr l /\ Forall (fun s => String.length s = 1%nat) l /\ String.concat "" l = s.
Proof.
  induction s as [|a s (l & E & F & G)]; [exists []; repeat split; constructor|]. exists (String a EmptyString :: l). cbn [chars map]. rewrite E. split; [reflexivity|]. split; [constructor; [reflexivity|exact F]|].
  rewrite concat_cons, G. reflexivity.
Qed.
Lemma chars_unique s l : Forall (fun s => String.length s = 1%nat) l -> String.concat "" l = s -> chars s = map VStr l.
Proof.
  intros F. revert s. induction F as [|w l Hw F IH]; intros s <-; [reflexivity|]. destruct w as [|a [|b w]]; try discriminate. rewrite concat_cons. cbn [chars map]. rewrite (IH _ eq_refl). reflexivity.
Qed.
Lemma convert_iff pi pf v text v' : convert pi pf v text = Ok v' <-> option_value pi pf v text v'.
Proof.
  destruct v as [|b|z|r|s|l|d]; cbn [convert option_value].
  - split; [discriminate|tauto].
  - destruct (String.eqb_spec text "") as [->|N]; cbn [negb]; split; intros H.
    + injection H as <-. left. auto.
    + destruct H as [[_ ->]|[H _]]; [reflexivity|congruence].
    + injection H as <-. right. auto.
    + destruct H as [[H _]|[_ ->]]; [congruence|reflexivity].
  - destruct (pi text) as [y|]; split; intros H; try discriminate; [injection H as <-; eauto|destruct H as (x & E & ->); injection E as ->; reflexivity|destruct H as (x & E & _); discriminate].
  - destruct (pf text) as [y|]; split; intros H; try discriminate; [injection H as <-; eauto|destruct H as (x & E & ->); injection E as ->; reflexivity|destruct H as (x & E & _); discriminate].
  - split; intros H; [injection H as <-; reflexivity|rewrite H; reflexivity].
  - split; intros H; [injection H as <-; destruct (chars_spec text) as (l' & E & F & G); exists l'; rewrite E; auto|]. destruct H as (l' & -> & F & G). rewrite (chars_unique _ _ F G). reflexivity.
  - split; [discriminate|tauto].
Qed.
Lemma apply_app pi pf c0 pre : forall post c, apply_args pi pf c0 c (pre ++ post) = (do c' <- apply_args pi pf c0 c pre; apply_args pi pf c0 c' post).
Proof.
  induction pre as [|[k t] pre IH]; intros post c; [reflexivity|]. cbn [app apply_args]. destruct (assoc k c0) as [v|]; [|reflexivity]. destruct (convert pi pf v t) as [v'|]; [|reflexivity]. cbn [bind]. apply IH.
Qed.
Lemma parse_args_last pi pf c pre k text post c' : parse_args pi pf c (pre ++ (k, text) :: post) = Ok c' -> ~ In k (map fst post) ->
  exists v v', assoc k c = Some v /\ option_value pi pf v text v' /\ assoc k c' = Some v'.
Proof.
  unfold parse_args. change ((k, text) :: post) with ([(k, text)] ++ post). rewrite app_assoc, apply_app. destruct (apply_args pi pf c c (pre ++ [(k, text)])) as [c1|] eqn:E; [|discriminate]. cbn [bind]. intros H Hk.
  destruct (apply_args_last pi pf c pre c c1 k text E) as (v & v' & H1 & H2 & H3). exists v, v'. split; [exact H1|]. split; [apply convert_iff; exact H2|]. rewrite (apply_args_untouched pi pf c post c1 c' H k Hk). exact H3.
Qed.
Lemma parse_args_returns pi pf c args : (exists c', parse_args pi pf c args = Ok c') <-> Forall (fun kt => exists v v', assoc (fst kt) c = Some v /\ option_value pi pf v (snd kt) v') args.
Proof.
  unfold parse_args. generalize c at 2. induction args as [|[k t] args IH]; intros c1; cbn [apply_args]; [split; [constructor|intros _; eexists; reflexivity]|]. split.
  - intros (c' & H). destruct (assoc k c) as [v|] eqn:E; [|discriminate]. destruct (convert pi pf v t) as [v'|] eqn:F; [|discriminate]. cbn [bind] in H. constructor; [|apply (IH (setattr c1 k v')); eexists; exact H].
    exists v, v'. split; [exact E|apply convert_iff; exact F].
  - intros H. inversion H as [|? ? (v & v' & E & F) G]; subst. cbn [fst snd] in E, F. rewrite E. apply convert_iff in F. rewrite F. cbn [bind]. apply IH. exact G.
Qed.
Lemma fraction_refuted : ~ (forall pi pf text x, pf text = Some x -> exists c', parse_args pi pf default_config [("cutoff_energy"%string, text)] = Ok c').
Proof. intros H. destruct (H (fun _ => None) (fun _ => Some (101 / 2)) "50.5"%string (101 / 2) eq_refl) as (c' & E). discriminate. Qed.

(** which loader reads which directory *)
Lemma existsb_In s l : existsb (String.eqb s) l = true <-> In s l.
Proof.
  rewrite existsb_exists. split.
  - intros (x & Hx & E). apply String.eqb_eq in E. subst. exact Hx.
  - intros H. exists s. split; [exact H|apply String.eqb_refl].
Qed.
Lemma pseudo_loader {PP} pkg read (nc us : crystal -> string -> res PP) c pp :
  create_pseudopotential pkg read nc us c = Ok pp <->
  exists u cr s d path, getattr c "use_pseudopotential" = Ok u /\ truthy u = true /\ create_crystal pkg read c = Ok cr /\
    getattr c "pseudopotential_type" = Ok (VStr s) /\ getattr c "pseudopotential_file_dir" = Ok d /\
    ((In s ["normcons"; "normconserving"; "nc"]%string /\ (d = VNone /\ path = append pkg "/pseudopotential/normconserving/" \/ d = VStr path) /\ nc cr path = Ok pp) \/
     (In s ["ultrasoft"; "us"]%string /\ (d = VNone /\ path = append pkg "/pseudopotential/ultrasoft/" \/ d = VStr path) /\ us cr path = Ok pp)).
Proof.
  unfold create_pseudopotential. split.
  - destruct (getattr c "use_pseudopotential") as [u|]; cbn [bind]; [|discriminate]. destruct (truthy u) eqn:Eu; cbn [negb]; [|discriminate].
    destruct (create_crystal pkg read c) as [cr|]; cbn [bind]; [|discriminate].
    destruct (getattr c "pseudopotential_type") as [[]|] eqn:Et; cbn [bind]; try discriminate. intros H.
    destruct (getattr c "pseudopotential_file_dir") as [d|] eqn:Ed.
    2:{ exfalso. destruct (existsb _ _); [discriminate|]. destruct (existsb _ _); discriminate. }
    destruct (existsb (String.eqb s) ["normcons"; "normconserving"; "nc"]%string) eqn:E1; [|destruct (existsb (String.eqb s) ["ultrasoft"; "us"]%string) eqn:E2; [|discriminate]].
    + apply existsb_In in E1. destruct d; cbn [bind] in H; try discriminate; do 5 eexists; (split; [reflexivity|]); (split; [exact Eu|]); (split; [reflexivity|]); (split; [reflexivity|]); (split; [reflexivity|]); left; (split; [exact E1|]); (split; [|exact H]); auto.
    + apply existsb_In in E2. destruct d; cbn [bind] in H; try discriminate; do 5 eexists; (split; [reflexivity|]); (split; [exact Eu|]); (split; [reflexivity|]); (split; [reflexivity|]); (split; [reflexivity|]); right; (split; [exact E2|]); (split; [|exact H]); auto.
  - intros (u & cr & s & d & path & -> & Eu & -> & -> & -> & [(Hs & Hd & Hp)|(Hs & Hd & Hp)]); cbn [bind]; rewrite Eu; cbn [negb bind].
    + rewrite (proj2 (existsb_In s _) Hs). destruct Hd as [(-> & ->)| ->]; exact Hp.
    + replace (existsb (String.eqb s) ["normcons"; "normconserving"; "nc"]%string) with false by (destruct Hs as [<-|[<-|[]]]; reflexivity).
      rewrite (proj2 (existsb_In s _) Hs). destruct Hd as [(-> & ->)| ->]; exact Hp.
Qed.
Lemma pseudo_unknown {PP} pkg read (nc us : crystal -> string -> res PP) c s :
  getattr c "pseudopotential_type" = Ok (VStr s) -> ~ In s ["normcons"; "normconserving"; "nc"; "ultrasoft"; "us"]%string -> raises (create_pseudopotential pkg read nc us c).
Proof.
  intros Ht Hs. destruct (create_pseudopotential pkg read nc us c) as [pp|e] eqn:E; [|exists e; reflexivity]. exfalso.
  apply pseudo_loader in E. destruct E as (u & cr & s' & d & path & _ & _ & _ & Ht' & _ & H). rewrite Ht in Ht'. injection Ht' as <-. apply Hs. cbn in *. intuition.
Qed.

(** the grids and the mask are those of the configured crystal, sizes and cutoff *)
Lemma mask_values pkg read c g r k mask : create_grids pkg read c = Ok (g, r, k) -> create_freq_mask pkg read c = Ok mask ->
  (getattr c "freq_mask_method" = Ok (VStr "cubic") /\
   exists n f, tshape g = map Z.to_nat n /\ cubic_mask n = Ok f /\ forall i, tget mask i = f (map Z.of_nat i)) \/
  (getattr c "freq_mask_method" = Ok (VStr "spherical") /\
   exists v E, getattr c "cutoff_energy" = Ok v /\ cfg_real v = Ok E /\ forall i, tget mask i = true <-> (norm2 (tget g i) / 2 <= E)%R).
Proof.
  intros Hg H. destruct (create_grids_inv _ _ _ _ _ _ Hg) as (cr & gs & n & ks & nk & Ec & Eg & En & _ & _ & Gg & _ & _).
  unfold create_freq_mask in H. rewrite Ec in H. cbn [bind] in H. rewrite Eg in H. cbn [bind] in H. rewrite En in H. cbn [bind] in H.
  destruct (getattr c "freq_mask_method") as [m|] eqn:E4; [|discriminate]. cbn [bind] in H. destruct m; try discriminate.
  destruct (String.eqb s "cubic") eqn:Es.
  - left. apply String.eqb_eq in Es. subst s. split; [reflexivity|]. destruct (cubic_mask n) as [f|] eqn:Ef; [|discriminate]. cbn [bind] in H.
    destruct (estimate_max_cutoff_energy _ _); [|discriminate]. cbn [bind] in H. injection H as <-. exists n, f. split; [apply (vector_grid_shape _ _ _ _ Gg)|]. split; [exact Ef|]. reflexivity.
  - destruct (String.eqb s "spherical") eqn:Ep; [|discriminate]. right. apply String.eqb_eq in Ep. subst s. split; [reflexivity|].
    destruct (getattr c "cutoff_energy") as [v|]; [|discriminate]. cbn [bind] in H. destruct (cfg_real v) as [E|] eqn:Er; [|discriminate]. cbn [bind] in H.
    exists v, E. split; [reflexivity|]. split; [exact Er|]. destruct (spherical_mask_spec _ _ _ _ H) as (G & HG & _ & Hi). rewrite Gg in HG. injection HG as <-. exact Hi.
Qed.
Lemma grids_values pkg read c g r k : create_grids pkg read c = Ok (g, r, k) ->
  exists cr gs ks n nk, create_crystal pkg read c = Ok cr /\ getattr c "grid_sizes" = Ok gs /\ proper_grid_size (cfg_grid gs) = Ok n /\
    getattr c "k_grid_sizes" = Ok ks /\ proper_grid_size (cfg_grid ks) = Ok nk /\
    g_vectors (cr_cell cr) (map Z.to_nat n) = Ok g /\ r_vectors (cr_cell cr) (map Z.to_nat n) = Ok r /\ k_vectors (cr_cell cr) (map Z.to_nat nk) = Ok k.
Proof.
  intros H. destruct (create_grids_inv _ _ _ _ _ _ H) as (cr & gs & n & ks & nk & H1 & H2 & H3 & H4 & H5 & H6 & H7 & H8).
  exists cr, gs, ks, n, nk. repeat split; assumption.
Qed.
