(** Creation of crystals. *)
From Coq Require Import Reals Lra Lia.
From Coq Require Import Ascii String List Arith ZArith Bool.
From Verif Require Import Base Sums Tensor Lin3 VecModel VecProofs OccModel EwaldModel EwaldSpec EwaldProofs EwaldProofs2 GridModel CalcModel CalcSpec CalcProofs3.
Import ListNotations.
Local Open Scope R_scope.

Lemma bohr_eq : bohr_per_angstrom = angstrom2bohr.
Proof. unfold bohr_per_angstrom, angstrom2bohr. lra. Qed.
Lemma bohr_pos : 1 < bohr_per_angstrom.
Proof. unfold bohr_per_angstrom. lra. Qed.
Lemma longer_iff u v : longer u v <-> v = vscale angstrom2bohr u.
Proof.
  rewrite <- bohr_eq. unfold longer, vscale. destruct u as [a b c], v as [x y z]. cbn [vx vy vz]. split; [intros (-> & -> & ->); reflexivity|].
  intros E. injection E as -> -> ->. auto.
Qed.
Lemma parity_spin n : (n mod 2)%Z = (if Z.even n then 0 else 1)%Z.
Proof. rewrite Zmod_even. reflexivity. Qed.
Lemma ase_in_bohr a spin : in_bohr a (crystal_of_ase a spin) /\ cr_spin (crystal_of_ase a spin) = spin_of spin (crystal_of_ase a spin).
Proof.
  unfold in_bohr, crystal_of_ase, spin_of. cbv zeta. cbn [cr_charges cr_positions cr_cell cr_spin num_electron]. repeat split.
  - induction (a_positions a) as [|p l IH]; constructor; [apply longer_iff; reflexivity|exact IH].
  - destruct spin; [reflexivity|]. unfold num_electron. cbn [cr_charges]. apply parity_spin.
Qed.
Lemma in_bohr_unique a spin cr : in_bohr a cr -> cr_spin cr = spin_of spin cr -> cr = crystal_of_ase a spin.
Proof.
  destruct cr as [q p A s]. intros (Hq & Hp & H0 & H1 & H2) Hs. cbn [cr_charges cr_positions cr_cell cr_spin] in *. unfold crystal_of_ase. cbv zeta.
  apply longer_iff in H0, H1, H2. destruct A as [a0 a1 a2]. cbn [m0 m1 m2] in *. subst q a0 a1 a2.
  assert (E : p = map (vscale angstrom2bohr) (a_positions a)). { clear -Hp. induction Hp as [|u v l l' H _ IH]; [reflexivity|]. apply longer_iff in H. cbn. congruence. }
  subst p. f_equal. rewrite Hs. unfold spin_of. destruct spin; [reflexivity|]. unfold num_electron. cbn [cr_charges]. symmetry. apply parity_spin.
Qed.
Lemma from_file read path spin cr : create_from_file read path spin = Ok cr <-> exists a, read path = Ok a /\ in_bohr a cr /\ cr_spin cr = spin_of spin cr.
Proof.
  unfold create_from_file. split.
  - intros H. destruct (read path) as [a|] eqn:E; [|discriminate]. cbn [bind] in H. injection H as <-. exists a. split; [reflexivity|]. apply ase_in_bohr.
  - intros (a & -> & H1 & H2). cbn [bind]. f_equal. symmetry. apply in_bohr_unique; assumption.
Qed.
Lemma from_config pkg read c cr : create_crystal pkg read c = Ok cr -> exists path a sp, geometry_file pkg c path /\ read path = Ok a /\ in_bohr a cr /\
  getattr c "spin" = Ok sp /\ cr_spin cr = spin_of (match sp with VInt z => Some z | VBool b => Some (if b then 1 else 0)%Z | _ => None end) cr.
Proof.
  unfold create_crystal. intros H.
  destruct (getattr c "crystal") as [name|] eqn:En; [|discriminate]. cbn [bind] in H.
  match type of H with (do _ <- ?x; _) = _ => destruct x as [path|] eqn:Ep; [|discriminate] end. cbn [bind] in H.
  destruct (getattr c "spin") as [sp|] eqn:Es; [|discriminate]. cbn [bind] in H.
  match type of H with (do _ <- ?x; _) = _ => destruct x as [spin|] eqn:Esp; [|discriminate] end. cbn [bind] in H.
  destruct (create_from_file read path spin) as [cr'|] eqn:Ec; [|discriminate]. cbn [bind] in H.
  destruct (check_spin_number (num_electron cr') (cr_spin cr')) as [u|]; [|discriminate]. cbn [bind] in H. injection H as <-.
  apply from_file in Ec. destruct Ec as (a & Ha & Hb & Hs). exists path, a, sp. split; [|split; [exact Ha|split; [exact Hb|split; [reflexivity|]]]].
  - unfold geometry_file. rewrite En. destruct name; try discriminate.
    + left. split; [reflexivity|]. destruct (getattr c "crystal_file_path_path") as [v|]; [|discriminate]. cbn [bind] in Ep. destruct v; try discriminate. injection Ep as ->. reflexivity.
    + right. eexists. split; [reflexivity|]. injection Ep as <-. reflexivity.
  - rewrite Hs. destruct sp; try discriminate; injection Esp as <-; reflexivity.
Qed.
Lemma bohr_volume a cr : in_bohr a cr -> volume (cr_cell cr) = bohr_per_angstrom ^ 3 * volume (a_cell a).
Proof.
  intros (_ & _ & H0 & H1 & H2). apply longer_iff in H0, H1, H2. rewrite bohr_eq. unfold volume.
  replace (cr_cell cr) with (m3scale angstrom2bohr (a_cell a)) by (apply m3_eq; auto). rewrite m3det_scale, Rabs_mult. f_equal.
  apply Rabs_right. apply Rle_ge, pow_le. rewrite <- bohr_eq. pose proof bohr_pos. lra.
Qed.
Lemma bohr_length a cr i : in_bohr a cr -> (i < length (a_positions a))%nat -> nth i (cr_positions cr) vzero = vscale angstrom2bohr (nth i (a_positions a) vzero).
Proof.
  intros (_ & H & _) Hi. revert i Hi. induction H as [|u v l l' Hu _ IH]; intros i Hi; [cbn in Hi; lia|]. apply longer_iff in Hu.
  destruct i as [|i]; cbn [nth]; [exact Hu|]. apply IH. cbn in Hi. lia.
Qed.
Lemma bohr_fractional a cr i f : in_bohr a cr -> (i < length (a_positions a))%nat -> nth i (a_positions a) vzero = vmul f (a_cell a) -> nth i (cr_positions cr) vzero = vmul f (cr_cell cr).
Proof.
  intros H Hi Hf. rewrite (bohr_length a cr i H Hi), Hf. destruct H as (_ & _ & H0 & H1 & H2). apply longer_iff in H0, H1, H2.
  replace (cr_cell cr) with (m3scale angstrom2bohr (a_cell a)) by (apply m3_eq; auto). rewrite vmul_mscale. reflexivity.
Qed.
Lemma bohr_distance a cr i j : in_bohr a cr -> (i < length (a_positions a))%nat -> (j < length (a_positions a))%nat ->
  norm (vsub (nth i (cr_positions cr) vzero) (nth j (cr_positions cr) vzero)) = bohr_per_angstrom * norm (vsub (nth i (a_positions a) vzero) (nth j (a_positions a) vzero)).
Proof.
  intros H Hi Hj. rewrite (bohr_length a cr i H Hi), (bohr_length a cr j H Hj). rewrite bohr_eq.
  replace (vsub (vscale angstrom2bohr (nth i (a_positions a) vzero)) (vscale angstrom2bohr (nth j (a_positions a) vzero))) with (vscale angstrom2bohr (vsub (nth i (a_positions a) vzero) (nth j (a_positions a) vzero))) by (lin3; ring).
  unfold norm. rewrite norm2_scale. assert (0 < angstrom2bohr) by (rewrite <- bohr_eq; pose proof bohr_pos; lra).
  rewrite sqrt_mult by (pose proof (norm2_nonneg (vsub (nth i (a_positions a) vzero) (nth j (a_positions a) vzero))); nra). rewrite sqrt_square by lra. reflexivity.
Qed.
Lemma from_symbols numbers symbols positions cell spin cr : create_from_symbols numbers symbols positions cell spin = Ok cr <->
  exists zs, numbers symbols = Ok zs /\ length positions = length zs /\ in_bohr (Ase zs positions cell) cr /\ cr_spin cr = spin_of spin cr.
Proof.
  unfold create_from_symbols. split.
  - intros H. destruct (numbers symbols) as [zs|]; [|discriminate]. cbn [bind] in H. destruct (Nat.eqb_spec (length positions) (length zs)) as [E|]; [|discriminate].
    cbn [negb] in H. injection H as <-. exists zs. split; [reflexivity|]. split; [exact E|]. apply ase_in_bohr.
  - intros (zs & -> & -> & H1 & H2). cbn [bind]. rewrite Nat.eqb_refl. cbn [negb]. f_equal. symmetry. apply in_bohr_unique; assumption.
Qed.
Lemma longer_fix v : longer v v <-> v = vzero.
Proof.
  split; [|intros ->; unfold longer, vzero; cbn; repeat split; ring]. intros (H1 & H2 & H3). pose proof bohr_pos. destruct v as [x y z]. cbn [vx vy vz] in *. unfold vzero. f_equal; nra.
Qed.
Lemma vscale_0 a : vscale a vzero = vzero.
Proof. unfold vscale, vzero. cbn [vx vy vz]. f_equal; ring. Qed.
Lemma symbols_unchanged numbers symbols positions cell spin cr : create_from_symbols numbers symbols positions cell spin = Ok cr ->
  (cr_positions cr = positions <-> Forall (eq vzero) positions) /\ (cr_cell cr = cell <-> cell = M3 vzero vzero vzero).
Proof.
  intros H. apply from_symbols in H. destruct H as (zs & _ & _ & (_ & Hp & H0 & H1 & H2) & _). cbn [a_positions a_cell] in *. split.
  - split.
    + intros E. rewrite E in Hp. clear -Hp. induction positions as [|p l IH]; constructor; inversion Hp; subst; [symmetry; apply longer_fix; assumption|auto].
    + intros F. revert F. induction Hp as [|u v l l' Hu _ IH]; intros F; [reflexivity|]. inversion F as [|? ? E F']; subst. f_equal; [|auto].
      apply longer_iff in Hu. rewrite Hu. apply vscale_0.
  - split.
    + intros E. rewrite E in *. apply longer_fix in H0, H1, H2. destruct cell as [c0 c1 c2]. cbn [m0 m1 m2] in *. congruence.
    + intros ->. apply longer_iff in H0, H1, H2. cbn [m0 m1 m2] in *. apply m3_eq; [rewrite H0|rewrite H1|rewrite H2]; apply vscale_0.
Qed.
Lemma symbols_bohr_wrong : ~ (forall numbers symbols positions cell spin cr, create_from_symbols numbers symbols positions cell spin = Ok cr -> cr_positions cr = positions /\ cr_cell cr = cell).
Proof.
  intros H. destruct (H (fun _ => Ok [1%Z]) "H"%string [V3 1 0 0] m3id None _ eq_refl) as [E _].
  apply (f_equal (fun l => vx (hd vzero l))) in E. cbn in E. unfold angstrom2bohr in E. lra.
Qed.
Lemma default_spin read path cr : create_from_file read path None = Ok cr -> (cr_spin cr = 0 \/ cr_spin cr = 1)%Z /\ check_spin_number (num_electron cr) (cr_spin cr) = Ok tt.
Proof.
  intros H. apply from_file in H. destruct H as (a & _ & _ & Hs). cbn [spin_of] in Hs. split; [rewrite Hs; destruct (Z.even _); auto|].
  unfold check_spin_number. rewrite Hs, <- parity_spin. rewrite Zmod_mod, Z.eqb_refl. reflexivity.
Qed.
Lemma repulsion_value erfc pkg read c e cr : create_crystal pkg read c = Ok cr -> get_ewald_coulomb_repulsion erfc pkg read c = Ok e ->
  exists d cut eta cutoff width T g r k, getattr c "ewald_args" = Ok (VDict d) /\ assoc "ewald_cutoff" d = Some cut /\ assoc "ewald_eta" d = Some eta /\ cfg_real cut = Ok cutoff /\ cfg_real eta = Ok width /\
    translation_vectors (cr_cell cr) cutoff = Ok T /\ create_grids pkg read c = Ok (g, r, k) /\
    ewald_coulomb_repulsion erfc (cr_positions cr) (map IZR (cr_charges cr)) g (volume (cr_cell cr)) width T = Ok e.
Proof.
  intros Hc H. unfold get_ewald_coulomb_repulsion in H. rewrite Hc in H. cbn [bind] in H.
  destruct (getattr c "ewald_args") as [ea|]; [|discriminate]. cbn [bind] in H. destruct ea; try discriminate.
  match type of H with match ?x with _ => _ end = _ => destruct x as [cut|] eqn:E1; [|discriminate] end.
  match type of H with match ?x with _ => _ end = _ => destruct x as [eta|] eqn:E2; [|discriminate] end.
  destruct (cfg_real cut) as [cutoff|] eqn:E3; [|discriminate]. cbn [bind] in H. destruct (translation_vectors (cr_cell cr) cutoff) as [T|] eqn:E4; [|discriminate]. cbn [bind] in H.
  destruct (create_grids pkg read c) as [[[g r] k]|] eqn:E5; [|discriminate]. cbn [bind] in H. destruct (cfg_real eta) as [width|] eqn:E6; [|discriminate]. cbn [bind fst] in H.
  exists d, cut, eta, cutoff, width, T, g, r, k. auto 12.
Qed.
Lemma split_combine_pos (p : list v3) : forall q : list R, length q = length p -> positions (combine p q) = p /\ charges (combine p q) = q.
Proof.
  unfold positions, charges. induction p as [|u p IH]; intros [|x q] H; try discriminate; [split; reflexivity|]. cbn. injection H as H. destruct (IH q H) as [E1 E2]. split; congruence.
Qed.
Lemma repulsion_formula f pkg read c e cr g r k delta : erfc_ok f -> create_crystal pkg read c = Ok cr -> create_grids pkg read c = Ok (g, r, k) -> m3det (cr_cell cr) <> 0 ->
  get_ewald_coulomb_repulsion f pkg read c = Ok e -> / 10 ^ 9 <= delta ->
  exists cutoff width T, translation_vectors (cr_cell cr) cutoff = Ok T /\
   (exists d x y, getattr c "ewald_args" = Ok (VDict d) /\ assoc "ewald_cutoff" d = Some x /\ assoc "ewald_eta" d = Some y /\ cfg_real x = Ok cutoff /\ cfg_real y = Ok width) /\
   (0 < width -> (forall a b t, In a (cr_positions cr) -> In b (cr_positions cr) -> In t T -> vsub (vsub b a) t = vzero \/ delta <= norm (vsub (vsub b a) t)) ->
    Rabs (e - ewald_formula f (combine (cr_positions cr) (map IZR (cr_charges cr))) (map (tget g) (indices (tshape g))) (volume (cr_cell cr)) width T)
      <= sumR (cr_charges cr) (fun z => Rabs (IZR z)) ^ 2 * INR (length T) * regular_error width delta / 2).
Proof.
  intros Hf Hc Hg HA He Hd. destruct (repulsion_value f pkg read c e cr Hc He) as (d & x & y & cutoff & width & T & g' & r' & k' & E1 & E2 & E3 & E4 & E5 & HT & Hg' & HE).
  rewrite Hg in Hg'. injection Hg' as <- <- <-. exists cutoff, width, T. split; [exact HT|]. split; [exists d, x, y; auto|]. intros Hw Hsep.
  assert (Hlen : length (map IZR (cr_charges cr)) = length (cr_positions cr)).
  { destruct (Nat.eq_dec (length (map IZR (cr_charges cr))) (length (cr_positions cr))) as [E|N]; [exact E|]. rewrite (ewald_mismatch _ _ _ _ _ _ _ N) in HE. discriminate. }
  destruct (split_combine_pos _ _ Hlen) as [Ep Eq].
  destruct (create_grids_inv _ _ _ _ _ _ Hg) as (cr' & gs & n & ks & nk & Hc' & _ & _ & _ & _ & HG & _). rewrite Hc in Hc'. injection Hc' as <-.
  destruct (vector_grid_inv _ _ _ _ HG) as (n1 & n2 & n3 & En & _). rewrite En in HG.
  assert (Hv : volume (cr_cell cr) <> 0) by (unfold volume; apply Rabs_no_R0; exact HA).
  pose proof (ewald_near f (combine (cr_positions cr) (map IZR (cr_charges cr))) (cr_cell cr) n1 n2 n3 g (volume (cr_cell cr)) width T delta e Hf HA HG Hv Hw Hd) as N.
  rewrite Ep, Eq in N. rewrite sumR_map in N. apply N; [|exact HE].
  intros a b t Ha Hb Ht. apply Hsep; [| |exact Ht].
  - rewrite <- Ep. apply in_map. exact Ha.
  - rewrite <- Ep. apply in_map. exact Hb.
Qed.
Definition ex_pair : list (v3 * R) := [(vzero, 6); (V3 1 1 1, 6)].
Lemma ex_ewald_case : exists G e, let A := m3scale 4 m3id in let T := [vzero; V3 4 0 0] in
  m3det A <> 0 /\ g_vectors A [2; 2; 2]%nat = Ok G /\ volume A <> 0 /\
  (forall a b t, In a ex_pair -> In b ex_pair -> In t T -> vsub (vsub (fst b) (fst a)) t = vzero \/ 1 <= norm (vsub (vsub (fst b) (fst a)) t)) /\
  ewald_coulomb_repulsion erfc (positions ex_pair) (charges ex_pair) G (volume A) 1 T = Ok e.
Proof.
  assert (HA : m3det (m3scale 4 m3id) <> 0) by (rewrite m3det_scale, m3det_id; lra).
  destruct (proj2 (g_vectors_ok (m3scale 4 m3id) 2 2 2) ltac:(lia)) as [G HG]. eexists G, _. cbv zeta. split; [exact HA|]. split; [exact HG|].
  split; [unfold volume; apply Rabs_no_R0; exact HA|]. split; [|apply ewald_pairs].
  assert (F : forall v, 1 <= norm2 v -> 1 <= norm v) by (intros v Hv; unfold norm; rewrite <- sqrt_1; apply sqrt_le_1_alt; exact Hv).
  assert (Z : vsub (vsub vzero vzero) vzero = vzero /\ vsub (vsub (V3 1 1 1) (V3 1 1 1)) vzero = vzero) by (split; unfold vsub, vzero; cbn; f_equal; ring). destruct Z as [Z1 Z2].
  intros a b t [<-|[<-|[]]] [<-|[<-|[]]] [<-|[<-|[]]]; cbn [fst]; auto; right; apply F; unfold norm2, dot, vsub, vzero; cbn; lra.
Qed.
