(** Which settings the calculations need and use. *)
From Coq Require Import Reals Ascii String List Arith ZArith Bool Lia.
From Coquelicot Require Import Complex.
From Verif Require Import Base Sums Tensor Lin3 VecModel GridModel OccModel PwModel EwaldModel EnergyModel BraketModel CalcModel DrvModel BndModel UseSpec.
Import ListNotations.
Local Open Scope R_scope.

Lemma bind_l {X Y} (r : res X) (f : X -> res Y) : raises r -> raises (bind r f).
Proof. intros (e & ->). exists e. reflexivity. Qed.
Lemma bind_r {X Y} (r : res X) (f : X -> res Y) : (forall x, raises (f x)) -> raises (bind r f).
Proof. intros H. destruct r as [x|e]; [apply H|exists e; reflexivity]. Qed.
Lemma err_raises {X} e : raises (@Err X e). Proof. exists e. reflexivity. Qed.
Lemma absent_raises k c : absent k c -> raises (getattr c k).
Proof. intros H. unfold getattr. rewrite H. apply err_raises. Qed.

(** Try the head of each bind, else go on to the next. *)
Ltac seek := repeat (first [apply err_raises | apply bind_l; solve [auto] | apply bind_r; intro]).

Lemma crystal_absent pkg read c k : In k ["crystal"; "spin"]%string -> absent k c -> raises (create_crystal pkg read c).
Proof.
  intros H Ha. apply absent_raises in Ha. unfold create_crystal. destruct H as [<-|[<-|[]]]; seek.
Qed.
Lemma grids_absent pkg read c k : In k ["crystal"; "spin"; "grid_sizes"; "k_grid_sizes"]%string -> absent k c -> raises (create_grids pkg read c).
Proof.
  intros H Ha. pose proof (fun h => crystal_absent pkg read c k h Ha) as Hc. apply absent_raises in Ha. unfold create_grids.
  destruct H as [<-|[<-|[<-|[<-|[]]]]]; try (apply bind_l, Hc; cbn; tauto); seek.
Qed.
Lemma mask_absent pkg read c k : In k ["crystal"; "spin"; "grid_sizes"; "freq_mask_method"]%string -> absent k c -> raises (create_freq_mask pkg read c).
Proof.
  intros H Ha. pose proof (fun h => crystal_absent pkg read c k h Ha) as Hc. apply absent_raises in Ha. unfold create_freq_mask.
  destruct H as [<-|[<-|[<-|[<-|[]]]]]; try (apply bind_l, Hc; cbn; tauto); seek.
Qed.
Lemma ewald_absent erfc pkg read c : absent "ewald_args" c -> raises (get_ewald_coulomb_repulsion erfc pkg read c).
Proof. intros Ha. apply absent_raises in Ha. unfold get_ewald_coulomb_repulsion. seek. Qed.
Lemma optimizer_absent {Opt} (alias : string -> option (cval -> list (string * cval) -> Opt)) c k : In k ["optimizer"; "optimizer_args"; "scheduler"]%string -> absent k c -> raises (create_optimizer alias c).
Proof.
  intros H Ha. apply absent_raises in Ha. unfold create_optimizer. destruct H as [<-|[<-|[<-|[]]]]; seek.
  destruct x0; try apply err_raises. destruct x; try apply err_raises. destruct (assoc "learning_rate" d); [|apply err_raises]. apply bind_l. exact Ha.
Qed.
Lemma pseudo_absent {PP} pkg read (nc us : crystal -> string -> res PP) c k : In k pseudo_required -> absent k c -> raises (create_pseudopotential pkg read nc us c).
Proof.
  intros H Ha. apply absent_raises in Ha. unfold create_pseudopotential. destruct H as [<-|[<-|[<-|[]]]].
  - apply bind_l. exact Ha.
  - apply bind_r. intros u. destruct (negb _); [apply err_raises|]. seek.
  - apply bind_r. intros u. destruct (negb _); [apply err_raises|]. apply bind_r. intros cr. apply bind_r. intros t. cbv zeta.
    destruct t; try apply err_raises. destruct (existsb _ _); [apply bind_l, bind_l, Ha|]. destruct (existsb _ _); [apply bind_l, bind_l, Ha|apply err_raises].
Qed.
Lemma env_absent c k : In k ["jax_debug_nans"; "verbose"; "jax_enable_x64"]%string -> absent k c -> raises (set_env_params c).
Proof. intros H Ha. apply absent_raises in Ha. unfold set_env_params. destruct H as [<-|[<-|[<-|[]]]]; seek. Qed.
Lemma checker_absent c k : In k ["convergence_window_size"; "convergence_condition"]%string -> absent k c -> raises (create_convergence_checker c).
Proof. intros H Ha. apply absent_raises in Ha. unfold create_convergence_checker. destruct H as [<-|[<-|[]]]; seek. Qed.

Lemma setup_absent erfc pkg read devices c electrons ions ir k : In k ground_required -> ~ In k ["optimizer"; "optimizer_args"; "scheduler"]%string -> absent k c ->
  raises (setup erfc pkg read devices c electrons ions ir).
Proof.
  intros H Hn Ha. pose proof (fun h => crystal_absent pkg read c k h Ha) as Hc. pose proof (fun h => grids_absent pkg read c k h Ha) as Hg. pose proof (fun h => mask_absent pkg read c k h Ha) as Hm.
  pose proof (fun h => env_absent c k h Ha) as He. pose proof (fun h => checker_absent c k h Ha) as Hk. 
  assert (Hw : k = "ewald_args"%string -> raises (get_ewald_coulomb_repulsion erfc pkg read c)) by (intros ->; apply ewald_absent; exact Ha).
  apply absent_raises in Ha. unfold setup, ground_required in *. cbn [In] in *.
  decompose [or] H; clear H; subst; try contradiction; try (exfalso; apply Hn; tauto);
    repeat first [apply bind_l; solve [auto 12 | apply Hw; reflexivity] | apply bind_r; intro | match goal with |- raises (let '(_, _) := ?p in _) => destruct p as [[? ?] ?] end].
Qed.
Lemma ae_absent {Os} erfc pkg read devices qr cqr xcd grad (alias : string -> option (cval -> list (string * cval) -> optax Os)) ro rp c k :
  In k ground_required -> absent k c -> raises (ae_calc erfc pkg read devices qr cqr xcd grad alias ro rp c).
Proof.
  intros H Ha. unfold ae_calc, ae_problem. destruct (in_dec string_dec k ["optimizer"; "optimizer_args"; "scheduler"]%string) as [Ho|Ho].
  - apply bind_r. intros pb. apply bind_l. eapply optimizer_absent; eassumption.
  - apply bind_l. eapply setup_absent; eassumption.
Qed.
Lemma nc_absent {Os PP} erfc pkg read (nc us : crystal -> string -> res PP) valence pl pn devices qr cqr xcd grad (alias : string -> option (cval -> list (string * cval) -> optax Os)) ro rp c k :
  In k (ground_required ++ pseudo_required) -> absent k c -> raises (nc_calc erfc pkg read nc us valence pl pn devices qr cqr xcd grad alias ro rp c).
Proof.
  intros H Ha. unfold nc_calc, nc_problem. destruct (in_dec string_dec k ["optimizer"; "optimizer_args"; "scheduler"]%string) as [Ho|Ho].
  - apply bind_r. intros pb. apply bind_l. eapply optimizer_absent; eassumption.
  - apply bind_l. apply in_app_or in H. destruct H as [H|H]; [eapply setup_absent; eassumption|].
    unfold setup. pose proof (pseudo_absent pkg read nc us c k H Ha) as Hp. do 4 (apply bind_r; intro). apply bind_r. intro. apply bind_l. apply bind_l. exact Hp.
Qed.

Lemma band_setup_absent pkg read bandpath c electrons density restricted k : In k band_required -> absent k c -> raises (band_setup pkg read bandpath c electrons density restricted).
Proof.
  intros H Ha. apply absent_raises in Ha. unfold band_setup, band_required in *. cbn [In] in *. decompose [or] H; clear H; subst; try contradiction;
    repeat first [apply bind_l; solve [auto] | apply bind_r; intro | match goal with |- raises (let '(_, _) := ?p in _) => destruct p as [[? ?] ?] end].
Qed.
Lemma band_density pkg read bandpath c electrons density restricted : raises density -> raises (band_setup pkg read bandpath c electrons density restricted).
Proof.
  intros H. unfold band_setup.
  repeat first [apply bind_l; solve [auto] | apply bind_r; intro | match goal with |- raises (let '(_, _) := ?p in _) => destruct p as [[? ?] ?] end].
Qed.
Lemma ae_band_absent {Os Os'} erfc pkg read devices bandpath qr cqr xcd grad (alias' : string -> option (cval -> list (string * cval) -> optax Os')) ro rp ev bgrad
  (alias : string -> option (cval -> list (string * cval) -> boptax Os)) rnd c k : In k (ground_required ++ band_required) -> absent k c ->
  raises (ae_band pkg read devices bandpath (ae_calc erfc pkg read devices qr cqr xcd grad alias' ro rp) cqr xcd ev bgrad alias rnd c).
Proof.
  intros H Ha. unfold ae_band, ae_band_problem. apply bind_l. apply in_app_or in H. destruct H as [H|H]; [|eapply band_setup_absent; eassumption].
  apply band_density, bind_l. eapply ae_absent; eassumption.
Qed.
Lemma nc_band_absent {Os Os' PP GS} erfc pkg read (nc us : crystal -> string -> res PP) valence pl pn pp_path devices bandpath qr cqr xcd grad (alias' : string -> option (cval -> list (string * cval) -> optax Os')) ro rp ev bgrad
  (alias : string -> option (cval -> list (string * cval) -> boptax Os)) rnd c k : In k (ground_required ++ pseudo_required ++ band_required) -> absent k c ->
  raises (nc_band pkg read nc us valence pl pp_path devices bandpath (@None GS) (nc_calc erfc pkg read nc us valence pl pn devices qr cqr xcd grad alias' ro rp) cqr xcd ev bgrad alias rnd c).
Proof.
  intros H Ha. unfold nc_band, nc_band_problem. apply bind_l. rewrite app_assoc in H. apply in_app_or in H. destruct H as [H|H]; [|eapply band_setup_absent; eassumption].
  apply band_density, bind_l. eapply nc_absent; eassumption.
Qed.

(** ** Settings that are not used *)
Lemma agree_get keys c c' : agree keys c c' -> forall k, In k keys -> getattr c' k = getattr c k.
Proof. intros H k Hk. unfold getattr. rewrite (H k Hk). reflexivity. Qed.
Lemma agree_incl a b c c' : incl a b -> agree b c c' -> agree a c c'.
Proof. intros Hi H k Hk. apply H, Hi, Hk. Qed.
Ltac same H := repeat match goal with |- context [getattr ?d ?k] => match type of H with agree _ _ d => rewrite (agree_get _ _ _ H k) by (cbn; tauto) end end.
Ltac sub H := eapply agree_incl; [|exact H]; intros ? ?; cbn in *; tauto.

Definition crystal_keys : list string := ["crystal"; "crystal_file_path_path"; "spin"]%string.
Lemma crystal_agree pkg read c c' : agree crystal_keys c c' -> create_crystal pkg read c' = create_crystal pkg read c.
Proof. intros H. unfold create_crystal. same H. reflexivity. Qed.
Definition grid_keys : list string := crystal_keys ++ ["grid_sizes"; "k_grid_sizes"]%string.
Lemma grids_agree pkg read c c' : agree grid_keys c c' -> create_grids pkg read c' = create_grids pkg read c.
Proof. intros H. unfold create_grids. rewrite (crystal_agree pkg read c c') by sub H. same H. reflexivity. Qed.
Definition mask_keys : list string := crystal_keys ++ ["grid_sizes"; "freq_mask_method"; "cutoff_energy"]%string.
Lemma mask_agree pkg read c c' : agree mask_keys c c' -> create_freq_mask pkg read c' = create_freq_mask pkg read c.
Proof. intros H. unfold create_freq_mask. rewrite (crystal_agree pkg read c c') by sub H. same H. reflexivity. Qed.
Lemma ewald_agree erfc pkg read c c' : agree (grid_keys ++ ["ewald_args"%string]) c c' -> get_ewald_coulomb_repulsion erfc pkg read c' = get_ewald_coulomb_repulsion erfc pkg read c.
Proof. intros H. unfold get_ewald_coulomb_repulsion. rewrite (crystal_agree pkg read c c'), (grids_agree pkg read c c') by sub H. same H. reflexivity. Qed.
Definition opt_keys : list string := ["optimizer"; "optimizer_args"; "scheduler"]%string.
Lemma optimizer_agree {Opt} (alias : string -> option (cval -> list (string * cval) -> Opt)) c c' : agree opt_keys c c' -> create_optimizer alias c' = create_optimizer alias c.
Proof. intros H. unfold create_optimizer. same H. reflexivity. Qed.
Lemma pseudo_agree {PP} pkg read (nc us : crystal -> string -> res PP) c c' : agree (crystal_keys ++ pseudo_required) c c' -> create_pseudopotential pkg read nc us c' = create_pseudopotential pkg read nc us c.
Proof. intros H. unfold create_pseudopotential. rewrite (crystal_agree pkg read c c') by sub H. cbv zeta. same H. reflexivity. Qed.

Lemma bind_agree {X Y} (r : res X) (f g : X -> res Y) : (forall x, f x = g x) -> bind r f = bind r g.
Proof. intros H. destruct r; cbn [bind]; [apply H|reflexivity]. Qed.
Lemma setup_agree erfc pkg read devices c c' el el' ions ions' ir : agree (ground_required ++ conditional) c c' ->
  (forall cr, el' cr = el cr) -> (forall cr g k v, ions' cr g k v = ions cr g k v) ->
  setup erfc pkg read devices c' el' ions' ir = setup erfc pkg read devices c el ions ir.
Proof.
  intros H He Hi. unfold setup, set_env_params, create_convergence_checker.
  rewrite (crystal_agree pkg read c c'), (grids_agree pkg read c c'), (mask_agree pkg read c c'), (ewald_agree erfc pkg read c c') by sub H. same H.
  repeat first [rewrite He | rewrite Hi | reflexivity | apply bind_agree; intro | match goal with |- (let '(_, _) := ?p in _) = _ => destruct p as [[? ?] ?] end].
Qed.
Lemma ae_agree {Os} erfc pkg read devices qr cqr xcd grad (alias : string -> option (cval -> list (string * cval) -> optax Os)) ro rp c c' : agree (ground_required ++ conditional) c c' ->
  ae_calc erfc pkg read devices qr cqr xcd grad alias ro rp c' = ae_calc erfc pkg read devices qr cqr xcd grad alias ro rp c.
Proof.
  intros H. unfold ae_calc, ae_problem. rewrite (optimizer_agree alias c c') by sub H. match goal with |- bind (setup _ _ _ _ _ ?e ?i _) _ = _ => rewrite (setup_agree erfc pkg read devices c c' e e i i _ H) end; reflexivity.
Qed.
Lemma nc_agree {Os PP} erfc pkg read (nc us : crystal -> string -> res PP) valence pl pn devices qr cqr xcd grad (alias : string -> option (cval -> list (string * cval) -> optax Os)) ro rp c c' :
  agree (ground_required ++ conditional ++ pseudo_required) c c' ->
  nc_calc erfc pkg read nc us valence pl pn devices qr cqr xcd grad alias ro rp c' = nc_calc erfc pkg read nc us valence pl pn devices qr cqr xcd grad alias ro rp c.
Proof.
  intros H. unfold nc_calc, nc_problem. rewrite (optimizer_agree alias c c') by sub H. rewrite (pseudo_agree pkg read nc us c c') by sub H.
  match goal with |- bind (setup _ _ _ _ _ ?e ?i _) _ = _ => rewrite (setup_agree erfc pkg read devices c c' e e i i _) end; [reflexivity|sub H|reflexivity|reflexivity].
Qed.
Lemma band_setup_agree pkg read bandpath c c' el density restricted : agree (ground_required ++ conditional ++ band_required) c c' ->
  band_setup pkg read bandpath c' el density restricted = band_setup pkg read bandpath c el density restricted.
Proof.
  intros H. unfold band_setup, set_env_params. rewrite (crystal_agree pkg read c c'), (grids_agree pkg read c c'), (mask_agree pkg read c c') by sub H. same H. reflexivity.
Qed.
Lemma ae_band_agree {Os Os'} erfc pkg read devices bandpath qr cqr xcd grad (alias' : string -> option (cval -> list (string * cval) -> optax Os')) ro rp ev bgrad
  (alias : string -> option (cval -> list (string * cval) -> boptax Os)) rnd c c' : agree (ground_required ++ conditional ++ band_required) c c' ->
  let run := ae_band pkg read devices bandpath (ae_calc erfc pkg read devices qr cqr xcd grad alias' ro rp) cqr xcd ev bgrad alias rnd in run c' = run c.
Proof.
  intros H run. unfold run, ae_band, ae_band_problem. rewrite (optimizer_agree alias c c') by sub H. rewrite (ae_agree erfc pkg read devices qr cqr xcd grad alias' ro rp c c') by sub H.
  rewrite (band_setup_agree pkg read bandpath c c' _ _ _ H). reflexivity.
Qed.
Lemma nc_band_agree {Os Os' PP GS} erfc pkg read (nc us : crystal -> string -> res PP) valence pl pn pp_path devices bandpath qr cqr xcd grad (alias' : string -> option (cval -> list (string * cval) -> optax Os')) ro rp ev bgrad
  (alias : string -> option (cval -> list (string * cval) -> boptax Os)) rnd c c' : agree (ground_required ++ conditional ++ pseudo_required ++ band_required) c c' ->
  let run := nc_band pkg read nc us valence pl pp_path devices bandpath (@None GS) (nc_calc erfc pkg read nc us valence pl pn devices qr cqr xcd grad alias' ro rp) cqr xcd ev bgrad alias rnd in run c' = run c.
Proof.
  intros H run. unfold run, nc_band, nc_band_problem. rewrite (optimizer_agree alias c c') by sub H. rewrite (pseudo_agree pkg read nc us c c') by sub H.
  rewrite (nc_agree erfc pkg read nc us valence pl pn devices qr cqr xcd grad alias' ro rp c c') by sub H.
  match goal with |- bind (band_setup _ _ _ _ ?e _ _) _ = _ => rewrite (band_setup_agree pkg read bandpath c c' e) by sub H end. reflexivity.
Qed.

Lemma assoc_setattr_other (c : cfg) k v k' : k' <> k -> assoc k' (setattr c k v) = assoc k' c.
Proof.
  intros N. induction c as [|[a b] c IH].
  - cbn [setattr assoc]. destruct (String.eqb_spec k' k); [contradiction|reflexivity].
  - cbn [setattr]. destruct (String.eqb_spec k a) as [->|]; cbn [assoc]; [destruct (String.eqb_spec k' a); [contradiction|reflexivity]|]. rewrite IH. reflexivity.
Qed.
Lemma unused_agree c k v : In k unused -> agree (ground_required ++ conditional ++ pseudo_required ++ band_required) c (setattr c k v).
Proof.
  intros H k' H'. apply assoc_setattr_other. intros E. subst k'.
  assert (D : forall x, In x unused -> ~ In x (ground_required ++ conditional ++ pseudo_required ++ band_required)).
  { intros x Hx. destruct (in_dec string_dec x (ground_required ++ conditional ++ pseudo_required ++ band_required)) as [I|I]; [|exact I].
    exfalso. cbn in Hx. decompose [or] Hx; subst; try contradiction; cbn in I; decompose [or] I; discriminate || contradiction. }
  exact (D k H H').
Qed.
Lemma default_settings : (forall k, In k (ground_required ++ conditional ++ band_required ++ unused) -> ~ absent k default_config) /\ absent "pseudopotential_type" default_config.
Proof.
  split; [|reflexivity]. intros k Hk Ha. unfold absent in Ha. cbn in Hk. decompose [or] Hk; subst; try contradiction; vm_compute in Ha; discriminate.
Qed.
Lemma default_pseudo {Os PP} erfc pkg read (nc us : crystal -> string -> res PP) valence pl pn devices qr cqr xcd grad (alias : string -> option (cval -> list (string * cval) -> optax Os)) ro rp :
  let c := setattr default_config "use_pseudopotential" (VBool true) in
  getattr c "use_pseudopotential" = Ok (VBool true) /\ raises (nc_calc erfc pkg read nc us valence pl pn devices qr cqr xcd grad alias ro rp c).
Proof. split; [reflexivity|]. apply (nc_absent erfc pkg read nc us valence pl pn devices qr cqr xcd grad alias ro rp _ "pseudopotential_type"%string); [cbn; tauto|reflexivity]. Qed.
Lemma truth v : truthy v = false <-> off v.
Proof.
  unfold off. destruct v as [|[]|z|r|s|[]|[]]; cbn [truthy]; try (split; [intros H; try discriminate; tauto|intros H; repeat (destruct H as [H|H]; try discriminate); try discriminate; reflexivity]).
  - destruct (Z.eqb_spec z 0) as [->|N]; cbn [negb]; split; intros H; try discriminate; [tauto|reflexivity|]. repeat (destruct H as [H|H]; try discriminate); congruence.
  - destruct (Req_EM_T r 0) as [->|N]; split; intros H; try discriminate; [tauto|reflexivity|]. repeat (destruct H as [H|H]; try discriminate); congruence.
  - destruct (String.eqb_spec s "") as [->|N]; cbn [negb]; split; intros H; try discriminate; [tauto|reflexivity|]. repeat (destruct H as [H|H]; try discriminate); congruence.
Qed.
