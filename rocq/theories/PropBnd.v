(** Theorems about the band-structure drivers (C115-C118). *)
From Coq Require Import Reals Lra Lia.
From Coquelicot Require Import Complex.
From Coq Require Import Ascii String List Arith ZArith Bool.
From Verif Require Import Base Sums Tensor Lin3 VecModel GridModel OccModel OccSpec PadModel PwModel PwSpec PwProofs BraketModel EnergyModel XcModel HamModel LocModel NlocModel
  CalcSpec CalcModel EnergySpec EnergyProofs DrvModel DrvSpec DrvProofs6 EigSpec EigProofs EigProofs2 BndModel BndSpec BndProofs BndProofs2 BndProofs4 BndProofs5 BndProofs6 BndProofs7 PropOcc.
Import ListNotations.
Local Open Scope R_scope.

(** C115: reported energies depend on the space the orbitals span only, and the reference
    eigenvalues exist and are unique. *)
Theorem C115_spectrum_exists : forall n H, hermitian n H -> exists lam, spectrum n H lam.
Proof. intros n H Hh. destruct (spectrum_exists n H Hh) as [lam Hl]. exists lam. exact Hl. Qed.
Print Assumptions C115_spectrum_exists.
Theorem C115_spectrum_unique : forall n H lam mu, spectrum n H lam -> spectrum n H mu -> forall i, (i < n)%nat -> lam i = mu i.
Proof. exact spectrum_unique. Qed.
Print Assumptions C115_spectrum_unique.
Theorem C115_combination : forall xcd ev pos ch dens G vol xt ks hk n1 n2 n3 v, eigvalsh_ok ev -> tshape G = [n1; n2; n3] ->
  effective_sum xcd dens pos ch G vol xt ks = Ok v -> tshape v = [hk; n1; n2; n3] ->
  forall c c' kpts kpts' sp sp' B B' s k s' k' T M M' e',
  tshape c = [sp; length kpts; B] ++ [n1; n2; n3] -> tshape c' = [sp'; length kpts'; B'] ++ [n1; n2; n3] -> (0 < B')%nat ->
  hamiltonian_matrix xcd c pos ch dens G kpts vol xt ks = Ok M -> hamiltonian_matrix xcd c' pos ch dens G kpts' vol xt ks = Ok M' -> jnp_eigvalsh ev M' = Ok e' ->
  (s < sp)%nat -> (k < length kpts)%nat -> (s' < sp')%nat -> (k' < length kpts')%nat ->
  combines [n1; n2; n3] B B' c c' (fun b => [s; k; b]) (fun b => [s'; k'; b]) T -> orthonormal_columns B B' T -> nth k kpts vzero = nth k' kpts' vzero ->
  separated B B' (matrix_at M [s; k]) (fun b => tget e' [s'; k'; b]).
Proof. exact energies_combine. Qed.
Print Assumptions C115_combination.
Theorem C115_rotation : forall xcd ev pos ch dens G vol xt ks hk n1 n2 n3 v, eigvalsh_ok ev -> tshape G = [n1; n2; n3] ->
  effective_sum xcd dens pos ch G vol xt ks = Ok v -> tshape v = [hk; n1; n2; n3] ->
  forall c c' kpts kpts' sp sp' B s k s' k' T M M' e e',
  tshape c = [sp; length kpts; B] ++ [n1; n2; n3] -> tshape c' = [sp'; length kpts'; B] ++ [n1; n2; n3] ->
  hamiltonian_matrix xcd c pos ch dens G kpts vol xt ks = Ok M -> hamiltonian_matrix xcd c' pos ch dens G kpts' vol xt ks = Ok M' -> jnp_eigvalsh ev M = Ok e -> jnp_eigvalsh ev M' = Ok e' ->
  (s < sp)%nat -> (k < length kpts)%nat -> (s' < sp')%nat -> (k' < length kpts')%nat ->
  combines [n1; n2; n3] B B c c' (fun b => [s; k; b]) (fun b => [s'; k'; b]) T -> orthonormal_columns B B T -> nth k kpts vzero = nth k' kpts' vzero ->
  forall b, (b < B)%nat -> tget e' [s'; k'; b] = tget e [s; k; b].
Proof. exact energies_rotate. Qed.
Print Assumptions C115_rotation.
Example C115_example : exists v M M' e e', let G := mkT [2; 1; 1]%nat (fun i => V3 (INR (hd 0%nat i)) 0 0) in let dens := mkT [1; 2; 1; 1]%nat (fun i => 1 + INR (nth 1 i 0%nat)) in
  effective_sum ex_xcd dens [] [] G 1 "lda_x" true = Ok v /\ tshape v = [1; 2; 1; 1]%nat /\
  hamiltonian_matrix ex_xcd ex_coeff [] [] dens G [vzero] 1 "lda_x" true = Ok M /\ hamiltonian_matrix ex_xcd ex_coeff' [] [] dens G [vzero] 1 "lda_x" true = Ok M' /\
  jnp_eigvalsh eig_ev M = Ok e /\ jnp_eigvalsh eig_ev M' = Ok e' /\
  combines [2; 1; 1]%nat 2 2 ex_coeff ex_coeff' (fun b => [0; 0; b]%nat) (fun b => [0; 0; b]%nat) ex_swap /\ orthonormal_columns 2 2 ex_swap.
Proof. exact ex_rotation. Qed.
Example C115_example_routine : eigvalsh_ok eig_ev.
Proof. exact eig_ev_ok. Qed.
Example C115_example_hermitian : hermitian 2 (fun i j => (RtoC (INR (i + j)) + RtoC (INR i - INR j) * Ci)%C).
Proof. intros i j _ _. rewrite Cconj_plus, Cconj_mult, !Cconj_R, (Nat.add_comm j i). apply injective_projections; cbn; ring. Qed.

(** C116: all-electron band structure. *)
Theorem C116_problem : forall pkg read bandpath gs c bp, ae_band_problem pkg read bandpath gs c = Ok bp ->
  create_crystal pkg read c = Ok (bp_crystal bp) /\ (exists r k, create_grids pkg read c = Ok (bp_G bp, r, k)) /\ create_freq_mask pkg read c = Ok (bp_mask bp) /\ getattr c "xc" = Ok (VStr (bp_xc bp)) /\
  (exists out, gs c = Ok out /\ bp_dens bp = returned out) /\ (exists v, getattr c "spin_restricted" = Ok v /\ bp_restricted bp = truthy v) /\
  (exists e v, getattr c "band_structure_empty_bands" = Ok v /\ cfg_int v = Ok e /\ Z.of_nat (bp_bands bp) = num_bands (num_electron (bp_crystal bp)) e) /\
  (exists special, getattr c "k_path_special_points" = Ok special /\ bp_path bp = get_k_path (fun cell _ n => bandpath cell special n) (cr_cell (bp_crystal bp)) EmptyString (bp_kpts bp) false).
Proof. exact ae_band_setup. Qed.
Print Assumptions C116_problem.
Theorem C116_settings : forall pkg read bandpath gs c bp, ae_band_problem pkg read bandpath gs c = Ok bp -> reads_band_settings c bp.
Proof. exact ae_band_settings. Qed.
Print Assumptions C116_settings.
Theorem C116_step : forall (Os : Type) grad (optimizer : bparams -> Os -> bparams * Os) p o k p' o', band_step grad optimizer p o k = (p', o') ->
  exists u, optimizer (grad p k) o = (u, o') /\ added (fst p) (fst u) (fst p') /\ added (snd p) (snd u) (snd p').
Proof. exact @band_adds. Qed.
Print Assumptions C116_step.
Theorem C116_energies : forall (Os : Type) pkg read devices bandpath gs cqr xcd ev bgrad (alias : string -> option (cval -> list (string * cval) -> boptax Os)) rnd c bp opt,
  complex_qr cqr -> eigvalsh_ok ev -> pair_shape_ok rnd -> ae_band_problem pkg read bandpath gs c = Ok bp -> create_optimizer alias c = Ok opt ->
  m3det (cr_cell (bp_crystal bp)) <> 0 -> (1 <= bp_bands bp)%nat -> (bp_bands bp <= waves bp)%nat ->
  forall v out, effective_potential xcd bp = Ok v -> tshape v = 1%nat :: tshape (bp_G bp) -> ae_band pkg read devices bandpath gs cqr xcd ev bgrad alias rnd c = Ok out ->
  let sp := num_spin (bp_restricted bp) in let H i := spin_hamiltonian bp v 0 (nth i (bp_path bp) vzero) in
  tshape out = [sp; length (bp_path bp); bp_bands bp] /\
  forall i, (i < length (bp_path bp))%nat -> exists p t,
    solved_with (band_step (bgrad bp) (snd opt)) bp devices (ae_band_init rnd bp, fst opt (ae_band_init rnd bp)) i p /\ ae_trace cqr xcd bp p (nth i (bp_path bp) vzero) = Ok t /\
    t = sumR (seq 0 sp) (fun s => sumR (seq 0 (bp_bands bp)) (fun b => tget out [s; i; b])) /\
    (forall s, (s < sp)%nat -> ascending (bp_bands bp) (fun b => tget out [s; i; b]) /\ separated (waves bp) (bp_bands bp) (H i) (fun b => tget out [s; i; b])) /\
    forall lam, spectrum (waves bp) (H i) lam ->
      INR sp * sumR (seq 0 (bp_bands bp)) lam <= t /\ forall s b, (s < sp)%nat -> (b < bp_bands bp)%nat -> 0 <= tget out [s; i; b] - lam b <= t - INR sp * sumR (seq 0 (bp_bands bp)) lam.
Proof. exact @ae_one. Qed.
Print Assumptions C116_energies.
Theorem C116_complete_basis : forall (Os : Type) pkg read devices bandpath gs cqr xcd ev bgrad (alias : string -> option (cval -> list (string * cval) -> boptax Os)) rnd c bp opt,
  complex_qr cqr -> eigvalsh_ok ev -> pair_shape_ok rnd -> ae_band_problem pkg read bandpath gs c = Ok bp -> create_optimizer alias c = Ok opt ->
  m3det (cr_cell (bp_crystal bp)) <> 0 -> (1 <= bp_bands bp)%nat -> (bp_bands bp <= waves bp)%nat ->
  forall v out, effective_potential xcd bp = Ok v -> tshape v = 1%nat :: tshape (bp_G bp) -> ae_band pkg read devices bandpath gs cqr xcd ev bgrad alias rnd c = Ok out -> bp_bands bp = waves bp ->
  forall i s b lam, (i < length (bp_path bp))%nat -> (s < num_spin (bp_restricted bp))%nat -> (b < bp_bands bp)%nat -> spectrum (waves bp) (spin_hamiltonian bp v 0 (nth i (bp_path bp) vzero)) lam ->
    tget out [s; i; b] = lam b.
Proof. exact @ae_one_full. Qed.
Print Assumptions C116_complete_basis.
Theorem C116_reference_exists : forall bp v h k, exists lam, spectrum (waves bp) (spin_hamiltonian bp v h k) lam.
Proof. exact spin_spectrum. Qed.
Print Assumptions C116_reference_exists.
Theorem C116_returns : forall (Os : Type) pkg read devices bandpath gs cqr xcd ev bgrad (alias : string -> option (cval -> list (string * cval) -> boptax Os)) rnd c,
  complex_qr cqr -> eigvalsh_ok ev -> pair_shape_ok rnd -> forall bp opt hk, ae_band_problem pkg read bandpath gs c = Ok bp -> create_optimizer alias c = Ok opt ->
  m3det (cr_cell (bp_crystal bp)) <> 0 -> potential_channels xcd bp hk -> (1 <= bp_bands bp)%nat -> (bp_bands bp <= waves bp)%nat ->
  ((exists out, ae_band pkg read devices bandpath gs cqr xcd ev bgrad alias rnd c = Ok out) <->
   (exists n, (1 <= devices)%nat /\ (1 <= n)%nat /\ (length (bp_path bp) = devices * n)%nat) /\ (bp_parallel bp = true \/ devices = 1%nat) /\ bp_kpts bp = length (bp_path bp)).
Proof. exact @ae_band_returns. Qed.
Print Assumptions C116_returns.
Theorem C116_lda : forall (Os : Type) erfc pkg read devices bandpath qr cqr lib vg grad (galias : string -> option (cval -> list (string * cval) -> optax Os)) grnd grpw c bp,
  reduced_qr qr -> complex_qr cqr -> shape_ok grnd -> pair_shape_ok grpw ->
  ae_band_problem pkg read bandpath (ae_calc erfc pkg read devices qr cqr (xc_density lib vg) grad galias grnd grpw) c = Ok bp ->
  (forall pb, ae_problem erfc pkg read devices c = Ok pb -> bands_fit_basis pb /\ bands_hold (pb_method pb) (pb_electrons pb) (pb_spin pb) (pb_bands pb)) ->
  (forall opt, create_optimizer galias c = Ok opt -> leaves_constants opt) ->
  m3det (cr_cell (bp_crystal bp)) <> 0 -> length (cr_charges (bp_crystal bp)) = length (cr_positions (bp_crystal bp)) ->
  contains "gga" (bp_xc bp) = false -> (forall t b, In t (split_on "+" (bp_xc bp)) -> lib t b <> None) ->
  potential_channels (xc_density lib vg) bp (num_spin (bp_restricted bp)) /\ tshape (bp_dens bp) = num_spin (bp_restricted bp) :: tshape (bp_G bp) /\
  exists pb, ae_problem erfc pkg read devices c = Ok pb /\ pb_crystal pb = bp_crystal bp /\ cell_integral (bp_vol bp) (bp_dens bp) = IZR (kept_electrons (pb_method pb) (pb_electrons pb) (pb_spin pb)).
Proof. exact @ae_lda_bands. Qed.
Print Assumptions C116_lda.
Example C116_example : forall erfc pkg grad bgrad occ r, In occ ex_methods ->
  exists bp opt v out, ae_band_problem pkg ex_ase ex_bandpath (ex_gs erfc pkg grad) (ex_drv occ r false 8) = Ok bp /\ create_optimizer ex_balias (ex_drv occ r false 8) = Ok opt /\
    m3det (cr_cell (bp_crystal bp)) <> 0 /\ length (cr_charges (bp_crystal bp)) = length (cr_positions (bp_crystal bp)) /\ bp_bands bp = 10%nat /\ (bp_bands bp <= waves bp)%nat /\ bp_restricted bp = r /\ bp_xc bp = "lda_x"%string /\
    effective_potential ex_xcd bp = Ok v /\ tshape v = num_spin r :: tshape (bp_G bp) /\
    ae_band pkg ex_ase 2 ex_bandpath (ex_gs erfc pkg grad) id_qr ex_xcd eig_ev bgrad ex_balias ex_rpw (ex_drv occ r false 8) = Ok out /\ tshape out = [num_spin r; 6; 10]%nat.
Proof. intros erfc pkg grad bgrad occ r. apply ex_bands; [apply ex_qr_ok|apply id_qr_ok]. Qed.

(** C117: norm-conserving band structure. *)
Theorem C117_problem : forall (PP : Type) pkg read (nc us : crystal -> string -> res PP) valence bandpath gs c bp, nc_band_problem pkg read nc us valence bandpath gs c = Ok bp ->
  create_crystal pkg read c = Ok (bp_crystal bp) /\ (exists r k, create_grids pkg read c = Ok (bp_G bp, r, k)) /\ create_freq_mask pkg read c = Ok (bp_mask bp) /\ getattr c "xc" = Ok (VStr (bp_xc bp)) /\
  (exists out, gs c = Ok out /\ bp_dens bp = returned out) /\ bp_restricted bp = true /\
  (exists pp e v, create_pseudopotential pkg read nc us c = Ok pp /\ getattr c "band_structure_empty_bands" = Ok v /\ cfg_int v = Ok e /\ Z.of_nat (bp_bands bp) = num_bands (fold_right Z.add 0%Z (valence pp)) e) /\
  (exists special, getattr c "k_path_special_points" = Ok special /\ bp_path bp = get_k_path (fun cell _ n => bandpath cell special n) (cr_cell (bp_crystal bp)) EmptyString (bp_kpts bp) false).
Proof. exact @nc_band_setup. Qed.
Print Assumptions C117_problem.
Theorem C117_settings : forall (PP : Type) pkg read (nc us : crystal -> string -> res PP) valence bandpath gs c bp, nc_band_problem pkg read nc us valence bandpath gs c = Ok bp -> reads_band_settings c bp.
Proof. exact @nc_band_settings. Qed.
Print Assumptions C117_settings.
Theorem C117_energies : forall (Os PP GS : Type) pkg read (nc us : crystal -> string -> res PP) valence pp_local pp_path devices bandpath gs cqr xcd ev bgrad (alias : string -> option (cval -> list (string * cval) -> boptax Os)) rnd c,
  complex_qr cqr -> eigvalsh_ok ev -> pair_shape_ok rnd -> forall bp opt pp V sp' hk,
  nc_band_problem pkg read nc us valence bandpath gs c = Ok bp -> create_pseudopotential pkg read nc us c = Ok pp -> pp_local pp (bp_crystal bp) (bp_G bp) (bp_vol bp) = Ok V -> create_optimizer alias c = Ok opt ->
  m3det (cr_cell (bp_crystal bp)) <> 0 -> tshape (bp_dens bp) = sp' :: tshape (bp_G bp) -> tshape V = tshape (bp_G bp) ->
  (forall k, exists nl nb nm, pp_path pp (bp_crystal bp) (bp_G bp) (bp_path bp) k = Ok nl /\ tshape nl = [1; nb; nm]%nat ++ tshape (bp_G bp)) ->
  xc_channels xcd bp hk -> (1 <= hk)%nat -> (1 <= bp_bands bp)%nat -> (bp_bands bp <= waves bp)%nat ->
  forall out, nc_band pkg read nc us valence pp_local pp_path devices bandpath (@None GS) gs cqr xcd ev bgrad alias rnd c = Ok out ->
  let K := length (bp_path bp) in let nlk := pp_path pp (bp_crystal bp) (bp_G bp) (bp_path bp) in let p0 := nc_band_init rnd bp in
  tshape out = [(hk * K)%nat; bp_bands bp] /\
  forall i, (i < K)%nat -> let k := nth i (bp_path bp) vzero in
    exists p nl co t A one, solved_with (band_step (bgrad bp) (snd opt)) bp (if bp_parallel bp then devices else 1%nat) (p0, fst opt p0) i p /\
      nlk k = Ok nl /\ band_coeff cqr bp p = Ok co /\ nc_trace cqr xcd bp V nlk p k = Ok t /\ nc_basis_hamiltonian xcd bp V nl k = Ok A /\ one_body co V nl (bp_G bp) k (bp_vol bp) one /\
      (forall h, (h < hk)%nat -> ascending (bp_bands bp) (fun b => tget out [(h * K + i)%nat; b]) /\
         separated (waves bp) (bp_bands bp) (hermitian_part (matrix_at A [0%nat; h])) (fun b => tget out [(h * K + i)%nat; b])) /\
      t = sumR (seq 0 hk) (fun h => sumR (seq 0 (bp_bands bp)) (fun b => tget out [(h * K + i)%nat; b])) - (INR hk - 1) * one.
Proof. exact @nc_band_energies. Qed.
Print Assumptions C117_energies.
Theorem C117_returns : forall (Os PP GS : Type) pkg read (nc us : crystal -> string -> res PP) valence pp_local pp_path devices bandpath gs cqr xcd ev bgrad (alias : string -> option (cval -> list (string * cval) -> boptax Os)) rnd c,
  complex_qr cqr -> eigvalsh_ok ev -> pair_shape_ok rnd -> forall bp opt pp V sp' hk,
  nc_band_problem pkg read nc us valence bandpath gs c = Ok bp -> create_pseudopotential pkg read nc us c = Ok pp -> pp_local pp (bp_crystal bp) (bp_G bp) (bp_vol bp) = Ok V -> create_optimizer alias c = Ok opt ->
  m3det (cr_cell (bp_crystal bp)) <> 0 -> tshape (bp_dens bp) = sp' :: tshape (bp_G bp) -> tshape V = tshape (bp_G bp) ->
  (forall k, exists nl nb nm, pp_path pp (bp_crystal bp) (bp_G bp) (bp_path bp) k = Ok nl /\ tshape nl = [1; nb; nm]%nat ++ tshape (bp_G bp)) ->
  xc_channels xcd bp hk -> (1 <= hk)%nat -> (1 <= bp_bands bp)%nat -> (bp_bands bp <= waves bp)%nat ->
  ((exists out, nc_band pkg read nc us valence pp_local pp_path devices bandpath (@None GS) gs cqr xcd ev bgrad alias rnd c = Ok out) <->
   exists n, (1 <= if bp_parallel bp then devices else 1)%nat /\ (1 <= n)%nat /\ (length (bp_path bp) = (if bp_parallel bp then devices else 1) * n)%nat).
Proof. exact @nc_band_returns. Qed.
Print Assumptions C117_returns.
Theorem C117_given_state_raises : forall (Os PP GS : Type) pkg read (nc us : crystal -> string -> res PP) valence pp_local pp_path devices bandpath (given : GS) gs cqr xcd ev bgrad (alias : string -> option (cval -> list (string * cval) -> boptax Os)) rnd c,
  nc_band pkg read nc us valence pp_local pp_path devices bandpath (Some given) gs cqr xcd ev bgrad alias rnd c = Err NameErr.
Proof. exact @nc_given. Qed.
Print Assumptions C117_given_state_raises.
Theorem C117_lda : forall (Os PP : Type) erfc pkg read (nc us : crystal -> string -> res PP) valence pp_local pp_nonlocal devices bandpath qr cqr lib vg grad (galias : string -> option (cval -> list (string * cval) -> optax Os)) grnd grpw c bp,
  reduced_qr qr -> complex_qr cqr -> shape_ok grnd -> pair_shape_ok grpw ->
  nc_band_problem pkg read nc us valence bandpath (nc_calc erfc pkg read nc us valence pp_local pp_nonlocal devices qr cqr (xc_density lib vg) grad galias grnd grpw) c = Ok bp ->
  (forall pb, nc_problem erfc pkg read nc us valence pp_local pp_nonlocal devices c = Ok pb -> bands_fit_basis pb /\ (pb_electrons pb mod 2 = pb_spin pb mod 2)%Z /\
     bands_hold (pb_method pb) (pb_electrons pb) (pb_spin pb) (pb_bands pb) /\ (fixed_occ (pb_method pb) -> pb_restricted pb = true)) ->
  (forall opt, create_optimizer galias c = Ok opt -> leaves_constants opt) ->
  m3det (cr_cell (bp_crystal bp)) <> 0 -> contains "gga" (bp_xc bp) = false -> (forall t b, In t (split_on "+" (bp_xc bp)) -> lib t b <> None) ->
  exists r, getattr c "spin_restricted" = Ok r /\ xc_channels (xc_density lib vg) bp (num_spin (truthy r)) /\ tshape (bp_dens bp) = num_spin (truthy r) :: tshape (bp_G bp) /\
  exists pb, nc_problem erfc pkg read nc us valence pp_local pp_nonlocal devices c = Ok pb /\ pb_crystal pb = bp_crystal bp /\ cell_integral (bp_vol bp) (bp_dens bp) = IZR (pb_electrons pb).
Proof. exact @nc_lda_bands. Qed.
Print Assumptions C117_lda.
Example C117_example : forall erfc pkg grad bgrad r, let cf := ex_drv "simplex-projector" r true 8 in
  exists bp opt V out, nc_band_problem pkg ex_ase ex_loader ex_loader (fun l => l) ex_bandpath (ex_ngs erfc pkg grad) cf = Ok bp /\ create_optimizer ex_balias cf = Ok opt /\
    create_pseudopotential pkg ex_ase ex_loader ex_loader cf = Ok [4; 4]%Z /\ ex_loc [4; 4]%Z (bp_crystal bp) (bp_G bp) (bp_vol bp) = Ok V /\ tshape V = tshape (bp_G bp) /\
    (forall k, exists nl nb nm, ex_nlk [4; 4]%Z (bp_crystal bp) (bp_G bp) (bp_path bp) k = Ok nl /\ tshape nl = [1; nb; nm]%nat ++ tshape (bp_G bp)) /\
    m3det (cr_cell (bp_crystal bp)) <> 0 /\ bp_bands bp = 8%nat /\ (bp_bands bp <= waves bp)%nat /\ tshape (bp_dens bp) = num_spin r :: tshape (bp_G bp) /\ xc_channels ex_xcd bp (num_spin r) /\
    nc_band pkg ex_ase ex_loader ex_loader (fun l => l) ex_loc ex_nlk 2 ex_bandpath (@None unit) (ex_ngs erfc pkg grad) id_qr ex_xcd eig_ev bgrad ex_balias ex_rpw cf = Ok out /\ tshape out = [num_spin r * 6; 8]%nat.
Proof. intros erfc pkg grad bgrad r. apply ex_nc_bands; [apply ex_qr_ok|apply id_qr_ok]. Qed.

(** C118: spin-polarised band structures. *)
Theorem C118_sum_of_channels : forall (Os : Type) pkg read devices bandpath gs cqr xcd ev bgrad (alias : string -> option (cval -> list (string * cval) -> boptax Os)) rnd c bp opt hk v out,
  complex_qr cqr -> eigvalsh_ok ev -> pair_shape_ok rnd -> ae_band_problem pkg read bandpath gs c = Ok bp -> create_optimizer alias c = Ok opt ->
  m3det (cr_cell (bp_crystal bp)) <> 0 -> (1 <= bp_bands bp)%nat -> (bp_bands bp <= waves bp)%nat ->
  effective_potential xcd bp = Ok v -> tshape v = hk :: tshape (bp_G bp) -> ae_band pkg read devices bandpath gs cqr xcd ev bgrad alias rnd c = Ok out ->
  let sp := num_spin (bp_restricted bp) in tshape out = [sp; length (bp_path bp); bp_bands bp] /\
  forall i, (i < length (bp_path bp))%nat -> exists p t,
    solved_with (band_step (bgrad bp) (snd opt)) bp devices (ae_band_init rnd bp, fst opt (ae_band_init rnd bp)) i p /\ ae_trace cqr xcd bp p (nth i (bp_path bp) vzero) = Ok t /\
    (forall s, (s < sp)%nat -> ascending (bp_bands bp) (fun b => tget out [s; i; b]) /\
       separated (waves bp) (bp_bands bp) (fun a b => sumC (seq 0 hk) (fun h => spin_hamiltonian bp v h (nth i (bp_path bp) vzero) a b)) (fun b => tget out [s; i; b])) /\
    t = sumR (seq 0 sp) (fun s => sumR (seq 0 (bp_bands bp)) (fun b => tget out [s; i; b])).
Proof. exact @ae_spin. Qed.
Print Assumptions C118_sum_of_channels.
Theorem C118_spins_coincide : forall (Os : Type) pkg read devices bandpath gs cqr xcd ev bgrad (alias : string -> option (cval -> list (string * cval) -> boptax Os)) rnd c bp opt,
  complex_qr cqr -> eigvalsh_ok ev -> pair_shape_ok rnd -> ae_band_problem pkg read bandpath gs c = Ok bp -> create_optimizer alias c = Ok opt ->
  m3det (cr_cell (bp_crystal bp)) <> 0 -> (1 <= bp_bands bp)%nat -> (bp_bands bp <= waves bp)%nat ->
  forall v out, effective_potential xcd bp = Ok v -> tshape v = 2%nat :: tshape (bp_G bp) -> ae_band pkg read devices bandpath gs cqr xcd ev bgrad alias rnd c = Ok out -> bp_bands bp = waves bp ->
  forall i s s' b, (i < length (bp_path bp))%nat -> (s < num_spin (bp_restricted bp))%nat -> (s' < num_spin (bp_restricted bp))%nat -> (b < bp_bands bp)%nat -> tget out [s; i; b] = tget out [s'; i; b].
Proof. exact @ae_two_rows. Qed.
Print Assumptions C118_spins_coincide.
Theorem C118_doubled : forall (Os : Type) pkg read devices bandpath gs cqr xcd ev bgrad (alias : string -> option (cval -> list (string * cval) -> boptax Os)) rnd c bp opt,
  complex_qr cqr -> eigvalsh_ok ev -> pair_shape_ok rnd -> ae_band_problem pkg read bandpath gs c = Ok bp -> create_optimizer alias c = Ok opt ->
  m3det (cr_cell (bp_crystal bp)) <> 0 -> (1 <= bp_bands bp)%nat -> (bp_bands bp <= waves bp)%nat ->
  forall v out, effective_potential xcd bp = Ok v -> tshape v = 2%nat :: tshape (bp_G bp) -> ae_band pkg read devices bandpath gs cqr xcd ev bgrad alias rnd c = Ok out ->
  (forall x, inb x (tshape (bp_G bp)) -> Re (tget v (1%nat :: x)) = Re (tget v (0%nat :: x))) ->
  forall i s b lam, (i < length (bp_path bp))%nat -> (s < num_spin (bp_restricted bp))%nat -> (b < bp_bands bp)%nat -> spectrum (waves bp) (spin_hamiltonian bp v 0 (nth i (bp_path bp) vzero)) lam ->
    2 * lam b <= tget out [s; i; b] <= 2 * lam (waves bp - bp_bands bp + b)%nat.
Proof. exact @ae_two_double. Qed.
Print Assumptions C118_doubled.
Theorem C118_spin_channel_refuted : forall lib vg xt dens cqr ev, contains "gga" xt = false -> (forall t b, In t (split_on "+" xt) -> lib t b <> None) -> tshape dens = [2; 1; 1; 1]%nat -> complex_qr cqr -> eigvalsh_ok ev ->
  exists bp v p k e s, band_grids bp /\ m3det (cr_cell (bp_crystal bp)) <> 0 /\ bp_xc bp = xt /\ bp_dens bp = dens /\ bp_restricted bp = false /\ bp_bands bp = waves bp /\ band_shape bp 2 p /\
    effective_potential (xc_density lib vg) bp = Ok v /\ tshape v = 2%nat :: tshape (bp_G bp) /\ ae_eig cqr (xc_density lib vg) ev bp p k = Ok e /\ (s < 2)%nat /\
    ~ separated (waves bp) (bp_bands bp) (spin_hamiltonian bp v s k) (fun b => tget e [s; 0%nat; b]).
Proof. exact bands_wrong. Qed.
Print Assumptions C118_spin_channel_refuted.
Example C118_example : forall erfc pkg grad bgrad occ, In occ ex_methods ->
  exists bp opt v out, ae_band_problem pkg ex_ase ex_bandpath (ex_gs erfc pkg grad) (ex_drv occ false false 8) = Ok bp /\ create_optimizer ex_balias (ex_drv occ false false 8) = Ok opt /\
    m3det (cr_cell (bp_crystal bp)) <> 0 /\ length (cr_charges (bp_crystal bp)) = length (cr_positions (bp_crystal bp)) /\ bp_bands bp = 10%nat /\ (bp_bands bp <= waves bp)%nat /\ bp_restricted bp = false /\ bp_xc bp = "lda_x"%string /\
    effective_potential ex_xcd bp = Ok v /\ tshape v = 2%nat :: tshape (bp_G bp) /\
    ae_band pkg ex_ase 2 ex_bandpath (ex_gs erfc pkg grad) id_qr ex_xcd eig_ev bgrad ex_balias ex_rpw (ex_drv occ false false 8) = Ok out /\ tshape out = [2; 6; 10]%nat.
Proof. intros erfc pkg grad bgrad occ. apply (ex_bands erfc pkg grad bgrad occ false); [apply ex_qr_ok|apply id_qr_ok]. Qed.
