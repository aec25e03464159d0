(** Property theorems C18-C27, C78, C79: spin parity, safe_real, occupations, entropy. *)
From Coq Require Import List Arith ZArith Reals Lia Lra.
From Coquelicot Require Import Complex.
From Verif Require Import Base Sums Tensor GridModel OccModel OccSpec ProjProofs OccProofs OccFormProofs.
Import ListNotations.
Local Open Scope R_scope.

(** C18 *)
Theorem C18_parity : forall N s,
  (check_spin_number N s = Err ValueErr <-> (N mod 2 <> s mod 2)%Z) /\
  (check_spin_number N s = Ok tt <-> (N mod 2 = s mod 2)%Z).
Proof. exact (fun N s => conj (check_spin_err N s) (check_spin_ok N s)). Qed.
Print Assumptions C18_parity.
Theorem C18_split : forall N s, check_spin_number N s = Ok tt ->
  ((N + s) / 2 + (N - s) / 2 = N /\ (N + s) / 2 - (N - s) / 2 = s)%Z.
Proof. exact check_spin_split. Qed.
Print Assumptions C18_split.
Example C18_example : check_spin_number 5 (-3) = Ok tt /\ check_spin_number 5 0 = Err ValueErr.
Proof. split; reflexivity. Qed.

(** C19 *)
Theorem C19_complex : forall t tol,
  ((forall i, inb i (tshape t) -> Rabs (Im (tget t i)) <= tol) /\
     exists r, safe_real (CArr t) tol = Ok r /\ tshape r = tshape t /\ forall i, tget r i = Re (tget t i)) \/
  ((exists i, inb i (tshape t) /\ tol < Rabs (Im (tget t i))) /\ safe_real (CArr t) tol = Err ValueErr).
Proof. exact safe_real_complex. Qed.
Print Assumptions C19_complex.
Theorem C19_real : forall t tol, safe_real (RArr t) tol = Ok t.
Proof. exact safe_real_real. Qed.
Print Assumptions C19_real.
Example C19_example : exists t, tshape t = [2]%nat /\ Rabs (Im (tget t [1]%nat)) = 1.
Proof. exists (mkT [2]%nat (fun _ => Ci)). split; [reflexivity|]. simpl. apply Rabs_R1. Qed.

(** C20.  [nb_of nb N] is num_bands, or num_electrons if it is None. *)
Theorem C20_holds_electrons : forall K N s nb r occ, uniform K N s nb r = Ok occ ->
  (N mod 2 = s mod 2)%Z -> (Z.abs s <= N)%Z -> (forall b, nb = Some b -> ((N + Z.abs s) / 2 <= Z.of_nat b)%Z) ->
  tshape occ = [num_spin r; K; nb_of nb N] /\ total occ = IZR N /\ within 0 (INR (3 - num_spin r) / INR K) occ /\
  (r = false -> channel occ 0 - channel occ 1 = IZR s).
Proof. exact uniform_holds. Qed.
Print Assumptions C20_holds_electrons.
Theorem C20_returns_iff : forall K N s nb r,
  (exists occ, uniform K N s nb r = Ok occ) <-> (1 <= K)%nat /\ (nb = None -> (0 <= N)%Z).
Proof. exact uniform_ok_iff. Qed.
Print Assumptions C20_returns_iff.
(** too few bands: electrons are lost without an error *)
Theorem C20_complete_iff_enough_bands : forall K N s b r occ, uniform K N s (Some b) r = Ok occ ->
  (N mod 2 = s mod 2)%Z -> (Z.abs s <= N)%Z ->
  total occ <= IZR N /\ (total occ = IZR N <-> ((N + Z.abs s) / 2 <= Z.of_nat b)%Z).
Proof. exact uniform_total_iff. Qed.
Print Assumptions C20_complete_iff_enough_bands.
(** "The sum of occupation array equals to num_electrons" is false for mismatched parity,
    which uniform does not check. *)
Theorem C20_wrong_parity_loses_one : forall K N s b r occ, uniform K N s (Some b) r = Ok occ ->
  (N mod 2 <> s mod 2)%Z -> (Z.abs s <= N)%Z -> ((N + Z.abs s) / 2 <= Z.of_nat b)%Z -> total occ = IZR (N - 1).
Proof. exact uniform_wrong_parity. Qed.
Print Assumptions C20_wrong_parity_loses_one.
Example C20_example : exists occ, uniform 3 5 (-1) (Some 4%nat) false = Ok occ.
Proof. apply uniform_ok_iff. split; [lia|discriminate]. Qed.
Example C20_lossy_example : exists occ, uniform 3 8 0 (Some 2%nat) true = Ok occ /\ total occ <> 8.
Proof.
  destruct (proj2 (uniform_ok_iff 3 8 0 (Some 2%nat) true)) as [occ H]; [split; [lia|discriminate]|].
  exists occ. split; [exact H|]. intros E. apply (uniform_total_iff _ _ _ _ _ _ H) in E; [|reflexivity|lia]. cbn in E. lia.
Qed.
(** spin > N: the negative slice bound wraps around and electrons appear. *)
Example C20_overpolarised_example : exists occ, uniform 1 2 4 (Some 10%nat) true = Ok occ /\ total occ = 12.
Proof.
  destruct (proj2 (uniform_ok_iff 1 2 4 (Some 10%nat) true)) as [occ H]; [split; [lia|discriminate]|].
  exists occ. split; [exact H|]. destruct (uniform_total _ _ _ _ _ _ H) as (_ & -> & _). reflexivity.
Qed.

(** C21 *)
Theorem C21_holds_electrons : forall K N s nb r occ, (1 <= K)%nat -> gamma K N s nb r = Ok occ ->
  (N mod 2 = s mod 2)%Z -> (Z.abs s <= N)%Z -> (forall b, nb = Some b -> ((N + Z.abs s) / 2 <= Z.of_nat b)%Z) ->
  tshape occ = [num_spin r; K; nb_of nb N] /\ total occ = IZR N /\ within 0 (INR (3 - num_spin r)) occ /\
  (forall sp k b, (1 <= k)%nat -> tget occ [sp; k; b] = 0) /\
  (r = false -> channel occ 0 - channel occ 1 = IZR s).
Proof. exact gamma_holds. Qed.
Print Assumptions C21_holds_electrons.
Theorem C21_complete_iff_enough_bands : forall K N s b r occ, (1 <= K)%nat -> gamma K N s (Some b) r = Ok occ ->
  (N mod 2 = s mod 2)%Z -> (Z.abs s <= N)%Z ->
  total occ <= IZR N /\ (total occ = IZR N <-> ((N + Z.abs s) / 2 <= Z.of_nat b)%Z).
Proof. exact gamma_total_iff. Qed.
Print Assumptions C21_complete_iff_enough_bands.
Example C21_example : exists occ, gamma 3 5 (-1) (Some 4%nat) false = Ok occ.
Proof. eexists. reflexivity. Qed.

(** C22.  [reduced_qr] is the contract of jnp.linalg.qr (OccSpec). *)
Theorem C22_physical : forall qr up down K r occ M m m', reduced_qr qr ->
  tshape up = [M; m] -> tshape down = [M; m'] -> idempotent qr up down K r = Ok occ ->
  (exists B, M = (K * B)%nat /\ tshape occ = [num_spin r; K; B]) /\
  within 0 (INR (3 - num_spin r) / INR K) occ /\
  total occ = (INR (Nat.min M m) + INR (Nat.min M m')) / INR K /\
  (r = false -> channel occ 0 = INR (Nat.min M m) / INR K /\ channel occ 1 = INR (Nat.min M m') / INR K).
Proof. exact idempotent_spec. Qed.
Print Assumptions C22_physical.
Theorem C22_returns_iff : forall qr up down K r M m m', reduced_qr qr -> tshape up = [M; m] -> tshape down = [M; m'] ->
  ((exists occ, idempotent qr up down K r = Ok occ) <-> (1 <= K)%nat /\ (M mod K = 0)%nat).
Proof. exact idempotent_ok_iff. Qed.
Print Assumptions C22_returns_iff.
(** a function meeting the contract *)
Definition ex_qr (w : tensor R) : tensor R :=
  match tshape w with
  | [M; m] => mkT [M; Nat.min M m] (fun i => if (nth 0 i 0 =? nth 1 i 0)%nat then 1 else 0)
  | _ => w
  end.
Example ex_qr_ok : reduced_qr ex_qr.
Proof.
  intros w M m H. unfold ex_qr. rewrite H. split; [reflexivity|]. intros j l Hj Hl. cbn [tget nth].
  destruct (Nat.eqb_spec j l) as [->|Hne].
  - rewrite (sumR_single (seq 0 M) l); [rewrite Nat.eqb_refl; ring|apply seq_NoDup|apply in_seq; lia|].
    intros i _ Hi. destruct (Nat.eqb_spec i l); [congruence|ring].
  - apply sumR_zero. intros i _. destruct (Nat.eqb_spec i j), (Nat.eqb_spec i l); try ring. congruence.
Qed.
Example C22_example : exists occ, idempotent ex_qr (mkT [6; 2]%nat (fun _ => 1)) (mkT [6; 4]%nat (fun _ => 1)) 2 false = Ok occ.
Proof.
  apply (idempotent_ok_iff ex_qr (mkT [6; 2]%nat (fun _ => 1)) (mkT [6; 4]%nat (fun _ => 1)) 2 false 6 2 4 ex_qr_ok eq_refl eq_refl).
  split; [lia|reflexivity].
Qed.

(** C23 *)
Theorem C23_initial_total : forall rnd qr B N K s r p, shape_ok rnd -> reduced_qr qr -> (1 <= K)%nat ->
  (Z.abs s <= N)%Z -> ((N + Z.abs s) / 2 <= Z.of_nat B)%Z ->
  idempotent_param_init rnd B N K s r = Ok p ->
  exists occ, idempotent qr (fst p) (snd p) K r = Ok occ /\ tshape occ = [num_spin r; K; B] /\
    within 0 (INR (3 - num_spin r) / INR K) occ /\
    total occ = IZR (if r then N + s else N) /\ (r = false -> channel occ 0 - channel occ 1 = IZR s).
Proof. exact idem_init_total. Qed.
Print Assumptions C23_initial_total.
Example C23_example : exists p, idempotent_param_init (fun sh => mkT sh (fun _ => 1)) 4 5 2 3 false = Ok p.
Proof. eexists. reflexivity. Qed.
(** restricted with unpaired electrons: one electron too many here *)
Example C23_wrong_total_example : exists p, idempotent_param_init (fun sh => mkT sh (fun _ => 1)) 4 5 2 1 true = Ok p /\
  exists occ, idempotent ex_qr (fst p) (snd p) 2 true = Ok occ /\ total occ = 6.
Proof.
  eexists. split; [reflexivity|].
  destruct (idem_init_total (fun sh => mkT sh (fun _ => 1)) ex_qr 4 5 2 1 true _ (fun _ => eq_refl) ex_qr_ok ltac:(lia) ltac:(lia) ltac:(cbn; lia) eq_refl)
    as (occ & H1 & _ & _ & H2 & _). exists occ. split; [exact H1|exact H2].
Qed.

(** C24 *)
Theorem C24_exact : forall x m, unit_entries x -> 0 < m < INR (length x) ->
  length (proj x m) = length x /\ unit_entries (proj x m) /\ list_sum (proj x m) = m.
Proof. exact proj_exact. Qed.
Print Assumptions C24_exact.
Definition ex_x := [1/2; 1/4; 1; 0]%R.
Example C24_example : unit_entries ex_x /\ 0 < 3 < INR (length ex_x).
Proof. split; [intros v Hv; cbn in Hv; destruct Hv as [<-|[<-|[<-|[<-|[]]]]]; lra|simpl; lra]. Qed.

(** C25: proj x m is the unique closest point of {q in [0,1]^n, sum q = m}, and the
    projection is non-expansive towards every feasible point. *)
Theorem C25_closest : forall x m q, unit_entries x -> 0 < m < INR (length x) ->
  length q = length x -> unit_entries q -> list_sum q = m ->
  sqdist x (proj x m) + sqdist q (proj x m) <= sqdist x q.
Proof. exact proj_euclid. Qed.
Print Assumptions C25_closest.
Theorem C25_unique : forall x m q, unit_entries x -> 0 < m < INR (length x) ->
  length q = length x -> unit_entries q -> list_sum q = m ->
  sqdist x q <= sqdist x (proj x m) -> q = proj x m.
Proof. exact proj_unique. Qed.
Print Assumptions C25_unique.
Theorem C25_fixed_points : forall x m, unit_entries x -> 0 < m < INR (length x) -> list_sum x = m -> proj x m = x.
Proof. exact proj_fixed. Qed.
Print Assumptions C25_fixed_points.
Example C25_example : unit_entries [3/4; 3/4; 1; 1/2] /\ list_sum [3/4; 3/4; 1; 1/2] = 3 /\ sqdist ex_x [3/4; 3/4; 1; 1/2] > 0.
Proof. split; [intros v Hv; cbn in Hv; destruct Hv as [<-|[<-|[<-|[<-|[]]]]]; lra|]. cbn. lra. Qed.

(** C26 *)
Theorem C26_empty_iff : forall x, unit_entries x -> x <> [] -> (list_sum (proj x 0) = 0 <-> constant_list x).
Proof. exact proj_empty. Qed.
Print Assumptions C26_empty_iff.
Theorem C26_full_iff : forall x, unit_entries x -> x <> [] ->
  (list_sum (proj x (INR (length x))) = INR (length x) <-> constant_list x).
Proof. exact proj_filled. Qed.
Print Assumptions C26_full_iff.
Theorem C26_documented_sum_refuted :
  ~ (forall x m, unit_entries x -> 0 <= m <= INR (length x) -> list_sum (proj x m) = m).
Proof.
  intros H. assert (E : list_sum (proj ex_x 0) = 0) by (apply H; [apply C24_example|simpl; lra]).
  apply C26_empty_iff in E; [|apply C24_example|discriminate].
  assert (1/2 = 0) by (apply E; cbn; auto). lra.
Qed.
Print Assumptions C26_documented_sum_refuted.

(** C27 *)
Theorem C27_symmetric : forall occ occ' eps S K B, tshape occ = [S; K; B] -> tshape occ' = [S; K; B] ->
  (forall i, inb i [S; K; B] -> tget occ' i = (3 - INR S) / INR K - tget occ i) ->
  fermi_dirac occ' eps = fermi_dirac occ eps.
Proof. exact fd_symmetric. Qed.
Print Assumptions C27_symmetric.
Theorem C27_bounds : forall occ eps S K B e, tshape occ = [S; K; B] -> 0 < eps -> within 0 ((3 - INR S) / INR K) occ ->
  fermi_dirac occ eps = Ok e ->
  e <= - (INR (S * K * B) * ((3 - INR S) / INR K)) * ln (eps + (3 - INR S) / INR K / 2) /\
  ((3 - INR S) / INR K + eps <= 1 -> 0 <= e).
Proof. exact fd_bounds. Qed.
Print Assumptions C27_bounds.
Theorem C27_half_filling_attains_bound : forall occ eps S K B, tshape occ = [S; K; B] ->
  (forall i, inb i [S; K; B] -> tget occ i = (3 - INR S) / INR K / 2) ->
  fermi_dirac occ eps = Ok (- (INR (S * K * B) * ((3 - INR S) / INR K)) * ln (eps + (3 - INR S) / INR K / 2)).
Proof. exact fd_max. Qed.
Print Assumptions C27_half_filling_attains_bound.
(** the documented formula is the one computed for two spin channels and one k-point *)
Theorem C27_documented_formula : forall occ eps B, tshape occ = [2; 1; B]%nat ->
  fermi_dirac occ eps = Ok (- sumR (indices [2; 1; B]%nat) (fun i => tget occ i * ln (tget occ i + eps) + (1 - tget occ i) * ln (1 - tget occ i + eps))).
Proof. exact fd_documented. Qed.
Print Assumptions C27_documented_formula.
Theorem C27_restricted_gamma_negative : forall eps, 0 < eps -> exists occ e,
  uniform 1 2 0 (Some 1%nat) true = Ok occ /\ fermi_dirac occ eps = Ok e /\ e < 0.
Proof. exact fd_negative. Qed.
Print Assumptions C27_restricted_gamma_negative.
Example C27_example : let occ := mkT [2; 4; 3]%nat (fun i => / 8 + INR (nth 2 i 0%nat) / 16) in
  within 0 ((3 - INR 2) / INR 4) occ /\ (3 - INR 2) / INR 4 + / 100 <= 1.
Proof.
  split; [|simpl; lra]. intros i Hi. apply inb3' in Hi. destruct Hi as (a & k & b & -> & _ & _ & Hb). cbn [tget nth].
  assert (0 <= INR b <= 2). { split; [apply pos_INR|]. replace 2 with (INR 2) by (simpl; lra). apply le_INR. lia. }
  simpl (INR 2). simpl (INR 4). lra.
Qed.

(** C78 *)
Theorem C78_simplex_projector : forall up down N s r K B, (1 <= K)%nat -> tshape up = [K; B] -> tshape down = [K; B] ->
  (N mod 2 = s mod 2)%Z -> (0 < (N - Z.abs s) / 2)%Z -> ((N + Z.abs s) / 2 < Z.of_nat B)%Z ->
  exists occ, simplex_projector up down N s r = Ok occ /\
    tshape occ = [num_spin r; K; B] /\ total occ = IZR N /\ within 0 (INR (3 - num_spin r) / INR K) occ /\
    (r = false -> channel occ 0 - channel occ 1 = IZR s).
Proof. exact simplex_spec. Qed.
Print Assumptions C78_simplex_projector.
(** Entry by entry: the sigmoid of the parameter, shifted by one number for each spin channel and cut
    at 0 and 1; the spin-restricted result is the sum of the two channels. *)
Theorem C78_formula : forall up down N s K B, (1 <= K)%nat -> tshape up = [K; B] -> tshape down = [K; B] ->
  (0 < (N - Z.abs s) / 2)%Z -> ((N + Z.abs s) / 2 < Z.of_nat B)%Z ->
  exists occ occ1 lu ld, simplex_projector up down N s false = Ok occ /\ simplex_projector up down N s true = Ok occ1 /\
    channel occ 0 = IZR ((N + s) / 2) /\ channel occ 1 = IZR ((N - s) / 2) /\
    forall k b, (k < K)%nat -> (b < B)%nat ->
      tget occ [0; k; b]%nat = Rmin (Rmax (/ (1 + exp (- tget up [k; b])) + lu) 0) 1 / INR K /\
      tget occ [1; k; b]%nat = Rmin (Rmax (/ (1 + exp (- tget down [k; b])) + ld) 0) 1 / INR K /\
      tget occ1 [0; k; b]%nat = tget occ [0; k; b]%nat + tget occ [1; k; b]%nat.
Proof. exact simplex_formula. Qed.
Print Assumptions C78_formula.
(** one spin-up electron, no spin-down electron: the down channel is not empty *)
Theorem C78_full_polarisation_refuted : exists up down occ,
  tshape up = [1; 2]%nat /\ tshape down = [1; 2]%nat /\
  simplex_projector up down 1 1 false = Ok occ /\ channel occ 1 <> 0.
Proof. exact simplex_polarised_wrong. Qed.
Print Assumptions C78_full_polarisation_refuted.
Example C78_example : (7 mod 2 = (-3) mod 2 /\ 0 < (7 - Z.abs (-3)) / 2 /\ (7 + Z.abs (-3)) / 2 < Z.of_nat 6)%Z.
Proof. cbn. lia. Qed.

(** C79 *)
Theorem C79_init_then_occupation : forall qr rnd B N K s m r, reduced_qr qr -> shape_ok rnd -> (1 <= K)%nat -> m <> MOther ->
  (N mod 2 = s mod 2)%Z -> (0 < (N - Z.abs s) / 2)%Z -> ((N + Z.abs s) / 2 < Z.of_nat B)%Z ->
  exists p occ, occ_param_init rnd B N K s m r = Ok p /\ occupation qr p K N s m r = Ok occ /\
    tshape occ = [num_spin r; K; B] /\ total occ = IZR (match m with MIdempotent => N + s | _ => N end).
Proof. exact method_roundtrip. Qed.
Print Assumptions C79_init_then_occupation.
(** The starting values of the capped-simplex method, and their order: the higher the band, and the
    later the k-point, the fuller the state. *)
Theorem C79_simplex_start : forall qr rnd B N K s, (1 <= K)%nat -> (0 < (N - Z.abs s) / 2)%Z -> ((N + Z.abs s) / 2 < Z.of_nat B)%Z ->
  exists p occ, occ_param_init rnd B N K s MSimplex false = Ok p /\ occupation qr p K N s MSimplex false = Ok occ /\
    forall c, (c < 2)%nat -> exists lam, forall k b, (k < K)%nat -> (b < B)%nat ->
      tget occ [c; k; b] = Rmin (Rmax (/ (1 + exp (- ((INR (k * B + b) - INR (K * B / 2)) / 10))) + lam) 0) 1 / INR K.
Proof. exact simplex_start. Qed.
Print Assumptions C79_simplex_start.
Theorem C79_simplex_order : forall qr rnd B N K s, (1 <= K)%nat -> (0 < (N - Z.abs s) / 2)%Z -> ((N + Z.abs s) / 2 < Z.of_nat B)%Z ->
  exists p occ, occ_param_init rnd B N K s MSimplex false = Ok p /\ occupation qr p K N s MSimplex false = Ok occ /\
    forall c k b k' b', (c < 2)%nat -> (k < K)%nat -> (b < B)%nat -> (k' < K)%nat -> (b' < B)%nat -> (k * B + b <= k' * B + b')%nat -> tget occ [c; k; b] <= tget occ [c; k'; b'].
Proof. exact simplex_start_order. Qed.
Print Assumptions C79_simplex_order.
Example C79_example : reduced_qr ex_qr /\ shape_ok (fun sh => mkT sh (fun _ => 1)) /\ MSimplex <> MOther.
Proof. split; [exact ex_qr_ok|]. split; [intros sh; reflexivity|discriminate]. Qed.
