(** Proofs about runs on pseudopotential files: the data read from the files. *)
From Coq Require Import Reals Lra Lia.
From Coquelicot Require Import Complex.
From Coq Require Import Ascii String List Arith ZArith Bool.
From Verif Require Import Base Sums Tensor Lin3 GridProofs VecModel CalcModel CryProofs DrvModel DrvSpec UpfModel UpfSpec UpfProofs UpfProofs2 SbtModel LocModel LocSpec LocProofs NlocModel NlocSpec NlocProofs NlocProofs2 NlocProofs5 DrvProofs2 DrvProofs5 DrvProofs7 PpModel PpSpec.
Import ListNotations.
Local Open Scope R_scope.

Lemma trunc_spec x : toward_zero x (trunc x).
Proof.
  unfold trunc, toward_zero. destruct (Rle_dec 0 x) as [H|H]; split; intros H'; try lra.
  - destruct (base_Int_part x). lra.
  - destruct (base_Int_part (- x)). rewrite opp_IZR. lra.
Qed.
Lemma toward_zero_unique x n m : toward_zero x n -> toward_zero x m -> n = m.
Proof.
  intros [H1 H2] [H3 H4]. destruct (Rle_dec 0 x) as [H|H].
  - specialize (H1 H). specialize (H3 H). assert (n < m + 1)%Z by (apply lt_IZR; rewrite plus_IZR; lra). assert (m < n + 1)%Z by (apply lt_IZR; rewrite plus_IZR; lra). lia.
  - specialize (H2 ltac:(lra)). specialize (H4 ltac:(lra)). assert (n < m + 1)%Z by (apply lt_IZR; rewrite plus_IZR; lra). assert (m < n + 1)%Z by (apply lt_IZR; rewrite plus_IZR; lra). lia.
Qed.
Lemma of_text_ok {A} (f : string -> option A) t a : of_text f t = Ok a -> f t = Some a.
Proof. unfold of_text. destruct (f t); [congruence|discriminate]. Qed.
Lemma required_ok (h : string -> option string) k t : required h k = Ok t -> h k = Some t.
Proof. unfold required. destruct (h k); [congruence|discriminate]. Qed.
Lemma nc_charges pi pf junk pp c : nc_create_atom pi pf junk pp = Ok c -> header_valence pf pp (c_valence c) /\
  (exists t, u_header pp "l_max" = Some t /\ pi t = Some (c_lmax c)) /\
  match c_lmax_rho c with Some l => exists t, u_header pp "l_max_rho" = Some t /\ pi t = Some l | None => u_header pp "l_max_rho" = None end.
Proof.
  unfold nc_create_atom. cbv zeta. intros H.
  apply bind_ok in H. destruct H as (zt & Hzt & H). apply bind_ok in H. destruct H as (z & Hz & H).
  apply bind_ok in H. destruct H as (rg & Hrg & H). apply bind_ok in H. destruct H as (rab & Hrab & H).
  apply bind_ok in H. destruct H as (lm & Hlm & H). apply bind_ok in H. destruct H as (lr & Hlr & H).
  apply bind_ok in H. destruct H as (loc & Hloc & H).
  assert (E : c_valence c = trunc z /\ c_lmax c = lm /\ c_lmax_rho c = lr).
  { destruct (n_beta (u_nonlocal pp)) as [betas|].
    - apply bind_ok in H. destruct H as (bl & _ & H). apply bind_ok in H. destruct H as (be & _ & H). apply bind_ok in H. destruct H as (dij & _ & H). apply bind_ok in H. destruct H as (d & _ & H).
      injection H as <-. repeat split.
    - injection H as <-. repeat split. }
  destruct E as (-> & -> & ->). apply bind_ok in Hlm. destruct Hlm as (t & Ht & Hp). split; [|split].
  - exists zt, z. split; [apply required_ok, Hzt|]. split; [apply of_text_ok, Hz|apply trunc_spec].
  - exists t. split; [apply required_ok, Ht|apply of_text_ok, Hp].
  - destruct (u_header pp "l_max_rho") as [t'|]; [|injection Hlr as <-; reflexivity]. unfold rmap in Hlr. apply bind_ok in Hlr. destruct Hlr as (l & Hl & E). injection E as <-. exists t'. split; [reflexivity|apply of_text_ok, Hl].
Qed.

(** *** One atom *)
Definition good (b : nc_atom) : Prop :=
  length (c_l b) = length (c_beta b) /\ Forall (fun row => length row = length (c_r b)) (c_beta b) /\
  length (c_d b) = length (c_l b) /\ Forall (fun row => length row = length (c_l b)) (c_d b) /\
  length (c_local b) = length (c_r b) /\ Forall (fun r => 0 < r) (c_r b).
Lemma nc_good pi pf junk pp c : nc_create_atom pi pf junk pp = Ok c -> good c.
Proof.
  intros H. apply nc_aligned in H. cbv zeta in H. destruct H as (_ & _ & Hr & _ & Hloc & _ & H). unfold good.
  assert (Hp : Forall (fun r => 0 < r) (c_r c)). { rewrite Hr. apply Forall_map, Forall_forall. intros i Hi. apply kept_in in Hi. apply Hi. }
  assert (Lr : length (c_r c) = length (kept (u_r pp))) by (rewrite Hr; apply map_length).
  assert (Ll : length (c_local c) = length (kept (u_r pp))) by (rewrite Hloc; apply map_length).
  destruct (n_beta (u_nonlocal pp)) as [betas|].
  - destruct H as (_ & Lb & Lc & Hb & dij & _ & _ & Ld & Fd & _). rewrite Lb, Lc, Ld. repeat split; try assumption; [|congruence].
    apply Forall_forall. intros row Hrow. destruct (In_nth _ _ [] Hrow) as (b & Hlt & <-). destruct (Hb b ltac:(lia)) as (_ & -> & _). rewrite map_length. symmetry; exact Lr.
  - destruct H as (_ & -> & -> & ->). repeat split; try assumption; [repeat constructor; rewrite map_length; symmetry; exact Lr|repeat constructor|congruence].
Qed.
Lemma used_positive r : Forall (fun r => 0 < r) r -> used_points r = length r.
Proof. intros H. destruct r as [|r0 r]; [reflexivity|]. cbn [used_points]. inversion H; subst. destruct (Req_EM_T r0 0); [lra|reflexivity]. Qed.

Section Files.
Variable pi : string -> option Z.
Variable pf : string -> option R.
Variable symbol : Z -> string.
Variable listdir : string -> res (list string).
Variable read_xml : string -> res elem.
Variable junk : nat -> nat -> nat -> R.
Variable eigmax : list (list R) -> R.
Notation load_nc := (load_nc pi pf symbol listdir read_xml junk).
Notation load_us := (load_us pi pf symbol listdir read_xml junk eigmax).
Notation file_for := (file_for pi pf listdir read_xml).

Lemma load_nc_each cr dir pp : load_nc cr dir = Ok pp -> Forall2 (fun z b => exists u, file_for dir (symbol z) u /\ forall j, nc_create_atom pi pf j u = Ok b) (cr_charges cr) pp.
Proof.
  unfold PpModel.load_nc. intros H. apply bind_ok in H. destruct H as (names & Hn & H). apply nc_create_each in H.
  remember (map symbol (cr_charges cr)) as l eqn:El. revert El. generalize (cr_charges cr). induction H as [|s b l l' Hs H IH]; intros zs E; destruct zs as [|z zs]; try discriminate; constructor.
  - injection E as -> _. destruct Hs as (name & u & Hi & Hm & Hp & Hc). exists u. split; [|exact Hc]. unfold parse_file in Hp. apply bind_ok in Hp. destruct Hp as (root & Hx & Hu).
    exists names, name, root. auto.
  - apply IH. injection E as _ ->. reflexivity.
Qed.
Lemma load_us_nc cr dir pp : load_us cr dir = Ok pp -> load_nc cr dir = Ok pp.
Proof.
  unfold PpModel.load_us. intros H. apply bind_ok in H. destruct H as (a & Ha & H). apply bind_ok in H. destruct H as (n & _ & H). apply bind_ok in H. destruct H as (p & _ & H). apply bind_ok in H. destruct H as (q & _ & H).
  injection H as <-. exact Ha.
Qed.
Lemma load_good cr dir pp : load_nc cr dir = Ok pp -> length pp = length (cr_charges cr) /\ Forall good pp.
Proof.
  intros H. apply load_nc_each in H. induction H as [|z b l l' (u & _ & Hu) H [IL IG]]; [split; [reflexivity|constructor]|].
  split; [cbn; congruence|]. constructor; [|exact IG]. exact (nc_good _ _ _ _ _ (Hu (fun _ _ => 0))).
Qed.
Lemma create_directory pkg read c pp cr : create_crystal pkg read c = Ok cr -> create_pseudopotential pkg read load_nc load_us c = Ok pp ->
  exists dir, pseudo_directory pkg c dir /\ load_nc cr dir = Ok pp.
Proof.
  intros Hcr. unfold create_pseudopotential. intros H. step H u Hu. destruct (negb (truthy u)); [discriminate|]. step H cr' Hc. rewrite Hcr in Hc. injection Hc as <-. step H t Ht. cbv zeta in H.
  destruct t as [| | | | s | |]; try discriminate. destruct (existsb (String.eqb s) ["normcons"; "normconserving"; "nc"]%string) eqn:E1.
  - step H path Hp. step Hp d Hd. exists path. split; [|exact H]. destruct d; try discriminate; injection Hp as <-; [right|left; exact Hd]. split; [exact Hd|]. left. split; [|reflexivity].
    apply existsb_exists in E1. destruct E1 as (s' & Hs & E). apply String.eqb_eq in E. subst s'. exists s. split; [exact Ht|exact Hs].
  - destruct (existsb (String.eqb s) ["ultrasoft"; "us"]%string) eqn:E2; [|discriminate]. step H path Hp. step Hp d Hd. exists path. split; [|apply load_us_nc, H].
    destruct d; try discriminate; injection Hp as <-; [right|left; exact Hd]. split; [exact Hd|]. right. split; [|reflexivity].
    apply existsb_exists in E2. destruct E2 as (s' & Hs & E). apply String.eqb_eq in E. subst s'. exists s. split; [exact Ht|exact Hs].
Qed.
Lemma valence_sum cr dir pp : load_nc cr dir = Ok pp -> exists us, Forall2 (fun z u => file_for dir (symbol z) u) (cr_charges cr) us /\ Forall2 (header_valence pf) us (valences pp).
Proof.
  intros H. apply load_nc_each in H. induction H as [|z b l l' (u & Hf & Hu) H (us & I1 & I2)]; [exists []; split; constructor|].
  exists (u :: us). split; constructor; try assumption. exact (proj1 (nc_charges _ _ _ _ _ (Hu (fun _ _ => 0)))).
Qed.
End Files.
