(** When the two loaders of pseudopotential files return. *)
From Coq Require Import Reals Lra Lia.
From Coquelicot Require Import Complex.
From Coq Require Import Ascii String List Arith ZArith Bool.
From Verif Require Import Base Sums Tensor Lin3 GridProofs VecModel CalcModel UpfModel UpfSpec UpfProofs UpfProofs2 UpfProofs5 PpModel PpSpec PpProofs.
Import ListNotations.
Local Open Scope nat_scope.

Lemma mapM_indexed {A B} (f : nat -> A -> res B) : forall l s, (exists r, mapM (fun x => f (fst x) (snd x)) (combine (seq s (length l)) l) = Ok r) <->
  forall a x, nth_error l a = Some x -> exists o, f (s + a) x = Ok o.
Proof.
  induction l as [|x l IH]; intros s.
  - split; [intros _ a y H; destruct a; discriminate|intros _; eexists; reflexivity].
  - cbn [length seq combine]. split.
    + intros [r H] a y Hy. apply mapM_ok in H. inversion H as [|? o ? r' H1 H2]; subst. destruct a as [|a].
      * injection Hy as <-. rewrite Nat.add_0_r. exists o. exact H1.
      * replace (s + S a) with (S s + a) by lia. apply (proj1 (IH (S s))); [|exact Hy]. exists r'. apply mapM_ok. exact H2.
    + intros H. destruct (H 0 x eq_refl) as [o Ho]. rewrite Nat.add_0_r in Ho.
      destruct (proj2 (IH (S s))) as [r Hr]. { intros a y Hy. replace (S s + a) with (s + S a) by lia. apply H. exact Hy. }
      exists (o :: r). apply mapM_ok. constructor; [exact Ho|]. apply mapM_ok. exact Hr.
Qed.

Section Files.
Variable pi : string -> option Z.
Variable pf : string -> option R.
Variable symbol : Z -> string.
Variable listdir : string -> res (list string).
Variable read_xml : string -> res elem.
Variable junk : nat -> nat -> nat -> R.
Variable eigmax : list (list R) -> R.
Notation load_nc := (load_nc pi pf symbol listdir read_xml junk).
Notation load_us := (load_us pi pf symbol listdir read_xml junk eigmax).

Lemma files_eq dir symbols us : files_for pi pf listdir read_xml dir symbols us <->
  exists names, listdir dir = Ok names /\ mapM (fun s => do p <- find_upf names dir s; parse_file pi pf read_xml p) symbols = Ok us.
Proof.
  split; intros (names & Hn & H); exists names; (split; [exact Hn|]).
  - apply mapM_ok. induction H as [|s u l l' (path & root & H1 & H2 & H3) H IH]; constructor; [|exact IH]. rewrite H1. cbn [bind]. unfold parse_file. rewrite H2. cbn [bind]. exact H3.
  - apply mapM_ok in H. induction H as [|s u l l' H1 H IH]; constructor; [|exact IH]. apply bind_ok in H1. destruct H1 as (path & Hp & H1). unfold parse_file in H1. apply bind_ok in H1. destruct H1 as (root & Hr & H1).
    exists path, root. auto.
Qed.
Lemma files_unique dir symbols us us' : files_for pi pf listdir read_xml dir symbols us -> files_for pi pf listdir read_xml dir symbols us' -> us = us'.
Proof. intros H H'. apply files_eq in H, H'. destruct H as (n & E1 & E2), H' as (n' & E1' & E2'). rewrite E1 in E1'. injection E1' as <-. rewrite E2 in E2'. injection E2'. auto. Qed.
Lemma nc_loader cr dir : (exists pp, load_nc cr dir = Ok pp) <->
  exists us, files_for pi pf listdir read_xml dir (map symbol (cr_charges cr)) us /\ Forall (nc_readable pi pf) us.
Proof.
  unfold PpModel.load_nc, nc_create. split.
  - intros [pp H]. apply bind_ok in H. destruct H as (names & Hn & H). apply bind_ok in H. destruct H as (us & Hu & H). exists us. split; [apply files_eq; exists names; auto|].
    apply Forall_forall. intros u Hi. apply In_nth_error in Hi. destruct Hi as [k Hk]. apply (nc_returns pi pf (junk k)).
    apply (proj1 (mapM_indexed (fun k u => nc_create_atom pi pf (junk k) u) us 0) (ex_intro _ pp H) k u Hk).
  - intros (us & Hf & H). apply files_eq in Hf. destruct Hf as (names & Hn & Hu). rewrite Hn. cbn [bind]. rewrite Hu. cbn [bind].
    apply (mapM_indexed (fun k u => nc_create_atom pi pf (junk k) u) us 0). intros a u Ha. apply nc_returns. rewrite Forall_forall in H. apply H. exact (nth_error_In _ _ Ha).
Qed.
Lemma us_loader cr dir pp : load_us cr dir = Ok pp <->
  load_nc cr dir = Ok pp /\ exists us, files_for pi pf listdir read_xml dir (map symbol (cr_charges cr)) us /\
    forall u a, In u us -> n_aug (u_nonlocal u) = Some a -> aug_readable pi eigmax u a.
Proof.
  unfold PpModel.load_us. split.
  - intros H. apply bind_ok in H. destruct H as (x & Hx & H). apply bind_ok in H. destruct H as (names & Hn & H). apply bind_ok in H. destruct H as (us & Hu & H). apply bind_ok in H. destruct H as (y & Hy & H). injection H as <-.
    split; [exact Hx|]. exists us. split; [apply files_eq; exists names; auto|]. intros u a Hi Ha. apply In_nth_error in Hi. destruct Hi as [k Hk].
    destruct (proj1 (mapM_indexed (fun k u => us_create_atom pi (junk k) eigmax u) us 0) (ex_intro _ y Hy) k u Hk) as [o Ho].
    apply (proj1 (us_returns pi (junk k) eigmax u)); [|exact Ha]. exists o. exact Ho.
  - intros (Hx & us & Hf & H). rewrite Hx. cbn [bind]. apply files_eq in Hf. destruct Hf as (names & Hn & Hu). rewrite Hn. cbn [bind]. rewrite Hu. cbn [bind].
    destruct (proj2 (mapM_indexed (fun k u => us_create_atom pi (junk k) eigmax u) us 0)) as [r Hr].
    { intros k u Hk. cbn [Nat.add]. apply us_returns. intros a. apply H. exact (nth_error_In _ _ Hk). }
    rewrite Hr. reflexivity.
Qed.
End Files.
