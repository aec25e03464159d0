(** The cutoff radii of the projectors. *)
From Coq Require Import Reals Lra Lia.
From Coq Require Import Ascii String List Arith ZArith Bool.
From Verif Require Import Base Tensor UpfModel UpfSpec UpfProofs UpfProofs2.
Import ListNotations.
Local Open Scope nat_scope.

Lemma cutoff_last pi pf junk root u c : parse_upf pi pf root = Ok u -> nc_create_atom pi pf junk u = Ok c ->
  (projectors root = [] -> c_cutoff c = CutZero) /\
  (forall before b, projectors root = before ++ [b] -> c_cutoff c = CutText (attr b "cutoff_radius")).
Proof.
  intros Hu Hc. unfold parse_upf in Hu.
  apply bind_ok in Hu. destruct Hu as (info & _ & Hu). apply bind_ok in Hu. destruct Hu as (hd & _ & Hu).
  apply bind_ok in Hu. destruct Hu as (mesh & _ & Hu). apply bind_ok in Hu. destruct Hu as (nl & Hnl & Hu).
  apply bind_ok in Hu. destruct Hu as (loc & _ & Hu). injection Hu as <-.
  unfold projectors. destruct (child root "PP_NONLOCAL") as [e|]; [|discriminate].
  unfold parse_pp_nonlocal in Hnl. cbv zeta in Hnl. set (betas := filter _ (children_of e)) in *. clearbody betas.
  apply bind_ok in Hnl. destruct Hnl as (beta & Hb & Hnl). apply bind_ok in Hnl. destruct Hnl as (dij & _ & Hnl). apply bind_ok in Hnl. destruct Hnl as (aug & _ & Hnl).
  injection Hnl as <-. unfold nc_create_atom in Hc. cbn [u_header u_r u_rab u_nonlocal u_local u_valence n_beta n_dij] in Hc. cbv zeta in Hc.
  do 7 (apply bind_ok in Hc; destruct Hc as (? & _ & Hc)).
  destruct beta as [bs|].
  - do 4 (apply bind_ok in Hc; destruct Hc as (? & _ & Hc)). injection Hc as <-. cbn [c_cutoff].
    destruct betas as [|b0 betas]; [discriminate|]. split; [discriminate|]. intros before b E. rewrite E in Hb.
    unfold rmap in Hb. apply bind_ok in Hb. destruct Hb as (bs' & Hbs & Hb). injection Hb as <-.
    apply mapM_Forall2 in Hbs. apply Forall2_app_inv_l in Hbs. destruct Hbs as (l1 & l2 & _ & H2 & ->).
    inversion H2 as [|? y ? ? Hy H3]; subst. inversion H3; subst. rewrite last_last. f_equal.
    unfold parse_beta in Hy. apply bind_ok in Hy. destruct Hy as (v & _ & Hy). injection Hy as <-. reflexivity.
  - injection Hc as <-. cbn [c_cutoff]. destruct betas as [|b0 betas].
    + split; [reflexivity|]. intros before b E. destruct before; discriminate.
    + unfold rmap in Hb. destruct (mapM _ _); discriminate.
Qed.

(** A file with two projectors; the radius of the second is no number. *)
Definition two_upf : elem := El "UPF" [] None
  [ El "PP_INFO" [] (Some usual_info) [];
    El "PP_HEADER" [("z_valence", "4"); ("l_max", "1")] None [];
    El "PP_MESH" [] None [El "PP_R" [] (Some "1") []; El "PP_RAB" [] (Some "1") []];
    El "PP_LOCAL" [] (Some "1") [];
    El "PP_NONLOCAL" [] None [El "PP_BETA.1" [("angular_momentum", "0"); ("cutoff_radius", "1.2")] (Some "1") [];
                              El "PP_BETA.2" [("angular_momentum", "1"); ("cutoff_radius", "wide")] (Some "1") [];
                              El "PP_DIJ" [] (Some "1 1 1 1") []] ]%string.
Lemma two_created : exists u c, parse_upf pi1 pf1 two_upf = Ok u /\ nc_create_atom pi1 pf1 (fun _ _ => 0%R) u = Ok c.
Proof.
  destruct (parse_upf pi1 pf1 two_upf) as [u|e] eqn:E.
  2:{ exfalso. unfold parse_upf in E. change (child two_upf "PP_INFO") with (Some (El "PP_INFO" [] (Some usual_info) [])) in E. cbn [text_of] in E.
      destruct (parse_pp_info pi1 pf1 (strip usual_info)) as [info|e'] eqn:E'; [|revert E'; vm_compute; discriminate]. revert E. cbn. discriminate. }
  exists u. unfold parse_upf in E. change (child two_upf "PP_INFO") with (Some (El "PP_INFO" [] (Some usual_info) [])) in E. cbn [text_of] in E.
  destruct (parse_pp_info pi1 pf1 (strip usual_info)) as [info|e'] eqn:E'; [|discriminate].
  assert (E2 : Ok (Upf (i_valence info) (attr (El "PP_HEADER" [("z_valence", "4"); ("l_max", "1")]%string None [])) [1%R] [1%R]
     (PPNonlocal (Some [Beta (Some "0"%string) (Some "1.2"%string) [1%R]; Beta (Some "1"%string) (Some "wide"%string) [1%R]]) (Some [1; 1; 1; 1]%R) None) [1%R]) = Ok u)
    by (rewrite <- E; reflexivity).
  injection E2 as <-. eexists. split; [reflexivity|].
  unfold nc_create_atom, required. cbn [u_header u_r u_rab u_nonlocal u_local u_valence n_beta n_dij attr List.find fst snd String.eqb Ascii.eqb Bool.eqb option_map bind].
  unfold pos, map. destruct (Rlt_dec 0 1); [|exfalso; lra]. reflexivity.
Qed.
Lemma two_last u c : parse_upf pi1 pf1 two_upf = Ok u -> nc_create_atom pi1 pf1 (fun _ _ => 0%R) u = Ok c -> c_cutoff c = CutText (Some "wide"%string).
Proof. intros H1 H2. rewrite (proj2 (cutoff_last _ _ _ _ _ _ H1 H2) [_] _ eq_refl). reflexivity. Qed.
Lemma cutoff_refuted : ~ (forall pi pf junk root u c b t, parse_upf pi pf root = Ok u -> nc_create_atom pi pf junk u = Ok c ->
  In b (projectors root) -> attr b "cutoff_radius" = Some t -> c_cutoff c = CutText (Some t)).
Proof.
  intros H. destruct two_created as (u & c & H1 & H2). pose proof (two_last _ _ H1 H2) as E.
  specialize (H _ _ _ _ _ _ _ "1.2"%string H1 H2 (or_introl eq_refl) eq_refl). congruence.
Qed.
