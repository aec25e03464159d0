(** Proofs about exchange-correlation. *)
From Coq Require Import Reals Lra Lia ZifyBool Permutation.
From Coquelicot Require Import Coquelicot.
From Coq Require Import Ascii String List Arith ZArith Bool.
From Verif Require Import Base Sums Tensor DFT GridModel GridProofs PadModel PadProofs Lin3 VecModel VecProofs OccModel PwModel PwSpec PwProofs BraketModel BraketSpec BraketProofs XcModel EnergyModel EnergySpec EnergyProofs ExtProofs TotalProofs RespProofs ShiftProofs.
Import ListNotations.
Local Open Scope R_scope.

(** ** dependence on entries only *)
Lemma mapM_ext {X Y} (f g : X -> res Y) l : (forall x, f x = g x) -> mapM f l = mapM g l.
Proof. intros H. induction l as [|x l IH]; [reflexivity|]. cbn. rewrite H, IH. reflexivity. Qed.

Lemma column_ext d d' i : teq d d' -> inb i (tl (tshape d)) -> column d i = column d' i.
Proof.
  intros [H1 H2] Hi. unfold column. rewrite <- H1. apply map_ext_in. intros k Hk. apply in_seq in Hk. apply H2.
  destruct (tshape d) as [|s grid] eqn:E; cbn in *; [lia|]. constructor; [lia|exact Hi].
Qed.

(** mapM of functions that agree up to [R] *)
Lemma mapM_rel {X Y} (R : Y -> Y -> Prop) (f g : X -> res Y) l :
  (forall x, match f x, g x with Ok a, Ok b => R a b | Err a, Err b => a = b | _, _ => False end) ->
  match mapM f l, mapM g l with Ok a, Ok b => Forall2 R a b | Err a, Err b => a = b | _, _ => False end.
Proof.
  intros H. induction l as [|x l IH]; cbn; [constructor|]. specialize (H x). destruct (f x), (g x); cbn; try contradiction; [|exact H].
  destruct (mapM f l), (mapM g l); cbn; try contradiction; [constructor; assumption|exact IH].
Qed.

Lemma lda_teq lib t d d' : teq d d' -> rteq (lda lib t d) (lda lib t d').
Proof.
  intros H. pose proof H as [H1 H2]. unfold lda. rewrite <- H1. destruct (tshape d) as [|s grid] eqn:E.
  - destruct (pick lib t false); [|reflexivity]. split; [reflexivity|]. intros i _. cbn [tget]. rewrite H2 by constructor. reflexivity.
  - destruct (pick lib t _); [|reflexivity]. destruct (_ || _)%bool; [|reflexivity]. split; [reflexivity|]. intros i Hi. cbn [tget tshape] in *.
    rewrite (column_ext d d' i H); [reflexivity|]. rewrite E. exact Hi.
Qed.
Lemma lda_shape lib t d a : lda lib t d = Ok a -> tshape a = tl (tshape d).
Proof.
  unfold lda. destruct (tshape d) as [|s grid]; (destruct (pick lib t _); [|discriminate]).
  - intros H. injection H as <-. reflexivity.
  - destruct (_ || _)%bool; [|discriminate]. intros H. injection H as <-. reflexivity.
Qed.
Lemma gga_teq lib t d d' g g' : teq d d' -> teq g g' -> rteq (gga lib t d g) (gga lib t d' g').
Proof.
  intros H Hg. pose proof H as [H1 H2]. pose proof Hg as [G1 G2]. unfold gga. rewrite <- H1, <- G1. destruct (tshape d) as [|s grid] eqn:E; [reflexivity|].
  destruct (pick lib t _); [|reflexivity]. destruct (_ || _)%bool; [|reflexivity]. destruct (list_eq_dec _ _ _) as [Eg|]; [|reflexivity].
  split; [reflexivity|]. intros i Hi. cbn [tget tshape] in *.
  rewrite (column_ext d d' i H), (column_ext g g' i Hg); [reflexivity| |]; rewrite ?E, ?Eg; exact Hi.
Qed.
Lemma sum_grids_ext grid grid' l l' i : Forall2 (fun a b : tensor R => tget a i = tget b i) l l' -> tget (sum_grids grid l) i = tget (sum_grids grid' l') i.
Proof. intros H. cbn. induction H as [|a b l l' Hab H IH]; cbn; [reflexivity|]. rewrite Hab. f_equal. exact IH. Qed.
Lemma Forall2_imp {X Y} (P Q : X -> Y -> Prop) l m : (forall x y, P x y -> Q x y) -> Forall2 P l m -> Forall2 Q l m.
Proof. intros H. induction 1; constructor; auto. Qed.

Lemma lda_sum_teq lib ts d d' : teq d d' -> rteq (lda_sum lib ts d) (lda_sum lib ts d').
Proof.
  intros H. unfold lda_sum.
  pose proof (mapM_rel (fun a b => teq a b /\ tshape a = tl (tshape d)) (fun t => lda lib t d) (fun t => lda lib t d') ts) as M.
  assert (A : forall x, match lda lib x d, lda lib x d' with Ok a, Ok b => teq a b /\ tshape a = tl (tshape d) | Err a, Err b => a = b | _, _ => False end).
  { intros x. pose proof (lda_teq lib x d d' H) as T. destruct (lda lib x d) eqn:E, (lda lib x d'); cbn in T; try contradiction; [|exact T]. split; [exact T|apply (lda_shape lib x d _ E)]. }
  specialize (M A). destruct (mapM _ ts), (mapM _ ts); cbn; try contradiction; [|exact M]. split; [cbn; rewrite (proj1 H); reflexivity|].
  intros i Hi. apply sum_grids_ext. eapply Forall2_imp; [|exact M]. intros u v [[T1 T2] S]. apply T2. rewrite S. exact Hi.
Qed.
Lemma gga_shape lib t d g a : gga lib t d g = Ok a -> tshape a = tl (tshape d).
Proof.
  unfold gga. destruct (tshape d) as [|s grid]; [discriminate|]. destruct (pick lib t _); [|discriminate]. destruct (_ || _)%bool; [|discriminate].
  destruct (list_eq_dec _ _ _); [|discriminate]. intros H. injection H as <-. reflexivity.
Qed.
Lemma gga_sum_teq lib ts d d' g g' : teq d d' -> teq g g' -> rteq (gga_sum lib ts d g) (gga_sum lib ts d' g').
Proof.
  intros H Hg. unfold gga_sum.
  pose proof (mapM_rel (fun a b => teq a b /\ tshape a = tl (tshape d)) (fun t => gga lib t d g) (fun t => gga lib t d' g') ts) as M.
  assert (A : forall x, match gga lib x d g, gga lib x d' g' with Ok a, Ok b => teq a b /\ tshape a = tl (tshape d) | Err a, Err b => a = b | _, _ => False end).
  { intros x. pose proof (gga_teq lib x d d' g g' H Hg) as T. destruct (gga lib x d g) eqn:E, (gga lib x d' g'); cbn in T; try contradiction; [|exact T]. split; [exact T|apply (gga_shape lib x d g _ E)]. }
  specialize (M A). destruct (mapM _ ts), (mapM _ ts); cbn; try contradiction; [|exact M]. split; [cbn; rewrite (proj1 H); reflexivity|].
  intros i Hi. apply sum_grids_ext. eapply Forall2_imp; [|exact M]. intros u v [[T1 T2] S]. apply T2. rewrite S. exact Hi.
Qed.
Lemma vxc_lda_teq exc d d' : teq d d' -> rteq (vxc_lda exc d) (vxc_lda exc d').
Proof.
  intros H. pose proof H as [H1 H2]. unfold vxc_lda. rewrite <- H1. destruct (tshape d) as [|s grid] eqn:E; [reflexivity|].
  destruct (_ || _)%bool; [|reflexivity]. split; [reflexivity|]. intros i Hi. cbn [tget tshape] in *. inversion Hi; subst. cbn [tl hd].
  rewrite (column_ext d d' _ H); [reflexivity|]. rewrite E. assumption.
Qed.
Lemma grad_ext ns G f g a x : (forall y, inb y ns -> f y = g y) -> grad_component ns G f a x = grad_component ns G g a x.
Proof.
  intros H. unfold grad_component. apply idft_ext. intros q Hq. f_equal. f_equal. apply dft_ext. intros y Hy. rewrite H by exact Hy. reflexivity.
Qed.
Lemma sigma_teq d d' G : teq d d' -> rteq (sigma_r_fn d G) (sigma_r_fn d' G).
Proof.
  intros H. pose proof H as [H1 H2]. unfold sigma_r_fn. rewrite <- H1. destruct (tshape d) as [|s [|n1 [|n2 [|n3 [|z l]]]]] eqn:E; try reflexivity.
  destruct (list_eq_dec _ _ _); [|reflexivity].
  assert (P : forall k a x, (k < s)%nat -> grad_component [n1; n2; n3] G (fun y => tget d (k :: y)) a x = grad_component [n1; n2; n3] G (fun y => tget d' (k :: y)) a x).
  { intros k a x Hk. apply grad_ext. intros y Hy. apply H2. constructor; assumption. }
  destruct (Nat.eqb_spec s 2) as [->|Hs].
  - split; [reflexivity|]. intros i Hi. cbn [tget tshape] in *. inversion Hi as [|k n x sh Hk Hx]; subst. cbn [hd tl].
    destruct k as [|[|k]]; unfold Re; f_equal; apply sumC_ext; intros a _; rewrite !P by lia; reflexivity.
  - split; [reflexivity|]. intros i Hi. cbn [tget tshape] in *. inversion Hi as [|k n x sh Hk Hx]; subst. cbn [hd tl].
    unfold Re. f_equal. apply sumC_ext. intros a _. rewrite !P by lia. reflexivity.
Qed.

Lemma rteq_rmap {X Y} (f : X -> Y) a b : rteq a b -> rteq (rmap (tmap f) a) (rmap (tmap f) b).
Proof. destruct a, b; cbn; try contradiction; [apply tmap_teq|congruence]. Qed.

Lemma xc_density_local lib vg ks xt : contains "gga" xt = false \/ ks = false -> xc_local (xc_density lib vg) ks xt.
Proof.
  intros Hc d d' G H. unfold xc_density. destruct (contains "gga" xt) eqn:E.
  - destruct Hc as [Hc|Hc]; [discriminate|]. subst ks. apply rteq_bind'; [apply sigma_teq, H|]. intros u v Huv. apply rteq_rmap, gga_sum_teq; assumption.
  - destruct ks; [|apply rteq_rmap, lda_sum_teq, H].
    pose proof (lda_sum_teq lib (split_on "+" xt) d d' H) as T. destruct (lda_sum lib _ d), (lda_sum lib _ d'); cbn in T; try contradiction; cbn [bind]; [|exact T].
    apply rteq_rmap, vxc_lda_teq, H.
Qed.

(** ** translation *)
Section Shift.
  Context (n1 n2 n3 sp : nat) (t : list Z) (d d' : tensor R).
  Let ns := [n1; n2; n3].
  Context (Hl : length t = 3%nat) (Sd : tshape d = sp :: ns) (Sd' : tshape d' = sp :: ns).
  Context (Hd : forall s x, (s < sp)%nat -> inb x ns -> tget d' (s :: x) = tget d (s :: shift_index ns x t)).

  Lemma column_shift x : inb x ns -> column d' x = column d (shift_index ns x t).
  Proof. intros Hx. unfold column. rewrite Sd, Sd'. cbn [hd]. apply map_ext_in. intros k Hk. apply in_seq in Hk. apply Hd; [lia|exact Hx]. Qed.

  Definition moved (e e' : tensor R) : Prop := tshape e = ns /\ tshape e' = ns /\ forall x, inb x ns -> tget e' x = tget e (shift_index ns x t).
  Definition moved_s (m : nat) (e e' : tensor R) : Prop := tshape e = m :: ns /\ tshape e' = m :: ns /\
    forall s x, (s < m)%nat -> inb x ns -> tget e' (s :: x) = tget e (s :: shift_index ns x t).
  Definition rmoved (r r' : res (tensor R)) : Prop := match r, r' with Ok a, Ok b => moved a b | Err a, Err b => a = b | _, _ => False end.

  Lemma lda_moved lib tt : rmoved (lda lib tt d) (lda lib tt d').
  Proof.
    unfold lda. rewrite Sd, Sd'. destruct (pick lib tt _); [|reflexivity]. destruct (_ || _)%bool; [|reflexivity].
    split; [reflexivity|]. split; [reflexivity|]. intros y Hy. cbn [tget]. rewrite column_shift by exact Hy. reflexivity.
  Qed.
  Lemma sums_moved grid l l' : grid = ns -> Forall2 moved l l' -> moved (sum_grids grid l) (sum_grids grid l').
  Proof.
    intros -> H. split; [reflexivity|]. split; [reflexivity|]. intros x Hx. cbn. induction H as [|a b l l' (_ & _ & Hab) H IH]; [reflexivity|].
    cbn. rewrite Hab by exact Hx. f_equal. exact IH.
  Qed.
  Lemma lda_sum_moved lib ts : rmoved (lda_sum lib ts d) (lda_sum lib ts d').
  Proof.
    unfold lda_sum. pose proof (mapM_rel moved (fun tt => lda lib tt d) (fun tt => lda lib tt d') ts (fun x => lda_moved lib x)) as M.
    destruct (mapM _ ts), (mapM _ ts); cbn [bind]; try contradiction; [|exact M]. rewrite Sd, Sd'. cbn [tl]. apply sums_moved; [reflexivity|exact M].
  Qed.
  Lemma vxc_moved exc : match vxc_lda exc d, vxc_lda exc d' with Ok a, Ok b => moved_s sp a b | Err a, Err b => a = b | _, _ => False end.
  Proof.
    unfold vxc_lda. rewrite Sd, Sd'. destruct (_ || _)%bool; [|reflexivity]. split; [reflexivity|]. split; [reflexivity|].
    intros s x Hs Hx. cbn [tget tl hd]. rewrite column_shift by exact Hx. reflexivity.
  Qed.

  Lemma idft_shift_gen F F' x : inb x ns -> (forall g, inb g ns -> F' g = (cis (- (2 * PI * phase ns (zs g) t)) * F g)%C) -> idft ns F' x = idft ns F (shift_index ns x t).
  Proof.
    intros Hx HF. unfold idft. f_equal. apply sumC_ext. intros g Hg. apply in_indices in Hg. rewrite HF by exact Hg.
    destruct (congr_shift ns x t Hx Hl) as [Hc _]. rewrite (phase_comm ns (zs g) (zs (shift_index ns x t))).
    rewrite (cis_phase_congr ns _ _ (zs g) (inb_pos _ _ Hx) Hc) by (rewrite zs_length; apply (inb_length _ _ Hg)).
    rewrite phase_sub_l by (rewrite zs_length, (inb_length _ _ Hx); cbn; lia).
    replace (2 * PI * (phase ns (zs x) (zs g) - phase ns t (zs g)))%R with (2 * PI * phase ns (zs g) (zs x) + - (2 * PI * phase ns (zs g) t))%R
      by (rewrite (phase_comm ns (zs g) t), (phase_comm ns (zs g) (zs x)); ring).
    rewrite cis_plus. ring.
  Qed.
  Lemma grad_moved G k a x : (k < sp)%nat -> inb x ns ->
    grad_component ns G (fun y => tget d' (k :: y)) a x = grad_component ns G (fun y => tget d (k :: y)) a (shift_index ns x t).
  Proof.
    intros Hk Hx. unfold grad_component. apply idft_shift_gen; [exact Hx|]. intros g Hg.
    rewrite (dft_ext ns _ (fun y => (fun z => RtoC (tget d (k :: z))) (shift_index ns y t))) by (intros y Hy; rewrite Hd by assumption; reflexivity).
    rewrite (dft_shift ns t (fun z => RtoC (tget d (k :: z))) g Hl Hg). ring.
  Qed.
  Lemma sigma_moved G : tshape G = ns -> exists m a b, sigma_r_fn d G = Ok a /\ sigma_r_fn d' G = Ok b /\ moved_s m a b.
  Proof.
    intros SG. unfold sigma_r_fn. rewrite Sd, Sd', SG. unfold ns. destruct (list_eq_dec _ _ _) as [_|N]; [|contradiction]. fold ns.
    destruct (Nat.eqb_spec sp 2) as [E2|Hs].
    - exists 3%nat. do 2 eexists. split; [reflexivity|]. split; [reflexivity|]. split; [reflexivity|]. split; [reflexivity|].
      intros s x Hs' Hx. cbn [tget hd tl]. destruct s as [|[|s]]; unfold Re; f_equal; apply sumC_ext; intros a _; rewrite !grad_moved by (auto; lia); reflexivity.
    - exists sp. do 2 eexists. split; [reflexivity|]. split; [reflexivity|]. split; [reflexivity|]. split; [reflexivity|].
      intros s x Hs' Hx. cbn [tget hd tl]. unfold Re; f_equal; apply sumC_ext; intros a _; rewrite !grad_moved by (auto; lia); reflexivity.
  Qed.
  Lemma gga_sum_moved lib ts m g g' : moved_s m g g' -> rmoved (gga_sum lib ts d g) (gga_sum lib ts d' g').
  Proof.
    intros (Sg & Sg' & Hg). unfold gga_sum.
    assert (A : forall x, rmoved (gga lib x d g) (gga lib x d' g')).
    { intros x. unfold gga. rewrite Sd, Sd', Sg, Sg'. destruct (pick lib x _); [|reflexivity]. destruct (_ || _)%bool; [|reflexivity].
      destruct (list_eq_dec _ _ _); [|reflexivity]. split; [reflexivity|]. split; [reflexivity|]. intros y Hy. cbn [tget]. rewrite column_shift by exact Hy.
      f_equal. unfold column. rewrite Sg, Sg'. cbn [hd]. apply map_ext_in. intros k Hk. apply in_seq in Hk. apply Hg; [lia|exact Hy]. }
    pose proof (mapM_rel moved (fun tt => gga lib tt d g) (fun tt => gga lib tt d' g') ts A) as M.
    destruct (mapM _ ts), (mapM _ ts); cbn [bind]; try contradiction; [|exact M]. rewrite Sd, Sd'. cbn [tl]. apply sums_moved; [reflexivity|exact M].
  Qed.
End Shift.

Lemma xc_density_translates lib vg ks xt : contains "gga" xt = false \/ ks = false -> xc_translates (xc_density lib vg) ks xt.
Proof.
  intros Hc n1 n2 n3 sp t d d' G ns Hl SG Sd Sd' Hd. unfold xc_density.
  assert (X : forall r r', rmoved n1 n2 n3 t r r' ->
    match rmap (tmap RtoC) r, rmap (tmap RtoC) r' with
    | Ok e, Ok e' => tshape e = tshape e' /\ ((tshape e = ns /\ forall x, inb x ns -> tget e' x = tget e (shift_index ns x t)) \/
       (tshape e = sp :: ns /\ forall s x, (s < sp)%nat -> inb x ns -> tget e' (s :: x) = tget e (s :: shift_index ns x t)))
    | Err a, Err b => a = b | _, _ => False end).
  { intros r r' H. destruct r, r'; cbn in H |- *; try contradiction; [|exact H]. destruct H as (S1 & S2 & H). split; [congruence|]. left. split; [exact S1|].
    intros x Hx. rewrite H by exact Hx. reflexivity. }
  destruct (contains "gga" xt) eqn:E.
  - destruct Hc as [Hc|Hc]; [discriminate|]. subst ks. destruct (sigma_moved n1 n2 n3 sp t d d' Hl Sd Sd' Hd G SG) as (m & a & b & -> & -> & M). cbn [bind].
    apply X. eapply gga_sum_moved; eassumption.
  - destruct ks.
    + assert (M : rmoved n1 n2 n3 t (lda_sum lib (split_on "+" xt) d) (lda_sum lib (split_on "+" xt) d')) by (eapply lda_sum_moved; eassumption).
      destruct (lda_sum lib _ d), (lda_sum lib _ d'); cbn in M; try contradiction; cbn [bind]; [|exact M].
      pose proof (vxc_moved n1 n2 n3 sp t d d' Hl Sd Sd' Hd (lda_sum_at lib (split_on "+" xt))) as V.
      destruct (vxc_lda _ d), (vxc_lda _ d'); cbn in V |- *; try contradiction; [|exact V]. destruct V as (S1 & S2 & V). split; [congruence|]. right. split; [exact S1|].
      intros s x Hs Hx. rewrite V by assumption. reflexivity.
    + apply X. eapply lda_sum_moved; eassumption.
Qed.
