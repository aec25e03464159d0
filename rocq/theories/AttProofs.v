(** A continuous function attains its minimum on a closed bounded set of finitely many real
    coordinates; continuity of sums and products (C148). *)
From Coq Require Import Reals Lra Lia.
From Coquelicot Require Import Coquelicot.
From Coq Require Import List Arith.
From Verif Require Import Base Sums Tensor.
Import ListNotations.
Local Open Scope R_scope.

Section Coordinates.
  Context {X : Type} (dec : forall a b : X, {a = b} + {a <> b}) (L : list X).
  Definition near (d : R) (y x : X -> R) : Prop := forall a, In a L -> Rabs (y a - x a) < d.
  Lemma near_le d d' y x : d <= d' -> near d y x -> near d' y x.
  Proof. intros H N a Ha. specialize (N a Ha). lra. Qed.

  Fixpoint pack (l : list X) (f : X -> R) : Tn (length l) R := match l with [] => tt | a :: l' => (f a, pack l' f) end.
  Fixpoint unpack (l : list X) : Tn (length l) R -> X -> R :=
    match l with [] => fun _ _ => 0 | a :: l' => fun x y => if dec y a then fst x else unpack l' (snd x) y end.
  Lemma close_unpack l d z (x : Tn (length l) R) : close_n (length l) d (pack l z) x -> forall a, In a l -> Rabs (z a - unpack l x a) < d.
  Proof.
    induction l as [|b l IH]; intros H a Ha; [destruct Ha|]. destruct x as [x1 x2]. cbn in H. destruct H as (H1 & H2). cbn [unpack fst snd].
    destruct (dec a b) as [->|N]; [exact H1|]. destruct Ha as [->|Ha]; [contradiction|]. apply IH; assumption.
  Qed.
  Lemma bounded_pack l m (z : X -> R) : (forall a, In a l -> Rabs (z a) <= m) -> bounded_n (length l) (pack l (fun _ => - m)) (pack l (fun _ => m)) (pack l z).
  Proof.
    induction l as [|b l IH]; intros H; [exact I|]. cbn. split; [|apply IH; intros a Ha; apply H; right; exact Ha].
    specialize (H b (or_introl eq_refl)). apply Rabs_le_between in H. exact H.
  Qed.
  Lemma least_of {Y} (F : Y -> R) (l : list Y) : l <> [] -> exists y, In y l /\ forall z, In z l -> F y <= F z.
  Proof.
    induction l as [|a l IH]; intros H; [contradiction|]. destruct l as [|b l].
    - exists a. split; [left; reflexivity|]. intros z [<-|[]]. lra.
    - destruct IH as (y & Hy & Hl); [discriminate|]. destruct (Rle_or_lt (F a) (F y)) as [G|G].
      + exists a. split; [left; reflexivity|]. intros z [<-|Hz]; [lra|]. specialize (Hl z Hz). lra.
      + exists y. split; [right; exact Hy|]. intros z [<-|Hz]; [lra|]. apply Hl, Hz.
  Qed.
  Lemma extreme m (S : (X -> R) -> Prop) (F : (X -> R) -> R) :
    (forall x, S x -> forall a, In a L -> Rabs (x a) <= m) ->
    (forall x, ~ S x -> exists d, 0 < d /\ forall y, near d y x -> ~ S y) ->
    (forall x, S x -> forall eps, 0 < eps -> exists d, 0 < d /\ forall y, S y -> near d y x -> Rabs (F y - F x) < eps) ->
    (exists x, S x) -> exists x, S x /\ forall y, S y -> F x <= F y.
  Proof.
    intros Hb Hcl Hct (x0 & H0). destruct (Classical_Prop.classic (exists x, S x /\ forall y, S y -> F x <= F y)) as [H|H]; [exact H|]. exfalso.
    assert (Low : forall x, S x -> exists y, S y /\ F y < F x).
    { intros x Hx. destruct (Classical_Prop.classic (exists y, S y /\ F y < F x)) as [G|G]; [exact G|]. exfalso. apply H. exists x. split; [exact Hx|]. intros y Hy. apply Rnot_lt_le. intros Hl. apply G. exists y. split; assumption. }
    set (P := fun (x : X -> R) d => exists y, S y /\ forall z, S z -> near d z x -> F y < F z).
    assert (PE : forall x, exists d, 0 < d <= 1 /\ P x d).
    { intros x. destruct (Classical_Prop.classic (S x)) as [Hx|Hx].
      - destruct (Low x Hx) as (y & Hy & Hl). destruct (Hct x Hx (F x - F y) ltac:(lra)) as (d & Hd & Hc). exists (Rmin d 1). pose proof (Rmin_l d 1). pose proof (Rmin_r d 1).
        split; [split; [apply Rmin_pos; lra|lra]|]. exists y. split; [exact Hy|]. intros z Hz Nz. specialize (Hc z Hz (near_le _ _ _ _ (Rmin_l d 1) Nz)). apply Rabs_def2 in Hc. lra.
      - destruct (Hcl x Hx) as (d & Hd & Hc). exists (Rmin d 1). pose proof (Rmin_l d 1). pose proof (Rmin_r d 1). split; [split; [apply Rmin_pos; lra|lra]|]. exists x0. split; [exact H0|].
        intros z Hz Nz. exfalso. exact (Hc z (near_le _ _ _ _ (Rmin_l d 1) Nz) Hz). }
    set (sp := fun x => real (Lub_Rbar (fun d => 0 < d <= 1 /\ P x d))).
    assert (SP : forall x, 0 < sp x /\ P x (sp x / 2)).
    { intros x. unfold sp. destruct (Lub_Rbar_correct (fun d => 0 < d <= 1 /\ P x d)) as (U & V). destruct (PE x) as (d & Hd & Pd).
      assert (U1 := U d (conj Hd Pd)). assert (V1 := V (Finite 1) (fun e He => proj2 (proj1 He))). destruct (Lub_Rbar _) as [s| |]; cbn in U1, V1; [|contradiction|contradiction]. cbn [real].
      split; [lra|]. destruct (Classical_Prop.classic (exists e, (0 < e <= 1 /\ P x e) /\ s / 2 < e)) as [(e & (He & (y & Hy & Hl)) & Hs)|N].
      - exists y. split; [exact Hy|]. intros z Hz Nz. apply Hl; [exact Hz|]. apply (near_le (s / 2)); [lra|exact Nz].
      - exfalso. assert (W := V (Finite (s / 2))). cbn in W. assert (s <= s / 2); [|lra]. apply W. intros e He. cbn. apply Rnot_lt_le. intros Hs. apply N. exists e. split; [exact He|exact Hs]. }
    set (dl := fun t : Tn (length L) R => mkposreal (sp (unpack L t) / 2) ltac:(destruct (SP (unpack L t)); lra)).
    apply (compactness_list (length L) (pack L (fun _ => - m)) (pack L (fun _ => m)) dl). intros (l & Hl).
    assert (C : exists ys : list (X -> R), (forall y, In y ys -> S y) /\ forall t, In t l -> exists y, In y ys /\ forall z, S z -> near (sp (unpack L t) / 2) z (unpack L t) -> F y < F z).
    { clear Hl. induction l as [|t l IH]; [exists []; split; [intros y []|intros t []]|]. destruct IH as (ys & Y1 & Y2). destruct (SP (unpack L t)) as (_ & (y & Hy & Hz)). exists (y :: ys). split.
      - intros y' [<-|H']; [exact Hy|apply Y1, H'].
      - intros t' [<-|H']; [exists y; split; [left; reflexivity|exact Hz]|]. destruct (Y2 t' H') as (y' & A & B). exists y'. split; [right; exact A|exact B]. }
    destruct C as (ys & Y1 & Y2).
    assert (Step : forall x, S x -> exists y, In y ys /\ F y < F x).
    { intros x Hx. destruct (Hl (pack L x) (bounded_pack L m x (Hb x Hx))) as (t & Ht & _ & Hc). destruct (Y2 t Ht) as (y & Hy & Hz). exists y. split; [exact Hy|]. apply Hz; [exact Hx|]. exact (close_unpack L _ x t Hc). }
    destruct (Step x0 H0) as (y1 & Hy1 & _). destruct (least_of F ys) as (y & Hy & Hle); [intros E; rewrite E in Hy1; destruct Hy1|].
    destruct (Step y (Y1 y Hy)) as (z & Hz & Hlt). specialize (Hle z Hz). lra.
  Qed.

  (** Functions of the coordinates that are continuous, relative to S, at x. *)
  Context (S : (X -> R) -> Prop) (x : X -> R).
  Definition around (P : (X -> R) -> Prop) : Prop := exists d, 0 < d /\ forall y, S y -> near d y x -> P y.
  Global Instance around_filter : Filter around.
  Proof.
    split.
    - exists 1. split; [lra|]. intros; exact I.
    - intros P Q (d & Hd & HP) (e & He & HQ). exists (Rmin d e). split; [apply Rmin_pos; assumption|]. intros y Hy N. split; [apply HP|apply HQ]; try exact Hy; [exact (near_le _ _ _ _ (Rmin_l d e) N)|exact (near_le _ _ _ _ (Rmin_r d e) N)].
    - intros P Q HPQ (d & Hd & HP). exists d. split; [exact Hd|]. intros y Hy N. apply HPQ, HP; assumption.
  Qed.
  Definition cts (f : (X -> R) -> R) : Prop := filterlim f around (locally (f x)).
  Definition ctsC (f : (X -> R) -> C) : Prop := cts (fun y => fst (f y)) /\ cts (fun y => snd (f y)).
  Lemma cts_iff f : cts f <-> forall eps, 0 < eps -> exists d, 0 < d /\ forall y, S y -> near d y x -> Rabs (f y - f x) < eps.
  Proof.
    split.
    - intros H eps He. apply (H (fun v => Rabs (v - f x) < eps)). exists (mkposreal eps He). intros v Hv. exact Hv.
    - intros H P (e & He). destruct (H e (cond_pos e)) as (d & Hd & Hy). exists d. split; [exact Hd|]. intros y S1 N. apply He. apply Hy; assumption.
  Qed.
  Lemma cts_const c : cts (fun _ => c). Proof. apply filterlim_const. Qed.
  Lemma cts_at a : In a L -> cts (fun y => y a).
  Proof. intros Ha. apply cts_iff. intros eps He. exists eps. split; [exact He|]. intros y _ N. apply N, Ha. Qed.
  Lemma cts_plus f g : cts f -> cts g -> cts (fun y => f y + g y).
  Proof. intros Hf Hg. apply (filterlim_comp_2 (F := around) (G := locally (f x)) (H := locally (g x)) (I := locally (f x + g x)) f g Rplus Hf Hg). apply (filterlim_plus (V := R_NormedModule) (f x) (g x)). Qed.
  Lemma cts_mult f g : cts f -> cts g -> cts (fun y => f y * g y).
  Proof. intros Hf Hg. apply (filterlim_comp_2 (F := around) (G := locally (f x)) (H := locally (g x)) (I := locally (f x * g x)) f g Rmult Hf Hg). apply (filterlim_mult (K := R_AbsRing) (f x) (g x)). Qed.
  Lemma cts_ext f g : (forall y, f y = g y) -> cts f -> cts g.
  Proof. intros E H. unfold cts. rewrite <- E. apply (filterlim_ext f); assumption. Qed.
  Lemma cts_opp f : cts f -> cts (fun y => - f y).
  Proof. intros H. apply (cts_ext (fun y => -1 * f y)); [intros; ring|]. apply cts_mult; [apply cts_const|exact H]. Qed.
  Lemma cts_minus f g : cts f -> cts g -> cts (fun y => f y - g y).
  Proof. intros Hf Hg. apply cts_plus; [exact Hf|apply cts_opp, Hg]. Qed.
  Lemma cts_sum {Y} (l : list Y) f : (forall a, In a l -> cts (f a)) -> cts (fun y => sumR l (fun a => f a y)).
  Proof. induction l as [|a l IH]; intros H; [apply cts_const|]. cbn [sumR]. apply cts_plus; [apply H; left; reflexivity|apply IH; intros b Hb; apply H; right; exact Hb]. Qed.
  Lemma ctsC_const c : ctsC (fun _ => c). Proof. split; apply cts_const. Qed.
  Lemma ctsC_plus f g : ctsC f -> ctsC g -> ctsC (fun y => f y + g y)%C.
  Proof. intros (F1 & F2) (G1 & G2). split; cbn; apply cts_plus; assumption. Qed.
  Lemma ctsC_mult f g : ctsC f -> ctsC g -> ctsC (fun y => f y * g y)%C.
  Proof. intros (F1 & F2) (G1 & G2). split; cbn; [apply cts_minus|apply cts_plus]; apply cts_mult; assumption. Qed.
  Lemma ctsC_conj f : ctsC f -> ctsC (fun y => Cconj (f y)).
  Proof. intros (F1 & F2). split; cbn; [exact F1|apply cts_opp, F2]. Qed.
  Lemma ctsC_R f : cts f -> ctsC (fun y => RtoC (f y)).
  Proof. intros H. split; cbn; [exact H|apply cts_const]. Qed.
  Lemma ctsC_sum {Y} (l : list Y) f : (forall a, In a l -> ctsC (f a)) -> ctsC (fun y => sumC l (fun a => f a y)).
  Proof. induction l as [|a l IH]; intros H; [apply ctsC_const|]. cbn [sumC]. apply ctsC_plus; [apply H; left; reflexivity|apply IH; intros b Hb; apply H; right; exact Hb]. Qed.
  Lemma cts_norm2 f : ctsC f -> cts (fun y => Cnorm2 (f y)).
  Proof. intros (F1 & F2). unfold Cnorm2. apply cts_plus; apply cts_mult; assumption. Qed.
End Coordinates.
