(** The values of the ultrasoft augmentation functions. *)
From Coq Require Import Reals Lra Lia.
From Coq Require Import Ascii String List Arith ZArith Bool.
From Verif Require Import Base Tensor UpfModel UpfSpec UpfProofs UpfProofs2.
Import ListNotations.
Local Open Scope nat_scope.

Section Us.
Variable pi : string -> option Z.
Lemma pyindex_ok n z i : pyindex n z = Ok i <-> counted n z i.
Proof.
  unfold pyindex, counted. split.
  - destruct (Z.leb_spec 0 z); [destruct (Z.ltb_spec z (Z.of_nat n)); [|discriminate]|destruct (Z.leb_spec 0 (z + Z.of_nat n)); [|discriminate]]; intros E; injection E as <-; lia.
  - intros [Hi [E|E]].
    + destruct (Z.leb_spec 0 z); [|lia]. destruct (Z.ltb_spec z (Z.of_nat n)); [|lia]. f_equal. lia.
    + destruct (Z.leb_spec 0 z); [lia|]. destruct (Z.leb_spec 0 (z + Z.of_nat n)); [|lia]. f_equal. lia.
Qed.
Lemma counted_inj n z i j : counted n z i -> counted n z j -> i = j.
Proof. unfold counted. lia. Qed.
Lemma divide_value junk v w mask out k : divide_where junk v w mask = Ok out -> length v = length w -> length mask = length w -> k < length w -> nth k mask false = true ->
  nth k out 0%R = (nth k v 0 / nth k w 0)%R.
Proof.
  unfold divide_where. intros H Lv Lm Hk Hm.
  assert (Ev : (if length v =? 1 then repeat (hd 0%R v) (length w) else v) = v).
  { destruct (Nat.eqb_spec (length v) 1) as [E|]; [|reflexivity]. rewrite <- Lv, E. destruct v as [|a [|]]; try discriminate. reflexivity. }
  rewrite Ev in H. rewrite Lv, Nat.eqb_refl in H. injection H as <-.
  set (f := fun x : nat * (R * R * bool) => let '(i, (a, b, m)) := x in if m then (a / b)%R else junk i).
  rewrite (nth_indep _ 0%R (f (0, (0, 0, false)%R))) by (rewrite map_length, !combine_length, seq_length; lia). rewrite (map_nth f).
  rewrite combine_nth by (rewrite !combine_length, seq_length; lia). rewrite combine_nth by (rewrite combine_length; lia). rewrite combine_nth by exact Lv. unfold f. rewrite Hm. reflexivity.
Qed.
Lemma us_write_get junk r wl nq nl t i e t' : us_write pi junk r wl nq nl t (i, e) = Ok t' -> forall m n l k,
  (addresses pi wl nq nl e m n l -> k < length r -> (0 < nth k r 0)%R -> length (q_values e) = length r -> tget t' [m; n; l; k] = (nth k (q_values e) 0 / nth k r 0 ^ 2)%R) /\
  (~ addresses pi wl nq nl e m n l -> tget t' [m; n; l; k] = tget t [m; n; l; k]).
Proof.
  unfold us_write. intros H m n l k.
  apply bind_ok in H. destruct H as (zm & Hzm & H). apply bind_ok in H. destruct H as (zn & Hzn & H). apply bind_ok in H. destruct H as (zl & Hzl & H).
  apply bind_ok in H. destruct H as (v & Hv & H). apply bind_ok in H. destruct H as (m' & Hm & H). apply bind_ok in H. destruct H as (n' & Hn & H).
  apply bind_ok in H. destruct H as (l' & Hl & H). apply pyindex_ok in Hm, Hn, Hl. injection H as <-.
  assert (A : addresses pi wl nq nl e m n l <-> l = l' /\ (m = m' /\ n = n' \/ m = n' /\ n = m')).
  { unfold addresses. split.
    - intros (a & b & c & Ha & Hb & Hc & Cl & Cmn). rewrite Hzm in Ha. injection Ha as <-. rewrite Hzn in Hb. injection Hb as <-.
      assert (c = zl) by (destruct wl; congruence). subst c. split; [apply (counted_inj nl zl); assumption|].
      destruct Cmn as [[C1 C2]|[C1 C2]]; [left|right]; split; eapply counted_inj; eassumption.
    - intros (-> & D). exists zm, zn, zl. split; [exact Hzm|]. split; [exact Hzn|]. split; [destruct wl; congruence|]. split; [exact Hl|].
      destruct D as [[-> ->]|[-> ->]]; [left|right]; split; assumption. }
  assert (V : k < length r -> (0 < nth k r 0)%R -> length (q_values e) = length r -> nth k v 0%R = (nth k (q_values e) 0 / nth k r 0 ^ 2)%R).
  { intros Hk Hr Lv. rewrite (divide_value _ _ _ _ _ k Hv); [|rewrite map_length; exact Lv|rewrite !map_length; reflexivity|rewrite map_length; exact Hk|].
    - f_equal. rewrite (nth_indep _ 0%R ((fun x => x ^ 2) 0)%R) by (rewrite map_length; exact Hk). rewrite (map_nth (fun x => (x ^ 2)%R)). reflexivity.
    - rewrite (nth_indep _ false (pos 0%R)) by (rewrite map_length; exact Hk). rewrite map_nth. unfold pos. destruct (Rlt_dec 0 (nth k r 0%R)); [reflexivity|contradiction]. }
  rewrite A. clear A. split.
  - intros (-> & D) Hk Hr Lv. rewrite <- (V Hk Hr Lv). destruct (Nat.eqb_spec m' n') as [->|N].
    + unfold write. cbn [tget]. assert (m = n' /\ n = n') by lia. destruct H as [-> ->]. rewrite !Nat.eqb_refl. reflexivity.
    + unfold write. cbn [tget]. rewrite Nat.eqb_refl, !andb_true_r. destruct D as [[-> ->]|[-> ->]]; rewrite !Nat.eqb_refl; cbn [andb]; [|reflexivity].
      destruct ((m' =? n') && (n' =? m')); reflexivity.
  - intros D. destruct (Nat.eqb_spec m' n') as [->|N]; unfold write; cbn [tget];
    repeat match goal with |- context [?a =? ?b] => destruct (Nat.eqb_spec a b); subst; cbn [andb] end; try reflexivity; exfalso; apply D; tauto.
Qed.
Lemma fold_err {A B} (f : A -> B -> res A) l e : fold_left (fun acc x => do t <- acc; f t x) l (Err e) = Err e.
Proof. induction l as [|x l IH]; [reflexivity|exact IH]. Qed.
Lemma us_fold_get junk r wl nq nl m n l k qs : forall s t t',
  fold_left (fun acc ie => do t <- acc; us_write pi junk r wl nq nl t ie) (combine (seq s (length qs)) qs) (Ok t) = Ok t' ->
  ((forall e, In e qs -> ~ addresses pi wl nq nl e m n l) -> tget t' [m; n; l; k] = tget t [m; n; l; k]) /\
  (forall before e after, qs = before ++ e :: after -> addresses pi wl nq nl e m n l -> (forall e', In e' after -> ~ addresses pi wl nq nl e' m n l) ->
     k < length r -> (0 < nth k r 0)%R -> length (q_values e) = length r -> tget t' [m; n; l; k] = (nth k (q_values e) 0 / nth k r 0 ^ 2)%R).
Proof.
  induction qs as [|e0 qs IH]; intros s t t' H.
  - cbn in H. injection H as <-. split; [reflexivity|]. intros [|? ?] ? ? E; discriminate.
  - cbn [length seq combine fold_left bind] in H. destruct (us_write pi junk r wl nq nl t (s, e0)) as [t1|er] eqn:E; [|rewrite fold_err in H; discriminate].
    pose proof (us_write_get _ _ _ _ _ _ _ _ _ E m n l k) as [W1 W2]. destruct (IH _ _ _ H) as [I1 I2]. split.
    + intros N. rewrite I1 by (intros e He; apply N; right; exact He). apply W2, N. left; reflexivity.
    + intros [|b0 before] e after Eq Ha Hn Hk Hr Lv.
      * injection Eq as -> ->. rewrite I1 by exact Hn. apply W1; assumption.
      * injection Eq as -> ->. apply (I2 before e after); try assumption. reflexivity.
Qed.
Lemma us_values junk eigmax pp u a qs : us_create_atom pi junk eigmax pp = Ok (Some u) -> n_aug (u_nonlocal pp) = Some a -> a_qij a = Some qs ->
  exists nl, tshape (s_qij u) = [length (s_q u); length (s_q u); nl; length (u_r pp)] /\
  (a_with_l a = false -> nl = 1) /\ (a_with_l a = true -> exists t z, u_header pp "l_max_rho" = Some t /\ pi t = Some z /\ nl = Z.to_nat (z + 1)) /\
  forall m n l k, k < length (u_r pp) -> (0 < nth k (u_r pp) 0)%R ->
  ((forall e, In e qs -> ~ addresses pi (a_with_l a) (length (s_q u)) nl e m n l) -> tget (s_qij u) [m; n; l; k] = 0%R) /\
  (forall before e after, qs = before ++ e :: after -> addresses pi (a_with_l a) (length (s_q u)) nl e m n l ->
     (forall e', In e' after -> ~ addresses pi (a_with_l a) (length (s_q u)) nl e' m n l) -> length (q_values e) = length (u_r pp) ->
     tget (s_qij u) [m; n; l; k] = (nth k (q_values e) 0 / nth k (u_r pp) 0 ^ 2)%R).
Proof.
  intros H0 Ha Hqs. pose proof (us_ok pi junk eigmax pp u H0) as (nq' & nl' & Sh & Lq & _). revert H0.
  unfold us_create_atom. rewrite Ha, Hqs. cbv zeta. intros H.
  apply bind_ok in H. destruct H as (q & Hq & H). apply bind_ok in H. destruct H as (qm & Hqm & H).
  apply bind_ok in H. destruct H as (x & _ & H). apply bind_ok in H. destruct H as (nl & Hnl & H).
  cbn [bind] in H. apply bind_ok in H. destruct H as (t & Ht & H). injection H as <-. cbn [s_qij s_q] in *.
  destruct (us_fold_inv pi _ _ _ _ _ _ _ _ Ht) as [S1 _]. cbn [tshape] in S1. rewrite Sh in S1. injection S1 as Eq1 _ Enl. 
  assert (Lm : length qm = Nat.sqrt (length q)) by congruence. exists nl. rewrite Lm. split; [rewrite Sh; congruence|]. split; [|split].
  - intros W. rewrite W in Hnl. injection Hnl. auto.
  - intros W. rewrite W in Hnl. unfold required in Hnl. destruct (u_header pp "l_max_rho") as [tx|]; [|discriminate]. cbn [bind] in Hnl. unfold of_text in Hnl.
    destruct (pi tx) as [z|] eqn:Ez; [|discriminate]. cbn [rmap bind] in Hnl. exists tx, z. split; [reflexivity|]. split; [exact Ez|]. injection Hnl. auto.
  - intros m n l k Hk Hr. destruct (us_fold_get junk (u_r pp) (a_with_l a) (Nat.sqrt (length q)) nl m n l k qs 0 _ _ Ht) as [F1 F2]. split.
    + intros N. rewrite (F1 N). reflexivity.
    + intros before e after E A N L. apply (F2 before e after); assumption.
Qed.
End Us.
(** Two entries for the same pair: the later one wins; the pair in the other order gets the same. *)
Definition pi3 (s : string) : option Z := if String.eqb s "1" then Some 1%Z else if String.eqb s "2" then Some 2%Z else if String.eqb s "0" then Some 0%Z else None.
Definition qs3 : list qij_entry := [Qij (Some "1"%string) (Some "2"%string) (Some "1"%string) [3; 5]%R; Qij (Some "2"%string) (Some "1"%string) (Some "1"%string) [7; 8]%R].
Definition pp3 : upf := Upf [] (fun k => if String.eqb k "l_max_rho" then Some "2"%string else None) [1; 2]%R [] (PPNonlocal None None (Some (Aug true (Some [1; 0; 0; 1]%R) (Some qs3)))) [].
Lemma us_example3 : exists u, us_create_atom pi3 (fun _ _ => 99%R) (fun _ => 1%R) pp3 = Ok (Some u) /\ tshape (s_qij u) = [2; 2; 3; 2] /\
  addresses pi3 true 2 3 (nth 1 qs3 (Qij None None None [])) 0 1 1 /\ tget (s_qij u) [0; 1; 1; 1] = (8 / 2 ^ 2)%R /\ tget (s_qij u) [0; 1; 0; 1] = 0%R.
Proof.
  unfold us_create_atom, pp3. cbn [u_header u_r u_rab u_local u_nonlocal n_aug a_q a_with_l a_qij].
  change (Nat.sqrt (length [1; 0; 0; 1]%R)) with 2. cbn [reshape_square length Nat.eqb Nat.mul Nat.add bind rows]. destruct (Rle_dec (-1) 1); [|exfalso; lra].
  cbn [bind]. unfold qs3. cbn [fold_left combine seq length].
  unfold us_write, pos, map. repeat (destruct (Rlt_dec 0 _); try (exfalso; lra)).
  eexists. split; [reflexivity|]. split; [reflexivity|]. split; [|split; reflexivity].
  exists 2%Z, 1%Z, 1%Z. repeat (split; [reflexivity|]). split; [split; [lia|left; reflexivity]|]. right. split; (split; [lia|left; reflexivity]).
Qed.
