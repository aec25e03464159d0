(** Proofs about sharded random numbers. *)
From Coq Require Import Ascii String List Arith ZArith Reals Bool Lra Lia.
From Coquelicot Require Import Complex.
From Verif Require Import Base Sums Tensor DFT PadProofs PwModel PwProofs SpmdModel SpmdSpec SpmdProofs SpmdProofs2.
From Coq Require Import List.
Import ListNotations.

Lemma device_shape_ok shape ms : length ms <= length shape -> Forall (fun m => 0 < m) ms -> device_shape shape ms = Ok (zipw Nat.div shape (ms ++ repeat 1 (length shape - length ms))).
Proof.
  revert shape. induction ms as [|m ms IH]; intros shape L F; cbn [device_shape app length].
  - rewrite Nat.sub_0_r, div_ones. destruct shape; reflexivity.
  - destruct shape as [|n shape]; [cbn in L; lia|]. inversion F; subst. destruct (Nat.eqb_spec m 0); [lia|]. rewrite IH by (cbn in L; try lia; assumption). reflexivity.
Qed.
Lemma device_shape_inv shape ms r : device_shape shape ms = Ok r -> length ms <= length shape /\ Forall (fun m => 0 < m) ms.
Proof.
  revert shape r. induction ms as [|m ms IH]; intros shape r H; cbn [device_shape length] in *; [split; [lia|constructor]|].
  destruct shape as [|n shape]; [discriminate|]. destruct (Nat.eqb_spec m 0); [discriminate|]. destruct (device_shape shape ms) eqn:E; [|discriminate]. apply IH in E. destruct E. cbn [length]. split; [lia|constructor; [lia|assumption]].
Qed.
Lemma find_name {B} (m : list (string * B)) p : NoDup (map fst m) -> In p m -> find (fun q => String.eqb (fst q) (fst p)) m = Some p.
Proof.
  induction m as [|q m IH]; intros N I; [contradiction|]. inversion N; subst. cbn [find]. destruct I as [->|I]; [rewrite String.eqb_refl; reflexivity|].
  destruct (String.eqb_spec (fst q) (fst p)) as [E|E]; [exfalso; apply H1; rewrite E; apply in_map, I|apply IH; assumption].
Qed.
Lemma axis_size_in m p : NoDup (map fst m) -> In p m -> axis_size m (fst p) = snd p.
Proof. intros N I. unfold axis_size. rewrite (find_name m p N I). reflexivity. Qed.
Lemma parts_canonical m rank : NoDup (map fst m) -> map (parts m) (full_spec (axis_by_axis m) rank) = map snd m ++ repeat 1 (rank - length m).
Proof.
  intros N. unfold full_spec, axis_by_axis. rewrite map_app, map_map, map_length. f_equal.
  - apply map_ext_in. intros p I. cbn [parts fold_right]. unfold parts. cbn [fold_right]. rewrite (axis_size_in m p N I). lia.
  - induction (rank - length m) as [|k IH]; [reflexivity|]. cbn [repeat map]. rewrite IH. reflexivity.
Qed.
Lemma coord_canonical m c : NoDup (map fst m) -> length c = length m -> map (fun p => block_coord m c [fst p]) m = c.
Proof.
  intros N L. apply (nth_ext _ _ 0 0); [rewrite map_length; symmetry; exact L|]. intros j Hj. rewrite map_length in Hj.
  set (d := (EmptyString, 0)). rewrite (nth_indep _ 0 (block_coord m c [fst d])) by (rewrite map_length; exact Hj). rewrite (map_nth (fun p => block_coord m c [fst p])). unfold block_coord. cbn [fold_left Nat.mul Nat.add]. unfold coord_of.
  assert (X : find (fun q => String.eqb (fst (fst q)) (fst (nth j m d))) (combine m c) = Some (nth j m d, nth j c 0)).
  { revert c j L Hj. clear -N. induction m as [|p m IH]; intros [|a c] j L Hj; cbn [length] in *; try lia. inversion N; subst. cbn [combine find]. destruct j as [|j]; cbn [nth fst snd]; [rewrite String.eqb_refl; reflexivity|].
    destruct (String.eqb_spec (fst p) (fst (nth j m d))) as [E|E]; [exfalso; apply H1; rewrite E; apply in_map, nth_In; lia|]. apply IH; [assumption|lia|lia]. }
  rewrite X. reflexivity.
Qed.
Lemma block_canonical m c rank : NoDup (map fst m) -> length c = length m -> map (block_coord m c) (full_spec (axis_by_axis m) rank) = c ++ repeat 0 (rank - length m).
Proof.
  intros N L. unfold full_spec, axis_by_axis. rewrite map_app, map_map, map_length. f_equal; [apply coord_canonical; assumption|].
  induction (rank - length m) as [|k IH]; [reflexivity|]. cbn [repeat map]. rewrite IH. reflexivity.
Qed.
Lemma find_combine {A B} (P : A -> bool) (l : list A) (us : list B) d a u : NoDup l -> nth_error l d = Some a -> nth_error us d = Some u -> P a = true -> (forall b, In b l -> P b = true -> b = a) -> length us = length l ->
  find (fun p => P (fst p)) (combine l us) = Some (a, u).
Proof.
  revert us d. induction l as [|x l IH]; intros [|y us] [|d] N Ha Hu Pa Q L; cbn [nth_error] in *; try discriminate.
  - injection Ha as ->. injection Hu as ->. cbn [combine find fst]. rewrite Pa. reflexivity.
  - inversion N; subst. cbn [combine find fst]. destruct (P x) eqn:Px; [exfalso; apply H1; rewrite (Q x (or_introl eq_refl) Px); apply (nth_error_In _ _ Ha)|].
    apply (IH us d); try assumption; [intros b Ib Pb; apply Q; [right; exact Ib|exact Pb]|]. cbn in L. lia.
Qed.
Lemma subkeys_length {key} (split : key -> key * key) n k : length (subkeys key split n k) = n.
Proof. revert k. induction n as [|n IH]; intros k; [reflexivity|]. cbn [subkeys]. destruct (split k). cbn [length]. rewrite IH. reflexivity. Qed.
Lemma iter_shift {A} (g : A -> A) n a : Nat.iter n g (g a) = g (Nat.iter n g a).
Proof. induction n as [|n IH]; [reflexivity|]. cbn. f_equal. exact IH. Qed.
Lemma subkeys_nth {key} (split : key -> key * key) n k d : d < n -> nth_error (subkeys key split n k) d = Some (device_key split k d).
Proof.
  revert k d. induction n as [|n IH]; intros k d H; [lia|]. cbn [subkeys]. destruct (split k) as [k1 k2] eqn:E. destruct d as [|d]; cbn [nth_error]; [unfold device_key; cbn; rewrite E; reflexivity|].
  rewrite IH by lia. unfold device_key. f_equal. f_equal. f_equal. change (Nat.iter (S d) (fun k => fst (split k)) k) with (fst (split (Nat.iter d (fun k => fst (split k)) k))).
  rewrite <- (iter_shift (fun k => fst (split k)) d k). rewrite E. reflexivity.
Qed.
Lemma block_div c ls l : length c = length ls -> inb l ls -> zipw Nat.div (zipw Nat.add (zipw Nat.mul c ls) l) ls = c /\ zipw Nat.modulo (zipw Nat.add (zipw Nat.mul c ls) l) ls = l.
Proof.
  intros L I. revert c L. induction I as [|a n l ls Ha I IH]; intros [|x c] L; try discriminate; [split; reflexivity|]. injection L as L. destruct (IH c L) as (A & B). unfold zipw in *. cbn [combine map fst snd]. rewrite A, B.
  split; f_equal; [rewrite Nat.div_add_l by lia; rewrite Nat.div_small by exact Ha; lia|rewrite Nat.add_comm, Nat.mod_add by lia; apply Nat.mod_small, Ha].
Qed.

Section U.
Context {key : Type} (split : key -> key * key) (rand : key -> list nat -> tensor R).
Local Notation uniform := (uniform key split rand).
Lemma divides_b ps sh : length ps = length sh -> (forallb (fun p => fst p mod snd p =? 0) (combine sh ps) = true <-> divides_all ps sh).
Proof.
  revert ps. induction sh as [|n sh IH]; intros [|p ps] L; try discriminate; [split; [constructor|reflexivity]|]. injection L as L. cbn [combine forallb fst snd]. rewrite andb_true_iff, Nat.eqb_eq, (IH ps L). split; [intros (A & B); constructor; assumption|intros X; inversion X; subst; split; assumption].
Qed.
Lemma uniform_canonical ndev k shape m y : NoDup (map fst m) -> uniform ndev k shape (Some (m, axis_by_axis m)) = Ok y ->
  let ls := zipw Nat.div shape (split_sizes m (length shape)) in
  tshape y = shape /\ forall d c l, nth_error (indices (map snd m)) d = Some c -> inb l ls -> tget y (global_index ls c l) = tget (rand (device_key split k d) ls) l.
Proof.
  intros N E ls. unfold SpmdModel.uniform in E. destruct (device_shape shape (map snd m)) as [ls'|] eqn:Ed; [|discriminate]. cbn [bind] in E. destruct (device_shape_inv _ _ _ Ed) as (L & F). rewrite map_length in L.
  assert (Els : ls' = ls) by (rewrite device_shape_ok in Ed by (rewrite ?map_length; assumption); injection Ed as <-; rewrite map_length; reflexivity). subst ls'.
  destruct (ndev <? _); [discriminate|]. rewrite parts_canonical in E by exact N. destruct (_ || _ || _) in E; [discriminate|]. injection E as <-. split; [reflexivity|]. intros d c l Hd Hl. cbn [tget]. unfold global_index.
  assert (Lls : length ls = length shape) by (unfold ls, split_sizes; rewrite zipw_length; [reflexivity|rewrite app_length, map_length, repeat_length; lia]).
  assert (Ic : forall c', In c' (indices (map snd m)) -> length c' = length m) by (intros c' I; apply in_indices, inb_length in I; rewrite map_length in I; exact I).
  assert (Lc : length c = length m) by (apply Ic, (nth_error_In _ _ Hd)).
  destruct (block_div (c ++ repeat 0 (length ls - length c)) ls l) as (B1 & B2); [rewrite app_length, repeat_length; lia|exact Hl|].
  set (i := zipw Nat.add _ l) in *. rewrite B1, B2.
  rewrite (find_combine (fun c' => if list_eq_dec Nat.eq_dec (map (block_coord m c') (full_spec (axis_by_axis m) (length shape))) (c ++ repeat 0 (length ls - length c)) then true else false) (indices (map snd m)) _ d c (rand (device_key split k d) ls)).
  - reflexivity.
  - apply NoDup_indices.
  - exact Hd.
  - refine (map_nth_error (fun k => rand k ls) d _ _). apply subkeys_nth. rewrite <- length_indices. apply nth_error_Some. congruence.
  - destruct (list_eq_dec Nat.eq_dec _ _) as [|Ne]; [reflexivity|]. exfalso. apply Ne. rewrite block_canonical by assumption. rewrite Lls, Lc. reflexivity.
  - intros b Ib. destruct (list_eq_dec Nat.eq_dec _ _) as [Q|]; [intros _|discriminate]. rewrite block_canonical in Q by (try exact N; apply Ic, Ib). rewrite Lls, Lc in Q. apply app_inv_tail in Q. exact Q.
  - rewrite map_length, subkeys_length, length_indices. reflexivity.
Qed.
Lemma uniform_returns ndev k shape m : NoDup (map fst m) -> Forall (fun p => 0 < snd p) m ->
  ((exists y, uniform ndev k shape (Some (m, axis_by_axis m)) = Ok y) <-> length m <= length shape /\ nprod (map snd m) <= ndev /\ divides_all (split_sizes m (length shape)) shape).
Proof.
  intros N F. assert (F' : Forall (fun n => 0 < n) (map snd m)) by (apply Forall_map, F). unfold SpmdModel.uniform. split.
  - intros (y & E). destruct (device_shape shape (map snd m)) as [ls'|] eqn:Ed; [|discriminate]. cbn [bind] in E. destruct (device_shape_inv _ _ _ Ed) as (L & _). rewrite map_length in L. split; [exact L|].
    destruct (Nat.ltb_spec ndev (nprod (map snd m))); [discriminate|]. split; [assumption|]. rewrite parts_canonical in E by exact N. fold (split_sizes m (length shape)) in E. destruct (forallb _ _) eqn:D; [|rewrite orb_true_r in E; discriminate].
    apply divides_b; [unfold split_sizes; rewrite app_length, map_length, repeat_length; lia|exact D].
  - intros (L & Hn & D). rewrite device_shape_ok by (rewrite ?map_length; assumption). cbn [bind]. destruct (Nat.ltb_spec ndev (nprod (map snd m))); [lia|]. rewrite parts_canonical by exact N. rewrite map_length. fold (split_sizes m (length shape)).
    assert (Lz : length (split_sizes m (length shape)) = length shape) by (unfold split_sizes; rewrite app_length, map_length, repeat_length; lia). rewrite (proj2 (divides_b _ _ Lz) D). destruct (list_eq_dec Nat.eq_dec _ _); [|contradiction]. unfold axis_by_axis. rewrite map_length. destruct (Nat.ltb_spec (length shape) (length m)); [lia|]. eexists. reflexivity.
Qed.
Lemma uniform_positional ndev k shape m spec y : uniform ndev k shape (Some (m, spec)) = Ok y -> length m <= length shape /\ zipw Nat.div shape (map (parts m) (full_spec spec (length shape))) = zipw Nat.div shape (split_sizes m (length shape)).
Proof.
  intros E. unfold SpmdModel.uniform in E. destruct (device_shape shape (map snd m)) as [ls'|] eqn:Ed; [|discriminate]. cbn [bind] in E. destruct (device_shape_inv _ _ _ Ed) as (L & F). rewrite map_length in L. split; [exact L|].
  rewrite device_shape_ok in Ed by (rewrite ?map_length; assumption). injection Ed as <-. destruct (ndev <? _); [discriminate|]. destruct (list_eq_dec Nat.eq_dec _ _) as [Q|]; [|rewrite orb_true_r in E; discriminate]. rewrite Q, map_length. reflexivity.
Qed.
Lemma uniform_swapped ndev k : 2 <= ndev -> exists e, uniform ndev k [2; 2] (Some ([("a"%string, 2); ("b"%string, 1)], [["b"%string]; ["a"%string]])) = Err e.
Proof. intros H. unfold SpmdModel.uniform. cbn [device_shape map snd bind Nat.eqb nprod]. destruct (Nat.ltb_spec ndev (2 * (1 * 1))); [cbn in *; lia|]. exists ValueErr. reflexivity. Qed.
End U.
(** every entry belongs to exactly one block *)
Lemma global_cover shape m i : length m <= length shape -> Forall (fun p => 0 < snd p) m -> divides_all (split_sizes m (length shape)) shape -> inb i shape ->
  let ls := zipw Nat.div shape (split_sizes m (length shape)) in exists d c l, nth_error (indices (map snd m)) d = Some c /\ inb l ls /\ i = global_index ls c l.
Proof.
  intros L F D I ls. set (ss := split_sizes m (length shape)) in *. assert (Lss : length ss = length shape) by (unfold ss, split_sizes; rewrite app_length, map_length, repeat_length; lia).
  assert (Lls : length ls = length shape) by (unfold ls; rewrite zipw_length; lia). assert (Li : length i = length shape) by (apply inb_length, I).
  assert (Pss : forall j, j < length shape -> 0 < nth j ss 0).
  { intros j Hj. unfold ss, split_sizes. destruct (lt_dec j (length m)) as [H|H]; [rewrite app_nth1 by (rewrite map_length; exact H)|rewrite app_nth2 by (rewrite map_length; lia)].
    - change 0 with (snd (EmptyString, 0)) at 2. rewrite map_nth. rewrite Forall_forall in F. apply F, nth_In, H.
    - rewrite (nth_indep _ 0 1) by (rewrite repeat_length, map_length; lia). rewrite nth_repeat_nil. lia. }
  assert (Hj : forall j, j < length shape -> nth j shape 0 = nth j ss 0 * nth j ls 0 /\ 0 < nth j ls 0 /\ nth j i 0 < nth j shape 0).
  { intros j Hj. pose proof (F2_nth _ _ _ 0 0 D j Hj) as Dj. cbn beta in Dj. pose proof (F2_nth _ _ _ 0 0 I j ltac:(lia)) as Ij. pose proof (Pss j Hj). unfold ls. rewrite zipw_nth by lia. assert (E : nth j shape 0 = nth j ss 0 * (nth j shape 0 / nth j ss 0)) by (apply Nat.div_exact; lia). split; [exact E|]. split; [|exact Ij]. destruct (nth j shape 0 / nth j ss 0); [lia|lia]. }
  set (q := zipw Nat.div i ls). assert (Lq : length q = length shape) by (unfold q; rewrite zipw_length; lia).
  assert (Q : inb q ss). { apply (F2_of_nth lt 0 0); [lia|]. intros j H. unfold q. rewrite zipw_nth by lia. destruct (Hj j ltac:(lia)) as (E & P & B). apply Nat.div_lt_upper_bound; lia. }
  unfold ss, split_sizes in Q. destruct (split_index _ _ _ Q) as (c & z & Eq & Hc & Hz). apply in_indices, In_nth_error in Hc as (d & Hd). exists d, c, (zipw Nat.modulo i ls). split; [exact Hd|].
  assert (Lc : length c = length m) by (apply nth_error_In, in_indices, inb_length in Hd; rewrite map_length in Hd; exact Hd).
  split; [apply (F2_of_nth lt 0 0); [rewrite zipw_length; lia|]; intros j H; rewrite zipw_length in H by lia; rewrite zipw_nth by lia; apply Nat.mod_upper_bound; destruct (Hj j ltac:(lia)) as (_ & P & _); lia|].
  unfold global_index. assert (Ez : z = repeat 0 (length shape - length m)).
  { clear - Hz. remember (length shape - length m) as n. clear Heqn. revert z Hz. induction n as [|n IH]; intros z Hz; cbn [repeat] in *; inversion Hz; subst; [reflexivity|]. f_equal; [lia|apply IH; assumption]. }
  rewrite Lls, Lc, <- Ez, <- Eq. unfold q. symmetry. apply recombine. lia.
Qed.

Lemma announced_both t sh : fst (fftn_abstract_eval sh t) = sh /\ (snd (fftn_abstract_eval sh t) = fftn_dtype t <-> t = Complex64 \/ t = Complex128) /\
  (fftn_dtype t = Complex64 \/ fftn_dtype t = Complex128) /\ (fftn_dtype t = Complex64 <-> t = Float32 \/ t = Complex64).
Proof.
  split; [reflexivity|split; [apply announced|]]. destruct t; cbn; split; auto; split; intros H; try discriminate; try (destruct H; discriminate); auto.
Qed.

(** ** Cases *)
Definition tconst (sh : list nat) : tensor C := mkT sh (fun _ => RtoC 1).
Definition ex_x : tensor C := mkT [1; 2; 1] (fun i => if nth 1 i 0 =? 0 then RtoC 1 else RtoC 3).
Lemma ex_pairing : 3 <= ndim ex_x /\ tshape (delta_at [1; 2; 1] [0; 1; 0]) = tshape ex_x /\ pairing ex_x (delta_at [1; 2; 1] [0; 1; 0]) <> RtoC 0.
Proof.
  split; [cbn; lia|]. split; [reflexivity|]. unfold pairing. cbn. intros H. apply (f_equal fst) in H. cbn in H. lra.
Qed.
Lemma ex_differs : exists a b, fftn_transpose_rule ex_x = Ok a /\ ifftn3 ex_x = Ok b /\ ~ teq a b.
Proof.
  unfold fftn_transpose_rule. destruct (fftn3_eq ex_x [] [1; 2; 1] eq_refl eq_refl) as (a & Ea & Sa & Va). destruct (ifftn3_eq ex_x [] [1; 2; 1] eq_refl eq_refl) as (b & Eb & Sb & Vb).
  exists a, b. split; [exact Ea|]. split; [exact Eb|]. intros (_ & T). specialize (Va [] [0; 0; 0] eq_refl). specialize (Vb [] [0; 0; 0] eq_refl). cbn [app] in Va, Vb. rewrite T in Va by (rewrite Sa; repeat constructor). rewrite Vb in Va.
  unfold idft, dft in Va. rewrite (sumC_ext _ _ (fun g => tget ex_x g)) in Va by (intros g _; change (zs [0; 0; 0]) with (zs (repeat 0 (length [1; 2; 1]))); rewrite phase_zero; cbn [app]; rewrite Rmult_0_r, cis_0, Cmult_1_r; reflexivity).
  rewrite (sumC_ext _ (fun x => _ * cis (- _))%C (fun g => tget ex_x g)) in Va by (intros g _; change (zs [0; 0; 0]) with (zs (repeat 0 (length [1; 2; 1]))); rewrite phase_comm, phase_zero; cbn [app]; rewrite Rmult_0_r, Ropp_0, cis_0, Cmult_1_r; reflexivity).
  apply (f_equal fst) in Va. cbn in Va. lra.
Qed.
Definition ex_batched : tensor C := mkT [2; 1; 3; 4] (fun _ => RtoC 1).
Lemma ex_vmap : 4 <= ndim ex_batched /\ 2 < ndim ex_batched /\ exists y, vmap_fftn3d ex_batched 2 = Ok (y, 0) /\ tshape y = [3; 2; 1; 4].
Proof.
  split; [cbn; lia|]. split; [cbn; lia|]. destruct (proj1 (vmap_ok ex_batched 2)) as (y & E & S & _); [cbn; lia|]. exists y. split; [exact E|exact S].
Qed.
Lemma ex_dist : distributed_ok fftn3 (sharded_fftn [("x"%string, 2)] [["x"%string]]) [4; 1; 3; 5].
Proof.
  apply fft_dist; [cbn; lia|repeat constructor|]. split; [|split; reflexivity]. intros [|[|[|j]]] H; try reflexivity; cbn in H; lia.
Qed.
Lemma ex_gather : distributed_ok fftn3 (sharded_fftn [("x"%string, 2)] [[]; []; ["x"%string]]) [1; 3; 4].
Proof.
  apply fft_dist; [cbn; lia|repeat constructor|]. split; [|split; reflexivity]. intros [|[|j]] H; try reflexivity; cbn in H; lia.
Qed.
Lemma unsharded_refuted : exists m spec sh, 3 <= length sh /\ (forall j, S j < length sh -> nth j sh 0 mod axis_parts m spec j = 0) /\
  nth (length sh - 2) (supported_sharding spec (length sh)) [] <> [] /\ (exists y, sharded_fftn m spec (tconst sh) = Ok y) /\ ~ distributed_ok fftn3 (sharded_fftn m spec) sh.
Proof.
  exists [("x"%string, 2)], [[]; ["x"%string]; []], [1; 2; 1]. split; [cbn; lia|]. split; [intros [|[|j]] H; try reflexivity; cbn in H; lia|]. split; [discriminate|]. split.
  - eexists. reflexivity.
  - intros D. apply fft_dist in D; [|cbn; lia|repeat constructor]. destruct D as (_ & _ & D). discriminate.
Qed.
Lemma any_order_refuted : exists m spec shape, divides_all (map (parts m) (full_spec spec (length shape))) shape /\ NoDup (map fst m) /\
  forall key split rand ndev k, 2 <= ndev -> exists e, SpmdModel.uniform key split rand ndev k shape (Some (m, spec)) = Err e.
Proof.
  exists [("a"%string, 2); ("b"%string, 1)], [["b"%string]; ["a"%string]], [2; 2]. split; [repeat constructor|]. split; [repeat constructor; cbn; intuition discriminate|]. intros. apply uniform_swapped. assumption.
Qed.
Lemma ex_uniform : exists y, SpmdModel.uniform nat (fun k => (k + 1, 10 * k)) (fun k s => mkT s (fun i => INR (k + nth 0 i 0))) 4 1 [4; 2] (Some ([("a"%string, 2)], [["a"%string]])) = Ok y /\
  tget y [3; 1] = INR 21.
Proof. eexists. split; [reflexivity|]. reflexivity. Qed.
