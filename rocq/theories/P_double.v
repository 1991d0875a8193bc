(** Proofs about double precision: rounding, sums and the merging of vertices. *)
From Coq Require Import Reals Lra Lia List Arith Bool ZArith Sorting.Permutation Psatz.
From Flocq Require Import Core Relative Plus_error Sterbenz.
From Verif Require Import M_base M_rotations M_merge M_plane M_mesh S_merge P_base P_merge P_mesh M_double S_double.
Import ListNotations.
Open Scope R_scope.

Global Instance prec53 : Prec_gt_0 53.
Proof. unfold Prec_gt_0. lia. Qed.
Notation fexp := (FLT_exp (-1074) 53).
Notation format := (generic_format radix2 fexp).

(** ** Rounding *)
Lemma double_format : forall x, double x <-> format x.
Proof.
  intros x. split.
  - intros (m & e & M & E & ->). apply generic_format_FLT. exists (Float radix2 m e); auto.
    unfold F2R. cbn [Fnum Fexp]. rewrite bpow_powerRZ. reflexivity.
  - intros F. apply FLT_format_generic in F; [|unfold Prec_gt_0; lia]. destruct F as [[m e] X M E]. exists m, e. cbn in M, E. repeat split; auto.
    rewrite X. unfold F2R. cbn [Fnum Fexp]. rewrite bpow_powerRZ. reflexivity.
Qed.
Lemma fl_format : forall x, format (fl x).
Proof. intros x. apply generic_format_round; [apply FLT_exp_valid, prec53|apply valid_rnd_N]. Qed.
Lemma fl_double : forall x, double (fl x).
Proof. intros x. apply double_format, fl_format. Qed.
Lemma double_fl : forall x, double x -> fl x = x.
Proof. intros x D. apply round_generic; [apply valid_rnd_N|]. apply double_format. auto. Qed.
Lemma fl_le : forall x y, x <= y -> fl x <= fl y.
Proof. intros x y H. apply round_le; [apply FLT_exp_valid, prec53|apply valid_rnd_N|auto]. Qed.
Lemma fl_0 : fl 0 = 0.
Proof. apply round_0, valid_rnd_N. Qed.
Lemma double_0 : double 0.
Proof. apply double_format, generic_format_0. Qed.
Lemma double_opp : forall x, double x -> double (- x).
Proof. intros x D. apply double_format, generic_format_opp, double_format. auto. Qed.
Lemma fl_opp : forall x, fl (- x) = - fl x.
Proof. intros x. apply round_NE_opp. Qed.
Lemma fl_abs : forall x, Rabs (fl x) = fl (Rabs x).
Proof. intros x. symmetry. apply round_NE_abs. apply FLT_exp_valid, prec53. Qed.
Lemma fl_pos : forall x, 0 <= x -> 0 <= fl x.
Proof. intros x H. rewrite <- fl_0. apply fl_le. auto. Qed.
Lemma double_IZR : forall m, (Z.abs m < 2 ^ 53)%Z -> double (IZR m).
Proof. intros m H. exists m, 0%Z. repeat split; auto; [lia|]. cbn. lra. Qed.
Lemma double_1 : double 1.
Proof. apply (double_IZR 1). lia. Qed.
Lemma double_2 : double 2.
Proof. apply (double_IZR 2). lia. Qed.

(** The error of one rounding: relative, or absolute when the result is tiny. *)
Definition tiny : R := powerRZ 2 (-1075).
Lemma tiny_bpow : tiny = bpow radix2 (-1075).
Proof. unfold tiny. rewrite bpow_powerRZ. reflexivity. Qed.
Lemma smallest_bpow : smallest = bpow radix2 (-1022).
Proof. unfold smallest. rewrite bpow_powerRZ. reflexivity. Qed.
Lemma ulp1_bpow : ulp1 = bpow radix2 (-53).
Proof. unfold ulp1. rewrite bpow_powerRZ. unfold powerRZ. f_equal. Qed.
Lemma tiny_pos : 0 < tiny.
Proof. rewrite tiny_bpow. apply bpow_gt_0. Qed.
Lemma smallest_pos : 0 < smallest.
Proof. rewrite smallest_bpow. apply bpow_gt_0. Qed.
Lemma ulp1_pos : 0 < ulp1.
Proof. apply Rinv_0_lt_compat, pow_lt. lra. Qed.
Lemma tiny_smallest : tiny = ulp1 * smallest.
Proof. rewrite tiny_bpow, ulp1_bpow, smallest_bpow, <- bpow_plus. f_equal. Qed.

Lemma half_bpow : forall e, / 2 * bpow radix2 (e + 1) = bpow radix2 e.
Proof. intros e. rewrite bpow_plus. change (bpow radix2 1) with 2. field. Qed.
Lemma fl_error : forall x, Rabs (fl x - x) <= ulp1 * Rabs x + tiny.
Proof.
  intros x. destruct (error_N_FLT radix2 (-1074) 53 ltac:(lia) (fun x => negb (Z.even x)) x) as (e & h & E & H & _ & R).
  unfold fl. rewrite R. replace (x * (1 + e) + h - x) with (x * e + h) by ring.
  change (- (53) + 1)%Z with (-53 + 1)%Z in E. rewrite half_bpow, <- ulp1_bpow in E.
  change (-1074)%Z with (-1075 + 1)%Z in H. rewrite half_bpow, <- tiny_bpow in H.
  apply Rle_trans with (1 := Rabs_triang _ _). rewrite Rabs_mult.
  apply Rplus_le_compat; [|auto]. rewrite Rmult_comm. apply Rmult_le_compat_r; [apply Rabs_pos|auto].
Qed.
(** Sums of doubles have no absolute error. *)
Lemma fl_error_add : forall x y, double x -> double y -> Rabs (fl (x + y) - (x + y)) <= ulp1 * Rabs (x + y).
Proof.
  intros x y X Y. apply double_format in X. apply double_format in Y.
  destruct (Rle_lt_dec smallest (Rabs (x + y))) as [L|L].
  - rewrite smallest_bpow in L.
    destruct (relative_error_N_FLT_ex radix2 (-1074) 53 ltac:(lia) (fun x => negb (Z.even x)) (x + y) L) as (e & E & R).
    change (- (53) + 1)%Z with (-53 + 1)%Z in E. rewrite half_bpow, <- ulp1_bpow in E.
    unfold fl. rewrite R. replace ((x + y) * (1 + e) - (x + y)) with (e * (x + y)) by ring. rewrite Rabs_mult.
    apply Rmult_le_compat_r; [apply Rabs_pos|auto].
  - unfold fl. rewrite round_generic; [|apply valid_rnd_N|].
    + unfold Rminus. rewrite Rplus_opp_r, Rabs_R0. apply Rmult_le_pos; [apply Rlt_le, ulp1_pos|apply Rabs_pos].
    + apply FLT_format_plus_small; try apply prec53; auto. rewrite smallest_bpow in L. apply Rlt_le, Rlt_le_trans with (1 := L).
      apply bpow_le. lia.
Qed.
Lemma fl_error_sub : forall x y, double x -> double y -> Rabs (fl (x - y) - (x - y)) <= ulp1 * Rabs (x - y).
Proof. intros x y X Y. apply (fl_error_add x (- y)); auto. apply double_opp. auto. Qed.
Lemma fl_error_large : forall x, smallest <= Rabs x -> Rabs (fl x - x) <= ulp1 * Rabs x.
Proof.
  intros x L. rewrite smallest_bpow in L.
  destruct (relative_error_N_FLT_ex radix2 (-1074) 53 ltac:(lia) (fun x => negb (Z.even x)) x L) as (e & E & R).
  change (- (53) + 1)%Z with (-53 + 1)%Z in E. rewrite half_bpow, <- ulp1_bpow in E.
  unfold fl. rewrite R. replace (x * (1 + e) - x) with (e * x) by ring. rewrite Rabs_mult.
  apply Rmult_le_compat_r; [apply Rabs_pos|auto].
Qed.
(** The error measured on the result. *)
Lemma fl_error_result : forall x, smallest <= Rabs (fl x) -> Rabs (fl x - x) <= ulp1 * Rabs (fl x).
Proof.
  intros x L. rewrite smallest_bpow in L.
  apply Rle_trans with (1 := error_le_half_ulp_round radix2 fexp (fun x => negb (Z.even x)) x).
  fold (fl x). pose proof (ulp_FLT_le radix2 (-1074) 53 (fl x) L) as U.
  change (1 - 53)%Z with (-53 + 1)%Z in U. rewrite ulp1_bpow, <- half_bpow. nra.
Qed.
Lemma fl_sub_zero : forall x y, double x -> double y -> fl (x - y) = 0 -> x = y.
Proof.
  intros x y X Y E. apply double_format in X. apply double_format, generic_format_opp in Y.
  destruct (Req_dec (x + - y) 0) as [|N]; [lra|].
  exfalso. apply (round_plus_neq_0 radix2 fexp ZnearestE x (- y) X Y N). exact E.
Qed.

(** ** Merging *)
Lemma Rltb_le : forall a b, Rltb a b = false <-> b <= a.
Proof. intros a b. unfold Rltb. destruct (Rlt_dec a b); split; intros; try discriminate; try lra; auto. Qed.
Lemma Rltb_lt : forall a b, Rltb a b = true <-> a < b.
Proof. intros a b. unfold Rltb. destruct (Rlt_dec a b); split; intros; try discriminate; try lra; auto. Qed.

Section Ext.
  Variables (argsort : list R -> list nat) (far1 far2 : R -> R -> bool).
  Definition same_on (key : nat -> R) : Prop := forall i j, far1 (key i) (key j) = far2 (key i) (key j).
  Lemma cut_by_ext : forall key, same_on key -> forall l v, cut_by far1 key (key v) l = cut_by far2 key (key v) l.
  Proof.
    intros key E l. induction l as [|i l IH]; intros v; cbn; auto. rewrite E, !IH. reflexivity.
  Qed.
  Lemma refine_level_by_ext : forall key g, same_on key -> refine_level_by argsort far1 key g = refine_level_by argsort far2 key g.
  Proof.
    intros key g E. unfold refine_level_by. destruct (length g <=? 1)%nat; auto. cbn zeta.
    destruct (sort_level argsort key g); auto. rewrite cut_by_ext; auto.
  Qed.
  Lemma refine_by_ext : forall keys nv levels, Forall same_on keys ->
    refine_by argsort far1 keys nv levels = refine_by argsort far2 keys nv levels.
  Proof.
    induction keys as [|k keys IH]; intros nv levels F; cbn; auto. inversion F; subst.
    rewrite (flat_map_ext (refine_level_by argsort far1 k) (refine_level_by argsort far2 k)).
    - rewrite IH; auto.
    - intros g. apply refine_level_by_ext. auto.
  Qed.
  Lemma merge_by_ext : forall A (cols : list (A -> R)) arr, Forall same_on (map (column arr) cols) ->
    merge_rows_by argsort far1 cols arr = merge_rows_by argsort far2 cols arr.
  Proof. intros A cols arr F. unfold merge_rows_by. rewrite refine_by_ext; auto. Qed.
End Ext.

(** With the exact test, this is the exact model. *)
Lemma merge_by_far : forall argsort atol A (cols : list (A -> R)) arr,
  merge_rows_by argsort (far atol) cols arr = merge_duplicate_rows argsort atol cols arr.
Proof. reflexivity. Qed.

(** All the differences that the algorithm may look at. *)
Definition values {A} (cols : list (A -> R)) (arr : list A) : list R := 0 :: flat_map (fun c => map c arr) cols.
Lemma column_values : forall A (cols : list (A -> R)) arr c i, In c cols -> In (column arr c i) (values cols arr).
Proof.
  intros A cols arr c i C. unfold column, values. destruct (nth_error arr i) eqn:E; [|left; auto].
  right. apply in_flat_map. exists c. split; auto. apply in_map. eapply nth_error_In. eauto.
Qed.
Definition differences {A} (cols : list (A -> R)) (arr : list A) : list R :=
  flat_map (fun a => map (fun b => Rabs (a - b)) (values cols arr)) (values cols arr).
Lemma in_differences : forall A (cols : list (A -> R)) arr a b, In a (values cols arr) -> In b (values cols arr) ->
  In (Rabs (a - b)) (differences cols arr).
Proof.
  intros A cols arr a b HA HB. apply in_flat_map. exists a. split; auto.
  apply (in_map (fun b => Rabs (a - b))). auto.
Qed.
Definition widest (atol : R) (l : list R) : R := fold_right (fun d m => if Rleb (fl d) atol then Rmax d m else m) atol l.
Lemma Rleb_le : forall a b, Rleb a b = true <-> a <= b.
Proof. intros a b. unfold Rleb. destruct (Rle_dec a b); split; intros; try discriminate; try lra; auto. Qed.
Lemma widest_ge : forall atol l, atol <= widest atol l.
Proof.
  intros atol l. induction l as [|d l IH]; cbn; [lra|]. destruct (Rleb (fl d) atol); auto.
  apply Rle_trans with (1 := IH). apply Rmax_r.
Qed.
Lemma widest_in : forall atol l d, In d l -> fl d <= atol -> d <= widest atol l.
Proof.
  intros atol l d. induction l as [|e l IH]; intros I F; [destruct I|]. cbn. destruct I as [->|I].
  - apply Rleb_le in F. rewrite F. apply Rmax_l.
  - destruct (Rleb (fl e) atol); auto. apply Rle_trans with (1 := IH I F). apply Rmax_r.
Qed.
Lemma widest_fl : forall atol l, double atol -> fl (widest atol l) <= atol.
Proof.
  intros atol l D. induction l as [|e l IH]; cbn; [rewrite double_fl; auto; lra|].
  destruct (Rleb (fl e) atol) eqn:E; auto. apply Rleb_le in E. unfold Rmax. destruct Rle_dec; auto.
Qed.
Lemma far_double_far : forall A (cols : list (A -> R)) arr atol, double atol ->
  forall a b, In a (values cols arr) -> In b (values cols arr) ->
  far_double atol a b = far (widest atol (differences cols arr)) a b.
Proof.
  intros A cols arr atol D a b HA HB. unfold far_double, far. rewrite (fl_abs (a - b) : Rabs (fsub a b) = _).
  set (d := Rabs (a - b)). set (t := widest atol (differences cols arr)).
  assert (I : In d (differences cols arr)) by (apply in_differences; auto).
  destruct (Rle_lt_dec (fl d) atol) as [L|L].
  - pose proof (widest_in atol _ d I L) as W. fold t in W.
    apply Rltb_le in L, W. congruence.
  - assert (W : t < d).
    { apply Rnot_le_lt. intros W. apply fl_le in W. pose proof (widest_fl atol (differences cols arr) D) as F. fold t in F. lra. }
    apply Rltb_lt in L, W. congruence.
Qed.
Lemma widest_near : forall atol l, double atol -> 0 <= atol -> smallest <= atol -> widest atol l <= atol * (1 + ulp1).
Proof.
  intros atol l D P S. pose proof (widest_fl atol l D) as F. pose proof (widest_ge atol l) as G.
  set (t := widest atol l) in *. assert (G' : atol <= fl t) by (rewrite <- (double_fl atol D); apply fl_le; auto).
  assert (E : fl t = atol) by lra.
  pose proof (fl_error_result t) as R. rewrite E in R. rewrite Rabs_pos_eq in R by auto. specialize (R S).
  apply Rabs_le_inv in R. lra.
Qed.
Lemma merge_double_exact : forall argsort A (cols : list (A -> R)) arr atol, double atol ->
  merge_double argsort atol cols arr = merge_duplicate_rows argsort (widest atol (differences cols arr)) cols arr.
Proof.
  intros argsort A cols arr atol D. unfold merge_double. rewrite <- merge_by_far. apply merge_by_ext.
  apply Forall_map, Forall_forall. intros c C i j. apply far_double_far; auto; apply column_values; auto.
Qed.
