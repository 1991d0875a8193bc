(** Proofs about double precision: merging without error, sums, mirrors. *)
From Coq Require Import Reals Lra Lia List Arith Bool ZArith Sorting.Permutation Psatz.
From Flocq Require Import Core Relative Plus_error Sterbenz.
From Verif Require Import M_base M_rotations M_merge M_plane M_mesh S_merge P_base P_merge P_mesh M_double S_double P_double.
Import ListNotations.
Open Scope R_scope.

(** ** Differences without rounding *)
Lemma merge_exact_differences : forall argsort A (cols : list (A -> R)) arr atol,
  (forall a b, In a (values cols arr) -> In b (values cols arr) -> Rltb atol (Rabs (fl (a - b))) = Rltb atol (Rabs (a - b))) ->
  merge_double argsort atol cols arr = merge_duplicate_rows argsort atol cols arr.
Proof.
  intros argsort A cols arr atol D. unfold merge_double. rewrite <- merge_by_far. apply merge_by_ext.
  apply Forall_map, Forall_forall. intros c C i j. apply D; apply column_values; auto.
Qed.
Lemma values_all : forall A (cols : list (A -> R)) arr (P : R -> Prop), P 0 ->
  (forall r c, In r arr -> In c cols -> P (c r)) -> forall x, In x (values cols arr) -> P x.
Proof.
  intros A cols arr P Z H x [<-|I]; auto. apply in_flat_map in I. destruct I as (c & C & I). apply in_map_iff in I.
  destruct I as (r & <- & I). auto.
Qed.
Lemma grid_double : forall e x y, (-1074 <= e)%Z -> on_grid e x -> on_grid e y -> double (x - y).
Proof.
  intros e x y E (k & K & ->) (l & L & ->).
  replace (IZR k * powerRZ 2 e - IZR l * powerRZ 2 e) with (IZR (k - l) * powerRZ 2 e) by (rewrite minus_IZR; ring).
  destruct (Z.eq_dec (Z.abs (k - l)) (2 ^ 53)) as [B|B].
  - assert (S : (k - l = 2 ^ 53 \/ k - l = - (2 ^ 53))%Z) by lia.
    destruct S as [->| ->].
    + exists 1%Z, (53 + e)%Z. split; [lia|split; [lia|]]. rewrite powerRZ_add by lra.
      replace (powerRZ 2 53) with (IZR (2 ^ 53)); [ring|]. exact (eq_sym (pow_IZR 2 53)).
    + exists (-1)%Z, (53 + e)%Z. split; [lia|split; [lia|]]. rewrite powerRZ_add by lra.
      replace (powerRZ 2 53) with (IZR (2 ^ 53)); [rewrite opp_IZR; ring|]. exact (eq_sym (pow_IZR 2 53)).
  - exists (k - l)%Z, e. repeat split; auto. lia.
Qed.
Lemma merge_grid : forall argsort A (cols : list (A -> R)) arr atol e, (-1074 <= e)%Z ->
  (forall r c, In r arr -> In c cols -> on_grid e (c r)) ->
  merge_double argsort atol cols arr = merge_duplicate_rows argsort atol cols arr.
Proof.
  intros argsort A cols arr atol e E G. apply merge_exact_differences. intros a b HA HB.
  assert (Z : on_grid e 0) by (exists 0%Z; split; [lia|]; ring).
  rewrite double_fl; auto. apply (grid_double e); auto; eapply (values_all A cols arr); eauto.
Qed.
Lemma merge_zero : forall argsort A (cols : list (A -> R)) arr,
  (forall r c, In r arr -> In c cols -> double (c r)) ->
  merge_double argsort 0 cols arr = merge_duplicate_rows argsort 0 cols arr.
Proof.
  intros argsort A cols arr G. apply merge_exact_differences. intros a b HA HB.
  assert (DA : double a) by (eapply (values_all A cols arr); eauto; apply double_0).
  assert (DB : double b) by (eapply (values_all A cols arr); eauto; apply double_0).
  destruct (Req_dec a b) as [->|N].
  - unfold Rminus. rewrite Rplus_opp_r, fl_0. reflexivity.
  - transitivity true; [|symmetry]; apply Rltb_lt, Rabs_pos_lt; [|lra]. intros F. apply N, fl_sub_zero; auto.
Qed.
Lemma merge_widened : forall argsort A (cols : list (A -> R)) arr atol, double atol -> smallest <= atol ->
  exists t, atol <= t <= atol * (1 + ulp1) /\ merge_double argsort atol cols arr = merge_duplicate_rows argsort t cols arr.
Proof.
  intros argsort A cols arr atol D S. exists (widest atol (differences cols arr)).
  split; [|apply merge_double_exact; auto]. split; [apply widest_ge|].
  apply widest_near; auto. pose proof smallest_pos. lra.
Qed.

(** ** Meshes *)
Lemma merge_mesh_widened : forall argsort atol m, double atol -> smallest <= atol ->
  exists t, atol <= t <= atol * (1 + ulp1) /\ merge_duplicates_double argsort atol m = merge_duplicates argsort t m.
Proof.
  intros argsort atol m D S. destruct (merge_widened argsort vec coords (verts m) atol D S) as (t & B & E).
  exists t. split; auto. unfold merge_duplicates_double, merge_duplicates, merge_duplicates_index. rewrite E.
  destruct (merge_duplicate_rows argsort t coords (verts m)) as [[u i]|]; cbn; auto.
  destruct (mapM (renumber i) (faces m)); cbn; auto.
Qed.

Lemma ulp1_small : ulp1 <= / 1000000000000000.
Proof. unfold ulp1. apply Rinv_le_contravar; [lra|]. cbn. lra. Qed.
Lemma smallest_small : smallest <= / 1000000000000000.
Proof.
  apply Rle_trans with ulp1; [|apply ulp1_small]. rewrite smallest_bpow, ulp1_bpow. apply bpow_le. lia.
Qed.
Lemma default_double_near : Rabs (default_atol_double - 1 / 100000000) <= ulp1 * (1 / 100000000).
Proof.
  unfold default_atol_double, default_atol. replace (1 / 100000000) with (Rabs (1 / 100000000)) at 3 by (apply Rabs_pos_eq; lra).
  apply fl_error_large. rewrite Rabs_pos_eq by lra. pose proof smallest_small. lra.
Qed.
Lemma default_widened : forall t, default_atol_double <= t <= default_atol_double * (1 + ulp1) ->
  Rabs (t - 1 / 100000000) <= 3 * ulp1 * (1 / 100000000).
Proof.
  intros t [L U]. pose proof default_double_near as N. apply Rabs_le_inv in N. pose proof ulp1_small. pose proof ulp1_pos.
  apply Rabs_le. nra.
Qed.
Lemma default_mesh_widened : forall argsort m,
  exists t, Rabs (t - 1 / 100000000) <= 3 * ulp1 * (1 / 100000000) /\
    merge_duplicates_double argsort default_atol_double m = merge_duplicates argsort t m.
Proof.
  intros argsort m.
  assert (S : smallest <= default_atol_double).
  { pose proof default_double_near as N. apply Rabs_le_inv in N. pose proof ulp1_small. pose proof smallest_small. nra. }
  destruct (merge_mesh_widened argsort default_atol_double m (fl_double _) S) as (t & B & E).
  exists t. split; auto. apply default_widened. auto.
Qed.

(** ** Sums *)
Definition nz (x : R) : bool := if Req_EM_T x 0 then false else true.
Lemma nz_0 : forall x, nz x = false -> x = 0.
Proof. intros x. unfold nz. destruct (Req_EM_T x 0); auto. discriminate. Qed.
Lemma filter_perm : forall A (f : A -> bool) l l', Permutation l l' -> Permutation (filter f l) (filter f l').
Proof.
  intros A f l l' P. induction P; cbn; auto.
  - destruct (f x); auto.
  - destruct (f x), (f y); auto. apply perm_swap.
  - eapply perm_trans; eauto.
Qed.
Lemma sums_exact : forall l r, sums l r ->
  (filter nz l = [] -> r = 0) /\ (forall x, double x -> filter nz l = [x] -> r = x).
Proof.
  intros l r H. induction H as [x|l r x H [Z N]|l1 r1 l2 r2 H1 [Z1 N1] H2 [Z2 N2]|l l' r P H [Z N]].
  - cbn. unfold nz. destruct (Req_EM_T x 0) as [->|X].
    + split; [intros; apply fl_0|intros; discriminate].
    + split; [intros; discriminate|]. intros y D E. injection E as ->. apply double_fl. auto.
  - cbn. destruct (nz x) eqn:X; [|apply nz_0 in X; subst x].
    + split; [intros; discriminate|]. intros y D E. injection E as -> E. rewrite (Z E), Rplus_0_l. apply double_fl. auto.
    + split.
      * intros E. rewrite (Z E), Rplus_0_r. apply fl_0.
      * intros y D E. rewrite (N y D E), Rplus_0_r. apply double_fl. auto.
  - rewrite filter_app. split.
    + intros E. apply app_eq_nil in E. destruct E as [E1 E2]. rewrite (Z1 E1), (Z2 E2), Rplus_0_r. apply fl_0.
    + intros y D E. apply app_eq_unit in E. destruct E as [[E1 E2]|[E1 E2]].
      * rewrite (Z1 E1), (N2 y D E2), Rplus_0_l. apply double_fl. auto.
      * rewrite (N1 y D E1), (Z2 E2), Rplus_0_r. apply double_fl. auto.
  - pose proof (filter_perm _ nz _ _ P) as Q. split.
    + intros E. rewrite E in Q. apply Z. apply Permutation_nil, Permutation_sym. auto.
    + intros y D E. rewrite E in Q. apply N; auto. apply Permutation_length_1_inv, Permutation_sym. auto.
Qed.
Lemma sums_plain_dot : computes_dot plain_dot.
Proof.
  intros a b. unfold plain_dot, fadd, fmul.
  apply (sums_add [vx a * vx b; vy a * vy b] _ [vz a * vz b] _); [|constructor].
  apply (sums_add [vx a * vx b] _ [vy a * vy b] _); constructor.
Qed.
Lemma sums_one : forall l r x, sums l r -> double x -> (filter nz l = [x] \/ (filter nz l = [] /\ x = 0)) -> r = x.
Proof. intros l r x S D [E|[E ->]]; destruct (sums_exact l r S) as [Z N]; auto. Qed.

(** ** Mirrors on the planes of the axes *)
Lemma double_scale : forall x s, s = 1 \/ s = -1 -> double x -> double (s * x).
Proof.
  intros x s [->| ->] D; [rewrite Rmult_1_l; auto|]. replace (-1 * x) with (- x) by ring. apply double_opp. auto.
Qed.
Lemma double_twice : forall x, double x -> double (2 * x).
Proof.
  intros x (m & e & M & E & ->). exists m, (1 + e)%Z. split; [auto|split; [lia|]]. rewrite powerRZ_add by lra. change (powerRZ 2 1) with (2 * 1). ring.
Qed.
Lemma axis_dot : forall fdot v n, computes_dot fdot -> double_vec v -> axis_normal n -> fdot v n = dot v n.
Proof.
  intros fdot [x y z] n C (DX & DY & DZ) (s & S & N). cbn [vx vy vz] in *.
  apply (sums_one _ _ _ (C (V3 x y z) n)).
  - destruct N as [->|[->| ->]]; unfold dot; cbn [vx vy vz];
      rewrite !Rmult_0_r, ?Rplus_0_r, ?Rplus_0_l, Rmult_comm; apply double_scale; auto.
  - assert (S0 : s <> 0) by (destruct S; lra).
    destruct N as [->|[->| ->]]; unfold dot; cbn [vx vy vz]; rewrite !Rmult_0_r, ?Rplus_0_r, ?Rplus_0_l; cbn [filter]; unfold nz;
      destruct (Req_EM_T 0 0) as [_|K]; try (exfalso; apply K; auto; fail);
      (destruct (Req_EM_T (_ * s) 0) as [E|E]; [right; split; auto|left; auto]).
Qed.
Lemma axis_normalize : forall fdot n, computes_dot fdot -> axis_normal n -> normalize_double fdot n = n.
Proof.
  intros fdot n C A. assert (D : double_vec n).
  { destruct A as (s & S & [->|[->| ->]]); repeat split; cbn; try apply double_0;
      (destruct S as [->| ->]; [apply double_1|apply (double_IZR (-1)); lia]). }
  unfold normalize_double. rewrite (axis_dot fdot n n C D A). destruct D as (DX & DY & DZ).
  assert (E : fsqrt (dot n n) = 1).
  { unfold fsqrt, dot. destruct A as (s & S & [->|[->| ->]]); cbn; rewrite ?Rmult_0_r, ?Rplus_0_r, ?Rplus_0_l;
      (replace (s * s) with 1 by (destruct S; subst; lra)); rewrite sqrt_1; apply double_fl, double_1. }
  rewrite E. unfold fdiv, Rdiv. rewrite Rinv_1, !Rmult_1_r, !double_fl by auto. destruct n; reflexivity.
Qed.
Lemma reflect_across : forall y d e, double y -> fl (y - fl (2 * fl (d * 0))) = y - 2 * (e * 0).
Proof. intros y d e D. rewrite !Rmult_0_r, fl_0, Rmult_0_r, fl_0, Rminus_0_r. apply double_fl. auto. Qed.
Lemma reflect_along : forall x s d, (s = 1 \/ s = -1) -> double x -> d = s * x ->
  fl (x - fl (2 * fl (fl (d - 0) * s))) = x - 2 * ((d - 0) * s).
Proof.
  intros x s d S D ->. rewrite Rminus_0_r, (double_fl (s * x)) by (apply double_scale; auto).
  replace (s * x * s) with x by (destruct S; subst; ring). rewrite (double_fl x), (double_fl (2 * x)) by (auto using double_twice).
  replace (x - 2 * x) with (- x) by ring. apply double_fl, double_opp. auto.
Qed.
Lemma axis_reflect : forall fdot p v, computes_dot fdot -> axis_normal (p_normal p) -> p_scalar p = 0 -> double_vec v ->
  reflect_double fdot p v = reflect p v.
Proof.
  intros fdot p v C A S0 D. unfold reflect_double, reflect, plane_dist_double. rewrite (axis_dot fdot v _ C D A), S0.
  destruct v as [x y z]. destruct D as (DX & DY & DZ). destruct A as (s & S & N). unfold vsub, vscale, fsub, fmul, dot. cbn [vx vy vz] in *.
  destruct N as [->|[->| ->]]; cbn [vx vy vz]; f_equal;
    ((apply reflect_across; auto; fail) || (apply reflect_along; auto; ring)).
Qed.
Lemma axis_mirror : forall fdot p m, computes_dot fdot -> axis_normal (p_normal p) -> p_scalar p = 0 ->
  Forall double_vec (verts m) -> mirror_double fdot p m = mirror p m.
Proof.
  intros fdot p m C A S D. unfold mirror_double, mirror. f_equal. f_equal. apply map_ext_in. intros v I.
  apply axis_reflect; auto. rewrite Forall_forall in D. auto.
Qed.
Lemma axis_symmetrize : forall argsort fdot p m, computes_dot fdot -> axis_normal (p_normal p) -> p_scalar p = 0 ->
  Forall double_vec (verts m) ->
  exists t, Rabs (t - 1 / 100000000) <= 3 * ulp1 * (1 / 100000000) /\
    symmetrize_double argsort fdot p m = merge_duplicates argsort t (symmetrize_concat p m).
Proof.
  intros argsort fdot p m C A S D. unfold symmetrize_double, symmetrize_concat.
  replace (map (reflect_double fdot p) (verts m)) with (map (reflect p) (verts m)); [apply default_mesh_widened|].
  apply map_ext_in. intros v I. symmetry. apply axis_reflect; auto. rewrite Forall_forall in D. auto.
Qed.
Lemma axis_reflect_double : forall p v, axis_normal (p_normal p) -> p_scalar p = 0 -> double_vec v -> double_vec (reflect p v).
Proof.
  intros p v A S0 D. rewrite <- (axis_reflect plain_dot p v sums_plain_dot A S0 D). unfold reflect_double.
  repeat split; apply fl_double.
Qed.
