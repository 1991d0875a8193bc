(** C91: planes given on the command line. *)
From Coq Require Import Ascii String Reals List Arith NArith ZArith QArith Qreals Bool Lia Lra.
From Verif Require Import M_base P_base M_merge P_merge M_plane S_plane P_plane M_mesh M_hydro M_text M_mmio M_formats P_dispatch M_cli S_cli P_planes T_mmio.
Import ListNotations.
Local Open Scope R_scope.

(** ** --plane *)
Theorem C91_defined_by_numbers : forall dbl ws n c, four dbl ws n c ->
  (n <> vzero -> exists p, define_plane dbl ws = Ok p /\ drawn p n c) /\ (n = vzero -> define_plane dbl ws = Raise NotANumber).
Proof.
  intros dbl ws n c (wx & wy & wz & wc & -> & X & Y & Z & C). apply number_real in X, Y, Z, C. unfold define_plane, to_vec. rewrite X, Y, Z, C. cbn [bind]. rewrite <- vec_eta.
  destruct (a_normal_ok n) as [A B]. split; intros N.
  - rewrite (A N). cbn [bind]. eexists. split; [reflexivity|]. apply new_drawn. auto.
  - rewrite (B N). auto.
Qed.
Theorem C91_defined_by_key : forall dbl k n, In (k, n) standard_planes -> exists p, define_plane dbl [k] = Ok p /\ drawn p n 0.
Proof.
  intros dbl k n I. unfold define_plane. rewrite (key_found k n I). eexists. split; [reflexivity|]. unfold drawn. cbn. rewrite normalize_scale. split; auto. apply (key_nonzero k n I).
Qed.
Theorem C91_not_defined : forall dbl ws, (forall n c, ~ four dbl ws n c) -> (forall k n, In (k, n) standard_planes -> ws <> [k]) -> define_plane dbl ws = Raise AssertionError.
Proof.
  intros dbl ws F K. destruct ws as [|a [|b [|c [|d [|e ws]]]]]; try reflexivity.
  - unfold define_plane. rewrite key_unknown; auto. intros n I. destruct (K a n I). auto.
  - unfold define_plane, to_vec. destruct (to_real dbl a) as [x|] eqn:X; [|reflexivity]. destruct (to_real dbl b) as [y|] eqn:Y; [|reflexivity]. destruct (to_real dbl c) as [z|] eqn:Z; [|reflexivity]. destruct (to_real dbl d) as [w|] eqn:W; [|reflexivity].
    destruct (F (V3 x y z) w). exists a, b, c, d. rewrite !number_real. auto.
Qed.

(** ** --mirror, --symmetrize, --clip-by-plane *)
Theorem C91_chosen_by_key : forall dbl planes k n, In (k, n) standard_planes -> exists p, choose_plane dbl planes [k] = Ok p /\ drawn p n 0.
Proof.
  intros dbl planes k n I. assert (K : exists p, by_key k = Ok p /\ drawn p n 0).
  { unfold by_key. rewrite (key_found k n I). eexists. split; [reflexivity|]. unfold drawn. cbn [set_normal p_normal p_scalar]. rewrite normalize_scale. split; [apply (key_nonzero k n I)|]. split; auto.
    unfold default_plane, plane_new. destruct (orientation_wrt_z _). auto. }
  cbn [choose_plane]. rewrite (key_no_int k n I). destruct planes; auto.
Qed.
Theorem C91_chosen_by_number : forall dbl planes w i p, to_int w = Ok (Z.of_nat i) -> nth_error planes i = Some p -> choose_plane dbl planes [w] = Ok p.
Proof.
  intros dbl planes w i p W N. cbn [choose_plane]. rewrite W. assert (L : (i < length planes)%nat) by (apply nth_error_Some; congruence).
  destruct planes as [|q planes]; [cbn in L; lia|]. assert (B : ((0 <=? Z.of_nat i) && (Z.of_nat i <? Z.of_nat (length (q :: planes))))%Z = true) by (apply andb_true_intro; split; lia).
  rewrite B, Nat2Z.id. unfold get. rewrite N. auto.
Qed.
Theorem C91_chosen_by_four : forall dbl planes ws n c, four dbl ws n c ->
  (n <> vzero -> exists p, choose_plane dbl planes ws = Ok p /\ drawn p n c) /\ (n = vzero -> choose_plane dbl planes ws = Raise NotANumber).
Proof.
  intros dbl planes ws n c (wx & wy & wz & wc & -> & X & Y & Z & C). apply number_real in X, Y, Z, C. unfold choose_plane, to_vec. rewrite X, Y, Z, C. cbn [bind]. rewrite <- vec_eta.
  destruct (a_normal_ok n) as [A B]. split; intros N.
  - rewrite (A N). cbn [bind]. eexists. split; [reflexivity|]. unfold drawn. cbn. rewrite normalize_scale. auto.
  - rewrite (B N). auto.
Qed.
(** What is refused *)
Theorem C91_number_out_of_range : forall dbl planes w z, planes <> [] -> to_int w = Ok z -> (z < 0 \/ Z.of_nat (length planes) <= z)%Z -> choose_plane dbl planes [w] = Raise AssertionError.
Proof.
  intros dbl planes w z P W O. cbn [choose_plane]. destruct planes as [|q planes]; [contradiction|]. rewrite W.
  assert (B : ((0 <=? z) && (z <? Z.of_nat (length (q :: planes))))%Z = false) by (apply andb_false_iff; lia). rewrite B. auto.
Qed.
Theorem C91_unknown_key : forall dbl planes w, (forall n, ~ In (w, n) standard_planes) -> planes = [] \/ (forall z, to_int w <> Ok z) -> choose_plane dbl planes [w] = Raise KeyError.
Proof.
  intros dbl planes w K D. assert (B : by_key w = Raise KeyError) by (unfold by_key; rewrite key_unknown; auto). cbn [choose_plane]. destruct planes as [|q planes]; auto.
  destruct D as [D|D]; [discriminate|]. destruct (to_int w) as [z|]; [destruct (D z); auto|auto].
Qed.
Theorem C91_not_a_number : forall dbl planes a b c d, (exists w, In w [a; b; c] /\ no_number dbl w) \/ (no_number dbl d /\ ~ (number dbl a 0 /\ number dbl b 0 /\ number dbl c 0)) ->
  choose_plane dbl planes [a; b; c; d] = Raise ValueError.
Proof.
  intros dbl planes a b c d H. unfold choose_plane, to_vec.
  destruct (a_number dbl a) as [[x X]|X]; [|apply no_number_real in X; rewrite X; auto]. apply number_real in X. rewrite X. cbn [bind].
  destruct (a_number dbl b) as [[y Y]|Y]; [|apply no_number_real in Y; rewrite Y; auto]. apply number_real in Y. rewrite Y. cbn [bind].
  destruct (a_number dbl c) as [[z Z]|Z]; [|apply no_number_real in Z; rewrite Z; auto]. apply number_real in Z. rewrite Z. cbn [bind].
  destruct H as [(w & I & W)|[D N]].
  - exfalso. apply no_number_real in W. cbn in I. destruct I as [<-|[<-|[<-|[]]]]; congruence.
  - destruct (a_normal_ok (V3 x y z)) as [A _]. rewrite A; [cbn [bind]; apply no_number_real in D; rewrite D; auto|]. intros E. injection E as -> -> ->. apply N. rewrite !number_real. auto.
Qed.
Theorem C91_wrong_count : forall dbl planes ws, length ws <> 1%nat -> length ws <> 4%nat -> choose_plane dbl planes ws = Raise ValueError.
Proof. intros dbl planes ws A B. destruct ws as [|a [|b [|c [|d [|e ws]]]]]; cbn in A, B; try lia; auto. Qed.

(** ** The points of the plane *)
Theorem C91_points : forall p n c x, drawn p n c -> (on_plane p x <-> dot n x = c * norm n).
Proof.
  intros p n c x (N & E & C). unfold on_plane. rewrite E, C. pose proof (norm_pos n N) as P. replace (dot (vscale (/ norm n) n) x) with (/ norm n * dot n x) by vring. split; intros H.
  - rewrite <- H. field. lra.
  - rewrite H. field. lra.
Qed.
(** They are those of the documentation, N.X = c, for unit normals and planes through the origin only. *)
Theorem C91_documented : forall p n c, drawn p n c -> ((forall x, on_plane p x <-> dot n x = c) <-> c = 0 \/ norm n = 1).
Proof.
  intros p n c D. pose proof D as (N & _). pose proof (norm_pos n N) as P. split.
  - intros H. set (x := vscale (c / dot n n) n). assert (DN : 0 < dot n n) by (rewrite <- norm_sqr; apply Rmult_lt_0_compat; auto).
    assert (X : dot n x = c). { replace (dot n x) with (c / dot n n * dot n n) by (unfold x; vring). field. lra. }
    apply H in X as Y. apply (C91_points p n c x D) in Y. rewrite X in Y. destruct (Req_dec c 0); auto. right. apply (Rmult_eq_reg_l c); auto. lra.
  - intros E x. rewrite (C91_points p n c x D). destruct E as [->| ->]; [|rewrite Rmult_1_r]; [rewrite Rmult_0_l|]; tauto.
Qed.
Theorem C91_documented_refuted : exists ws n c p x, four exact_dbl ws n c /\ define_plane exact_dbl ws = Ok p /\ dot n x = c /\ ~ on_plane p x.
Proof.
  set (n := V3 0 0 2). assert (Z : real (Num false 0 1) = 0) by (unfold real; cbn; unfold Q2R; cbn; lra). assert (F : four exact_dbl [s "0"; s "0"; s "2"; s "4"] n 4).
  { exists (s "0"), (s "0"), (s "2"), (s "4"). split; auto. repeat split; eexists; (split; [reflexivity|]); cbn [vx vy vz n]; unfold real; cbn; unfold Q2R; cbn; lra. }
  assert (N : n <> vzero) by (intros E; injection E; lra). destruct (C91_defined_by_numbers exact_dbl _ n 4 F) as [D _]. destruct (D N) as (p & E & DR).
  exists [s "0"; s "0"; s "2"; s "4"], n, 4, p, (V3 0 0 2). split; auto. split; auto. split; [vunfold; unfold n; cbn; ring|]. intros O. apply (C91_points p n 4 _ DR) in O.
  assert (norm n = 2). { unfold n, norm. vunfold. cbn. replace (0 * 0 + 0 * 0 + 2 * 2) with (2 * 2) by ring. apply sqrt_square. lra. } rewrite H in O. unfold n in O. vunfold. cbn in O. lra.
Qed.

(** ** Examples *)
Definition two_planes : list plane := [plane_new (V3 1 0 0) 3; plane_new (V3 0 1 0) 4].
Example choose_second : forall dbl, choose_plane dbl two_planes [s "1"] = Ok (plane_new (V3 0 1 0) 4) /\ choose_plane dbl two_planes [s "+01"] = Ok (plane_new (V3 0 1 0) 4).
Proof. intros. split; reflexivity. Qed.
Example choose_wrong : forall dbl, map (fun w => choose_plane dbl two_planes [s w]) ["2"; "-1"; "oxy"; "1.0"]%string = [Raise AssertionError; Raise AssertionError; Raise KeyError; Raise KeyError] /\
  choose_plane dbl [] [s "0"] = Raise KeyError.
Proof. intros. split; reflexivity. Qed.
Example choose_opposite : forall dbl, exists p, choose_plane dbl two_planes [s "/Oxz"] = Ok p /\ drawn p (V3 0 (-1) 0) 0.
Proof. intros. apply C91_chosen_by_key. cbn. tauto. Qed.

Print Assumptions C91_defined_by_numbers. Print Assumptions C91_defined_by_key. Print Assumptions C91_not_defined. Print Assumptions C91_chosen_by_key. Print Assumptions C91_chosen_by_number.
Print Assumptions C91_chosen_by_four. Print Assumptions C91_number_out_of_range. Print Assumptions C91_unknown_key. Print Assumptions C91_not_a_number. Print Assumptions C91_wrong_count.
Print Assumptions C91_points. Print Assumptions C91_documented. Print Assumptions C91_documented_refuted.
