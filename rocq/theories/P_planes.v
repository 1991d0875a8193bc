(** Planes of the command line *)
From Coq Require Import Ascii String Reals List Arith NArith ZArith QArith Qreals Bool Lia Lra.
From Verif Require Import M_base P_base M_merge P_merge M_plane S_plane P_plane M_mesh M_hydro M_text S_text M_mmio M_formats P_dispatch M_cli S_cli.
Import ListNotations.
Local Open Scope R_scope.

Lemma real_value : forall q, real q = Q2R (value q).
Proof. intros [n t b]. unfold real, value, magnitude. cbn [neg top bot]. destruct n; reflexivity. Qed.

Section Planes.
  Variable dbl : N -> Z -> N * positive.

  Lemma number_real : forall w x, number dbl w x <-> to_real dbl w = Ok x.
  Proof.
    intros w x. unfold number, to_real. setoid_rewrite <- real_value. destruct (to_float dbl w) as [q|e]; cbn [bind]; split.
    - intros (q' & E & ->). congruence.
    - intros E. injection E as <-. eauto.
    - intros (q' & E & _). discriminate.
    - discriminate.
  Qed.
  Lemma to_float_error : forall w e, to_float dbl w = Raise e -> e = ValueError.
  Proof.
    assert (I : forall w e, to_int w = Raise e -> e = ValueError).
    { intros w e. unfold to_int. destruct (read_sign w) as [n r]. destruct (span_digits r) as [[|c ds] [|y l]]; intros E; try discriminate; congruence. }
    assert (X : forall w e, read_exponent w = Raise e -> e = ValueError).
    { intros w e. unfold read_exponent. destruct w as [|c w]; [discriminate|]. destruct (_ || _); [apply I|congruence]. }
    intros w e. unfold to_float. destruct (read_sign w) as [n r]. destruct (span_digits r) as [i r1].
    destruct (match r1 with "."%char :: r' => span_digits r' | _ => ([], r1) end) as [f r2]. destruct (i ++ f) as [|c ds]; [congruence|].
    destruct (read_exponent r2) as [z|e'] eqn:E; cbn [bind].
    - destruct (dbl _ _). discriminate.
    - intros H. injection H as <-. apply (X r2). auto.
  Qed.
  Lemma no_number_real : forall w, no_number dbl w <-> to_real dbl w = Raise ValueError.
  Proof.
    intros w. unfold no_number. split.
    - intros H. destruct (to_real dbl w) as [x|e] eqn:E; [destruct (H x); apply number_real; auto|]. unfold to_real in E. destruct (to_float dbl w) as [q|e'] eqn:F; cbn [bind] in E; [discriminate|]. apply to_float_error in F. congruence.
    - intros E x N. apply number_real in N. congruence.
  Qed.
  Lemma a_number : forall w, (exists x, number dbl w x) \/ no_number dbl w.
  Proof. intros w. destruct (to_real dbl w) as [x|e] eqn:E; [left; exists x; apply number_real; auto|]. right. intros x H. apply number_real in H. congruence. Qed.

  Lemma a_normal_ok : forall n, (n <> vzero -> a_normal n = Ok n) /\ (n = vzero -> a_normal n = Raise NotANumber).
  Proof.
    intros n. unfold a_normal. destruct (Req_EM_T (norm n) 0) as [E|E]; split; intros H; auto.
    - destruct H. apply norm_zero_iff. auto.
    - destruct E. subst. apply norm_zero_iff. auto.
  Qed.
  Lemma normalize_scale : forall n, normalize n = vscale (/ norm n) n.
  Proof. intros n. unfold normalize. apply vec_eq; cbn; unfold Rdiv; ring. Qed.
  Lemma new_drawn : forall n c, n <> vzero -> drawn (plane_new n c) n c.
  Proof. intros n c N. unfold drawn, plane_new. rewrite <- normalize_scale. destruct (orientation_wrt_z _). auto. Qed.

  Lemma keys_standard : plane_keys = standard_planes. Proof. reflexivity. Qed.
  Lemma keys_unique : NoDup (map fst standard_planes). Proof. apply distinct_ok. reflexivity. Qed.
  Lemma key_found : forall k n, In (k, n) standard_planes -> lookup k plane_keys = Some n.
  Proof. intros k n I. rewrite keys_standard. apply lookup_in; [apply keys_unique|auto]. Qed.
  Lemma key_unknown : forall k, (forall n, ~ In (k, n) standard_planes) -> lookup k plane_keys = None.
  Proof. intros k H. rewrite keys_standard. apply lookup_none. auto. Qed.
  Lemma key_nonzero : forall k n, In (k, n) standard_planes -> n <> vzero.
  Proof. intros k n I E. subst n. cbn in I. repeat (destruct I as [I|I]; [exfalso; apply (f_equal snd) in I; cbn in I; injection I; intros; lra|]). contradiction. Qed.
  Lemma key_no_int : forall k n, In (k, n) standard_planes -> to_int k = Raise ValueError.
  Proof. intros k n I. cbn in I. repeat (destruct I as [I|I]; [injection I as <- _; reflexivity|]). contradiction. Qed.
End Planes.
Lemma vec_eta : forall v, v = V3 (vx v) (vy v) (vz v). Proof. intros []. auto. Qed.
