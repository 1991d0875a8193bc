(** The two searches for an equilibrium. *)
From Coq Require Import Reals List Arith Bool Lia Lra Psatz.
From Verif Require Import M_base P_base M_rotations S_rotations P_rotations M_mesh M_geometry P_quantities P_curves M_hydro S_hydro S_equil.
Import ListNotations.
Open Scope R_scope.

Lemma relax_clamp : forall b x, 0 <= b -> relax b x = clamp b x.
Proof.
  intros b x H. unfold relax, clamp, copysign, Rltb. destruct (Rlt_dec b (Rabs x)) as [L|L].
  - rewrite (Rabs_pos_eq b) by auto. destruct (Rlt_dec x 0).
    + rewrite Rabs_left in L by auto. rewrite Rmin_right by lra. rewrite Rmax_left; lra.
    + rewrite Rabs_pos_eq in L by lra. rewrite Rmin_left by lra. rewrite Rmax_right; lra.
  - apply Rnot_lt_le in L. assert (- b <= x <= b).
    { unfold Rabs in L. destruct (Rcase_abs x); lra. }
    rewrite Rmin_right by lra. rewrite Rmax_right; lra.
Qed.
Lemma ratio_below_spec : forall a b t, ratio_below a b t = true <-> b <> 0 /\ Rabs a < t * Rabs b.
Proof.
  intros a b t. unfold ratio_below. rewrite andb_true_iff, negb_true_iff, Reqb_false, Rltb_true.
  split; intros [N L]; split; auto; assert (P : 0 < Rabs b) by (apply Rabs_pos_lt; auto).
  - unfold Rdiv in L. rewrite Rabs_mult, Rabs_inv in L. apply (Rmult_lt_compat_r (Rabs b)) in L; auto.
    replace (Rabs a * / Rabs b * Rabs b) with (Rabs a) in L by (field; lra). auto.
  - unfold Rdiv. rewrite Rabs_mult, Rabs_inv. apply (Rmult_lt_reg_r (Rabs b)); auto.
    replace (Rabs a * / Rabs b * Rabs b) with (Rabs a) by (field; lra). auto.
Qed.
Lemma ratio_below_false : forall a b t, ratio_below a b t = false <-> ~ (b <> 0 /\ Rabs a < t * Rabs b).
Proof. intros. rewrite <- ratio_below_spec. destruct (ratio_below a b t); split; congruence. Qed.

Lemma reach_front : forall A (move : A -> A -> Prop) n a b c, move a b -> reach move n b c -> reach move (S n) a c.
Proof. intros A move n a b c M R. induction R; [econstructor; [constructor|auto]|econstructor; eauto]. Qed.
Lemma reach_back : forall A (move : A -> A -> Prop) n a c, reach move (S n) a c -> exists b, move a b /\ reach move n b c.
Proof.
  intros A move n. induction n as [|n IH]; intros a c R; inversion R as [|? ? b ? R1 M]; subst.
  - inversion R1; subst. exists c. split; auto. constructor.
  - destruct (IH _ _ R1) as (d & D & R2). exists d. split; auto. econstructor; eauto.
Qed.

Section Displacement.
  Variables (eval : R -> res hydro) (kg rho reltol bound : R).
  Notation light := (light rho). Notation met := (met kg rho reltol). Notation move := (heave_step eval kg rho reltol bound).
  Hypothesis B : 0 <= bound.

  Lemma loop_ok : forall n z0 z, displacement_loop eval kg rho reltol bound n z0 = Ok z <->
    exists i, (i <= n)%nat /\ reach move i z0 z /\ (i = n \/ exists hs, eval z = Ok hs /\ ~ light hs /\ met hs).
  Proof.
    induction n as [|n IH]; intros z0 z; cbn [displacement_loop].
    - split.
      + intros H. injection H as <-. exists 0%nat. split; auto. split; [constructor|auto].
      + intros (i & L & R & _). assert (i = 0)%nat by lia. subst. inversion R; subst. auto.
    - destruct (eval z0) as [hs|e] eqn:E.
      2: { split; [destruct e; discriminate|]. intros (i & L & R & H). exfalso. destruct i as [|i].
           - inversion R; subst. destruct H as [H|(hs & H & _)]; [discriminate|congruence].
           - apply reach_back in R as (b & (hs & H1 & _) & _). congruence. }
      destruct (Reqb (rho * h_waterplane_area hs) 0) eqn:LI.
      { apply Reqb_true in LI. split; [discriminate|]. intros (i & L & R & H). exfalso. destruct i as [|i].
        - inversion R; subst. destruct H as [H|(hs' & H & N & _)]; [discriminate|]. rewrite E in H. injection H as <-. apply N, LI.
        - apply reach_back in R as (b & (hs' & H1 & N & _) & _). rewrite E in H1. injection H1 as <-. apply N, LI. }
      apply Reqb_false in LI. destruct (ratio_below (rho * h_disp_volume hs - kg) kg reltol) eqn:T.
      + apply ratio_below_spec in T. split.
        * intros H. injection H as <-. exists 0%nat. split; [lia|]. split; [constructor|]. right. exists hs. auto.
        * intros (i & L & R & H). destruct i as [|i]; [inversion R; subst; auto|].
          apply reach_back in R as (b & (hs' & H1 & _ & N & _) & _). rewrite E in H1. injection H1 as <-. exfalso. apply N. auto.
      + apply ratio_below_false in T. rewrite IH, relax_clamp by auto. split; intros (i & L & R & H).
        * exists (S i). split; [lia|]. split; [eapply reach_front; eauto; exists hs; auto|]. destruct H; auto.
        * destruct i as [|i].
          { inversion R; subst. destruct H as [H|(hs' & H & _ & M)]; [discriminate|]. rewrite E in H. injection H as <-. contradiction. }
          apply reach_back in R as (b & (hs' & H1 & _ & _ & ->) & R). rewrite E in H1. injection H1 as <-.
          exists i. split; [lia|]. split; auto. destruct H as [H|H]; auto. 
  Qed.
  Lemma loop_raise : forall n z0 e, displacement_loop eval kg rho reltol bound n z0 = Raise e <->
    exists i z, (i < n)%nat /\ reach move i z0 z /\
      ((eval z = Raise RuntimeError /\ e = IndexError) \/ (eval z = Raise e /\ e <> RuntimeError) \/
       (exists hs, eval z = Ok hs /\ light hs /\ e = NotANumber)).
  Proof.
    induction n as [|n IH]; intros z0 e; cbn [displacement_loop].
    - split; [discriminate|]. intros (i & z & L & _). lia.
    - destruct (eval z0) as [hs|e'] eqn:E.
      2: { split.
           - intros H. exists 0%nat, z0. split; [lia|]. split; [constructor|]. rewrite E. destruct e'; injection H as <-; auto; right; left; split; auto; discriminate.
           - intros (i & z & L & R & H). destruct i as [|i].
             + inversion R; subst. rewrite E in H. destruct H as [[H ->]|[[H N]|(hs & H & _)]]; [..|discriminate]; injection H as ->; auto. destruct e; auto. congruence.
             + apply reach_back in R as (b & (hs & H1 & _) & _). congruence. }
      destruct (Reqb (rho * h_waterplane_area hs) 0) eqn:LI.
      { apply Reqb_true in LI. split.
        - intros H. injection H as <-. exists 0%nat, z0. split; [lia|]. split; [constructor|]. right. right. exists hs. auto.
        - intros (i & z & L & R & H). destruct i as [|i].
          + inversion R; subst. rewrite E in H. destruct H as [[H _]|[[H _]|(hs' & H & _ & ->)]]; try discriminate. auto.
          + apply reach_back in R as (b & (hs' & H1 & N & _) & _). rewrite E in H1. injection H1 as <-. exfalso. apply N, LI. }
      apply Reqb_false in LI. destruct (ratio_below (rho * h_disp_volume hs - kg) kg reltol) eqn:T.
      + apply ratio_below_spec in T. split; [discriminate|]. intros (i & z & L & R & H). exfalso. destruct i as [|i].
        * inversion R; subst. rewrite E in H. destruct H as [[H _]|[[H _]|(hs' & H & X & _)]]; try discriminate. injection H as <-. contradiction.
        * apply reach_back in R as (b & (hs' & H1 & _ & N & _) & _). rewrite E in H1. injection H1 as <-. apply N. auto.
      + apply ratio_below_false in T. rewrite IH, relax_clamp by auto. split; intros (i & z & L & R & H).
        * exists (S i), z. split; [lia|]. split; [eapply reach_front; eauto; exists hs; auto|]. auto.
        * destruct i as [|i].
          { inversion R; subst. rewrite E in H. destruct H as [[H _]|[[H _]|(hs' & H & X & _)]]; try discriminate. injection H as <-. contradiction. }
          apply reach_back in R as (b & (hs' & H1 & _ & _ & ->) & R). rewrite E in H1. injection H1 as <-.
          exists i, z. split; [lia|]. auto.
  Qed.
End Displacement.

(** ** Three degrees of freedom *)
Lemma solve3_spec : forall a b, (mdet a = 0 -> solve3 a b = Raise LinAlgError) /\
  (mdet a <> 0 -> exists d, solve3 a b = Ok d /\ mvec a d = b).
Proof.
  intros a b. unfold solve3. split; intros H.
  - rewrite (proj2 (Reqb_true _ _) H). auto.
  - rewrite (proj2 (Reqb_false _ _) H). eexists. split; eauto. set (D := mdet a) in *.
    assert (E : D = mdet a) by auto. clearbody D. apply vec_eq; vunfold;
      field_simplify_eq; auto; rewrite E; ring.
Qed.
Lemma solve3_unique : forall a d d', mdet a <> 0 -> mvec a d = mvec a d' -> d = d'.
Proof.
  intros a d d' N E. assert (X : forall v, mvec (mscale (/ mdet a) (adj a)) (mvec a v) = v).
  { intros v. rewrite <- mvec_mul. replace (mmul (mscale (/ mdet a) (adj a)) a) with mid; [vring|].
    symmetry. unfold adj. apply mat_eq; vunfold; field; auto. }
  rewrite <- (X d), E. apply X.
Qed.
Lemma cardan_xy : forall rx ry, cardan_to_rotmat rx ry 0 = mmul (Rot_y ry) (Rot_x rx).
Proof.
  intros. rewrite cardan_product. replace (Rot_z 0) with mid; [vring|]. unfold Rot_z. rewrite cos_0, sin_0, Ropp_0. reflexivity.
Qed.

Section Full.
  Variables (eval : mat -> R -> res hydro) (cog : vec) (rhog mg reltol bound : R).
  Notation residue := (residue cog rhog mg). Notation small := (small reltol). Notation balanced := (balanced cog rhog mg reltol).
  Notation shift_turn := (shift_turn eval cog rhog mg reltol bound).
  Hypothesis B : 0 <= bound.

  Lemma two_degrees : radians 2 = PI / 90. Proof. unfold radians. field. Qed.
  Lemma two_pos : 0 <= PI / 90. Proof. pose proof PI_RGT_0. lra. Qed.

  Let res_ (rot : mat) (hs : hydro) := V3 (rhog * h_disp_volume hs - mg)
    (rhog * h_disp_volume hs * vy (mvec rot (h_buoyancy_center hs)) - mg * vy (mvec rot cog))
    (- (rhog * h_disp_volume hs) * vx (mvec rot (h_buoyancy_center hs)) + mg * vx (mvec rot cog)).
  Lemma residue_eq : forall z rot hs, residue z rot hs = res_ rot hs. Proof. reflexivity. Qed.
  Lemma balanced_test : forall z rot hs,
    ratio_below (vx (res_ rot hs)) mg reltol && ratio_below (vy (res_ rot hs)) (mg * h_breadth hs) reltol
         && ratio_below (vz (res_ rot hs)) (mg * h_length_at_waterline hs) reltol = true <-> balanced z rot hs.
  Proof. intros. rewrite !andb_true_iff, !ratio_below_spec, <- (residue_eq z). unfold S_equil.balanced, S_equil.small. tauto. Qed.

  Lemma full_ok : forall n z0 r0 s, equilibrium_loop eval cog rhog mg reltol bound n z0 r0 = Ok s <->
    exists i, (i <= n)%nat /\ reach shift_turn i (z0, r0) s /\
      (i = n \/ exists hs, eval (snd s) (fst s) = Ok hs /\ balanced (fst s) (snd s) hs).
  Proof.
    induction n as [|n IH]; intros z0 r0 s; cbn [equilibrium_loop].
    - split.
      + intros H. injection H as <-. exists 0%nat. split; auto. split; [constructor|auto].
      + intros (i & L & R & _). assert (i = 0)%nat by lia. subst. inversion R; subst. auto.
    - destruct (eval r0 z0) as [hs|e] eqn:E; cbn [bind].
      2: { split; [discriminate|]. intros (i & L & R & H). exfalso. destruct i as [|i].
           - inversion R; subst. destruct H as [H|(hs & H & _)]; [discriminate|cbn in H; congruence].
           - apply reach_back in R as (b & (hs & d & H1 & _) & _). congruence. }
      cbv zeta. fold (res_ r0 hs). cbn [vx vy vz].
      destruct (ratio_below (vx (res_ r0 hs)) mg reltol && ratio_below (vy (res_ r0 hs)) (mg * h_breadth hs) reltol
         && ratio_below (vz (res_ r0 hs)) (mg * h_length_at_waterline hs) reltol) eqn:T.
      + assert (BA : balanced z0 r0 hs) by (apply balanced_test; auto). split.
        * intros H. injection H as <-. exists 0%nat. split; [lia|]. split; [constructor|]. right. exists hs. auto.
        * intros (i & L & R & H). destruct i as [|i]; [inversion R; subst; auto|].
          apply reach_back in R as (b & (hs' & d & H1 & N & _) & _). rewrite E in H1. injection H1 as <-. contradiction.
      + assert (BA : ~ balanced z0 r0 hs) by (rewrite <- balanced_test, T; discriminate).
        destruct (solve3_spec (h_stiffness_matrix hs) (res_ r0 hs)) as [S0 S1]. destruct (Req_dec (mdet (h_stiffness_matrix hs)) 0) as [D|D].
        * rewrite S0 by auto. cbn [bind]. split; [discriminate|]. intros (i & L & R & H). exfalso. destruct i as [|i].
          { inversion R; subst. destruct H as [H|(hs' & H & X)]; [discriminate|]. cbn in H, X. rewrite E in H. injection H as <-. contradiction. }
          apply reach_back in R as (b & (hs' & d & H1 & _ & N & _) & _). rewrite E in H1. injection H1 as <-. contradiction.
        * destruct (S1 D) as (d & -> & SD). cbn [bind]. rewrite IH, two_degrees, !relax_clamp, cardan_xy by auto using two_pos. split; intros (i & L & R & H).
          { exists (S i). split; [lia|]. split; [|destruct H; auto]. eapply reach_front; eauto. exists hs, d. rewrite residue_eq. auto 10. }
          destruct i as [|i].
          { inversion R; subst. destruct H as [H|(hs' & H & X)]; [discriminate|]. cbn in H, X. rewrite E in H. injection H as <-. contradiction. }
          apply reach_back in R as (b & (hs' & d' & H1 & _ & _ & SD' & ->) & R). rewrite E in H1. injection H1 as <-.
          rewrite residue_eq, <- SD in SD'. apply solve3_unique in SD'; auto. subst d'.
          exists i. split; [lia|]. split; auto. destruct H; auto.
  Qed.
  Lemma full_raise : forall n z0 r0 e, equilibrium_loop eval cog rhog mg reltol bound n z0 r0 = Raise e <->
    exists i s, (i < n)%nat /\ reach shift_turn i (z0, r0) s /\
      (eval (snd s) (fst s) = Raise e \/
       exists hs, eval (snd s) (fst s) = Ok hs /\ ~ balanced (fst s) (snd s) hs /\ mdet (h_stiffness_matrix hs) = 0 /\ e = LinAlgError).
  Proof.
    induction n as [|n IH]; intros z0 r0 e; cbn [equilibrium_loop].
    - split; [discriminate|]. intros (i & s & L & _). lia.
    - destruct (eval r0 z0) as [hs|e0] eqn:E; cbn [bind].
      2: { split.
           - intros H. injection H as <-. exists 0%nat, (z0, r0). split; [lia|]. split; [constructor|auto].
           - intros (i & s & L & R & H). destruct i as [|i].
             + inversion R; subst. cbn in H. destruct H as [H|(hs & H & _)]; congruence.
             + apply reach_back in R as (b & (hs & d & H1 & _) & _). congruence. }
      cbv zeta. fold (res_ r0 hs). cbn [vx vy vz].
      destruct (ratio_below (vx (res_ r0 hs)) mg reltol && ratio_below (vy (res_ r0 hs)) (mg * h_breadth hs) reltol
         && ratio_below (vz (res_ r0 hs)) (mg * h_length_at_waterline hs) reltol) eqn:T.
      + assert (BA : balanced z0 r0 hs) by (apply balanced_test; auto). split; [discriminate|].
        intros (i & s & L & R & H). exfalso. destruct i as [|i].
        * inversion R; subst. cbn in H. destruct H as [H|(hs' & H & N & _)]; [congruence|]. rewrite E in H. injection H as <-. contradiction.
        * apply reach_back in R as (b & (hs' & d & H1 & N & _) & _). rewrite E in H1. injection H1 as <-. contradiction.
      + assert (BA : ~ balanced z0 r0 hs) by (rewrite <- balanced_test, T; discriminate).
        destruct (solve3_spec (h_stiffness_matrix hs) (res_ r0 hs)) as [S0 S1]. destruct (Req_dec (mdet (h_stiffness_matrix hs)) 0) as [D|D].
        * rewrite S0 by auto. cbn [bind]. split.
          { intros H. injection H as <-. exists 0%nat, (z0, r0). split; [lia|]. split; [constructor|]. right. exists hs. auto. }
          intros (i & s & L & R & H). destruct i as [|i].
          { inversion R; subst. cbn in H. destruct H as [H|(hs' & _ & _ & _ & ->)]; [congruence|auto]. }
          exfalso. apply reach_back in R as (b & (hs' & d & H1 & _ & N & _) & _). rewrite E in H1. injection H1 as <-. contradiction.
        * destruct (S1 D) as (d & -> & SD). cbn [bind]. rewrite IH, two_degrees, !relax_clamp, cardan_xy by auto using two_pos. split; intros (i & s & L & R & H).
          { exists (S i), s. split; [lia|]. split; auto. eapply reach_front; eauto. exists hs, d. rewrite residue_eq. auto 10. }
          destruct i as [|i].
          { inversion R; subst. cbn in H. destruct H as [H|(hs' & H & _ & X & _)]; [congruence|]. rewrite E in H. injection H as <-. contradiction. }
          apply reach_back in R as (b & (hs' & d' & H1 & _ & _ & SD' & ->) & R). rewrite E in H1. injection H1 as <-.
          rewrite residue_eq, <- SD in SD'. apply solve3_unique in SD'; auto. subst d'.
          exists i, s. split; [lia|]. auto.
  Qed.
  Lemma full_rotation : forall i s s', reach shift_turn i s s' -> is_rotation (snd s) -> is_rotation (snd s').
  Proof.
    intros i s s' R. induction R as [|i s [z rot] s' R IH M]; auto. intros H. destruct M as (hs & d & _ & _ & _ & _ & ->). cbn [snd].
    rewrite <- cardan_xy. apply rotation_mul; auto. apply cardan_rotation.
  Qed.
End Full.
