(** The waterplane and the stiffness matrix in the report. *)
From Coq Require Import Reals List Arith Bool Lia Lra Psatz Permutation.
From Verif Require Import M_base P_base M_rotations S_rotations M_mesh S_mesh S_integral P_integral S_geometry M_geometry M_plane M_inertia M_clipper S_clipper
  M_hydro S_hydro P_hydro P_flat P_hydro2 S_report.
Import ListNotations.
Open Scope R_scope.

Lemma zero_tiny_kept : forall x y, x = y -> kept_coefficient x (zero_tiny y).
Proof. intros x y <-. unfold zero_tiny, kept_coefficient, Rltb. destruct (Rlt_dec (Rabs x) (1 / 10000)); [right; auto|left; split; auto; lra]. Qed.

Section Core.
  Variables (argsort : list R -> list nat) (m : mesh) (cog : vec) (rho grav : R) (rot : mat) (z : R) (at_cog : bool) (lpp : option R) (ap : bool).
  Variables (h : hydro) (k : clipper) (body : rigid) (minx maxx miny maxy : R) (box : bbox).
  Hypothesis RO : is_rotation rot.
  Hypothesis HR : hydro_run argsort m cog rho grav rot z at_cog lpp ap h k body minx maxx miny maxy box.
  Variables (sides : list (vec * vec)) (ts : list (vec * vec * vec)).
  Hypothesis PS : forall psi, run psi (flat_map (polygon_sides (verts (clipped_crown k))) (polygons k)) = run psi sides.
  Hypothesis FI : fills ts sides.
  Let B := placed rot z (h_buoyancy_center h).
  Let F := placed rot z (h_waterplane_center h).
  Let o := stiffness_origin at_cog rot z h.

  Lemma origin_x : (if at_cog then vx B else 0) = vx o. Proof. unfold o, stiffness_origin, B. destruct at_cog; reflexivity. Qed.
  Lemma origin_y : (if at_cog then vy B else 0) = vy o. Proof. unfold o, stiffness_origin, B. destruct at_cog; reflexivity. Qed.
  Lemma flat1 : is_flat_integral (fun _ => 1) ts (h_waterplane_area h).
  Proof.
    destruct (run_fields _ _ _ _ _ _ _ _ _ _ _ _ _ _ _ _ _ _ RO HR) as (A & _). fold B in A. rewrite origin_x, origin_y in A. rewrite A, PS. apply exact0; auto.
  Qed.
  Lemma flat_x : is_flat_integral (fun v => vx v - vx o) ts (h_waterplane_area h * (vx F - vx o)).
  Proof.
    destruct (run_fields _ _ _ _ _ _ _ _ _ _ _ _ _ _ _ _ _ _ RO HR) as (_ & _ & _ & _ & _ & A & _). fold B F in A. rewrite origin_x, origin_y in A. rewrite A, PS.
    apply (exact1 (vx o) (vy o)); auto.
  Qed.
  Lemma flat_y : is_flat_integral (fun v => vy v - vy o) ts (h_waterplane_area h * (vy F - vy o)).
  Proof.
    destruct (run_fields _ _ _ _ _ _ _ _ _ _ _ _ _ _ _ _ _ _ RO HR) as (_ & _ & _ & _ & _ & _ & A & _). fold B F in A. rewrite origin_x, origin_y in A. rewrite A, PS.
    apply (exact2 (vx o) (vy o)); auto.
  Qed.
  Lemma flat_xx : is_flat_integral (fun v => (vx v - vx o) * (vx v - vx o)) ts (h_longitudinal_metacentric_radius h * h_disp_volume h).
  Proof.
    destruct (run_fields _ _ _ _ _ _ _ _ _ _ _ _ _ _ _ _ _ _ RO HR) as (_ & _ & _ & _ & A & _). fold B in A. rewrite origin_x, origin_y in A. rewrite A, PS.
    apply (exact4 (vx o) (vy o)); auto.
  Qed.
  Lemma flat_yy : is_flat_integral (fun v => (vy v - vy o) * (vy v - vy o)) ts (h_transversal_metacentric_radius h * h_disp_volume h).
  Proof.
    destruct (run_fields _ _ _ _ _ _ _ _ _ _ _ _ _ _ _ _ _ _ RO HR) as (_ & _ & _ & A & _). fold B in A. rewrite origin_x, origin_y in A. rewrite A, PS.
    apply (exact5 (vx o) (vy o)); auto.
  Qed.
  Lemma waterplane_right : right_waterplane at_cog rot z h ts.
  Proof.
    unfold right_waterplane. fold o F. split; [apply flat1|]. split; [|split; [|split; [|split; [apply flat_xx|apply flat_yy]]]].
    - eapply flat_ext; [|replace (h_waterplane_area h * vx F) with (h_waterplane_area h * (vx F - vx o) + vx o * h_waterplane_area h) by ring;
        apply (flat_linear _ _ (vx o) _ _ _ flat_x flat1)]. intros. cbv beta. ring.
    - eapply flat_ext; [|replace (h_waterplane_area h * vy F) with (h_waterplane_area h * (vy F - vy o) + vy o * h_waterplane_area h) by ring;
        apply (flat_linear _ _ (vy o) _ _ _ flat_y flat1)]. intros. cbv beta. ring.
    - apply (run_fields _ _ _ _ _ _ _ _ _ _ _ _ _ _ _ _ _ _ RO HR).
  Qed.
  Lemma stiffness_right : right_stiffness rho grav cog at_cog rot z h ts.
  Proof.
    unfold right_stiffness. fold o B. destruct (run_stiffness _ _ _ _ _ _ _ _ _ _ _ _ _ _ _ _ _ _ RO HR) as (s45 & _ & E). cbv zeta in E. fold B F in E.
    rewrite origin_x, origin_y in E. destruct (run_heights _ _ _ _ _ _ _ _ _ _ _ _ _ _ _ _ _ _ RO HR) as (T & L). fold B in T, L.
    rewrite E. cbv zeta. cbn [m00 m01 m02 m11 m22 mtrans]. split; [reflexivity|].
    split; [intros i I; apply zero_tiny_kept; rewrite (flat_unique _ _ _ _ I flat1); ring|].
    split; [intros i I; apply zero_tiny_kept; rewrite (flat_unique _ _ _ _ I flat_y); ring|].
    split; [intros i I; apply zero_tiny_kept; rewrite (flat_unique _ _ _ _ I flat_x); ring|].
    split; [intros i I; apply zero_tiny_kept; rewrite (flat_unique _ _ _ _ I flat_yy), T; ring|].
    split; [intros i I; apply zero_tiny_kept; rewrite (flat_unique _ _ _ _ I flat_xx), L; ring|].
    rewrite T, L. split; ring.
  Qed.
  Lemma product_reported : forall i, is_flat_integral (fun v => (vx v - vx o) * (vy v - vy o)) ts i ->
    kept_coefficient (- (rho * grav * (i - product_gap o sides / 24))) (m12 (h_stiffness_matrix h)).
  Proof.
    intros i I. destruct (run_stiffness _ _ _ _ _ _ _ _ _ _ _ _ _ _ _ _ _ _ RO HR) as (s45 & S & E). cbv zeta in E. fold B F in E. fold B in S.
    rewrite origin_x, origin_y in *. rewrite E. cbn [m12]. apply zero_tiny_kept. rewrite S, PS, (flat_unique _ _ _ _ I (exact3 (vx o) (vy o) ts sides FI)).
    unfold product_gap. change (run (fun a b => (vy b - vy a) * ((vy a - vy o) * (vx a - vx o) * (vx a - vx o) + (vy b - vy o) * (vx b - vx o) * (vx b - vx o))) sides)
      with (run (missing (vx o) (vy o)) sides). field.
  Qed.
  Lemma product_zero : (vx o = 0 /\ symmetric_sides mirror_x sides) \/ (vy o = 0 /\ symmetric_sides mirror_y sides) ->
    m12 (h_stiffness_matrix h) = 0 /\ is_flat_integral (fun v => (vx v - vx o) * (vy v - vy o)) ts 0.
  Proof.
    intros H.
    assert (N : forall psi, run (fun a b => - psi a b) sides = - run psi sides).
    { intros psi. unfold run, Rsum. clear. induction sides as [|e l IH]; cbn [map fold_right]; [ring|]. rewrite IH. ring. }
    assert (Z : run (side3 (vx o) (vy o)) sides = 0 /\ run (missing (vx o) (vy o)) sides = 0).
    { assert (Q : forall psi, (forall a b, psi (mirror_x b) (mirror_x a) = - psi a b \/ vx o <> 0) -> (forall a b, psi (mirror_y b) (mirror_y a) = - psi a b \/ vy o <> 0) -> run psi sides = 0).
      { intros psi X Y. destruct H as [[E S]|[E S]]; specialize (S psi); (assert (R : run psi sides = - run psi sides); [|lra]); rewrite S at 1; rewrite <- N; unfold run; f_equal; apply map_ext; intros [a b]; cbn [fst snd];
          [destruct (X a b)|destruct (Y a b)]; auto; contradiction. }
      split; apply Q; intros a b; unfold side3, missing, mirror_x, mirror_y; cbn [vx vy vz].
      - destruct (Req_dec (vx o) 0) as [E|E]; auto. left. rewrite E. ring.
      - destruct (Req_dec (vy o) 0) as [E|E]; auto. left. rewrite E. ring.
      - destruct (Req_dec (vx o) 0) as [E|E]; auto. left. rewrite E. ring.
      - destruct (Req_dec (vy o) 0) as [E|E]; auto. left. rewrite E. ring. }
    destruct Z as [Z Z']. pose proof (exact3 (vx o) (vy o) ts sides FI) as I. rewrite Z, Z' in I. replace (0 / 24 + 0 / 24) with 0 in I by field. split; auto.
    destruct (run_stiffness _ _ _ _ _ _ _ _ _ _ _ _ _ _ _ _ _ _ RO HR) as (s45 & S & E). cbv zeta in E. fold B F in E. fold B in S.
    rewrite origin_x, origin_y in *. rewrite E. cbn [m12]. rewrite S, PS, Z. unfold zero_tiny, Rltb. replace (- (rho * grav) * (0 / 24)) with 0 by field.
    destruct (Rlt_dec (Rabs 0) (1 / 10000)); auto.
  Qed.
End Core.
