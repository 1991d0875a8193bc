(** Property theorems C55-C59: rigid body inertia (inertia.py). *)
From Coq Require Import Reals Lra.
From Coquelicot Require Import Coquelicot.
From Verif Require Import M_base M_inertia S_solids S_inertia P_base P_solids P_inertia.
Open Scope R_scope.

(** ** C55. [body] is any integral: the reported inertia stays exact when the reduction point leaves the center. *)
Theorem C55_parallel_axis : forall body rho b p, linear body -> rb_point b = rb_cog b ->
  reports body rho b ->
  reports body rho (set_reduction_point b p) /\ rb_point (set_reduction_point b p) = p.
Proof. intros. split; [apply parallel_axis; assumption|reflexivity]. Qed.

Theorem C55_formula : forall b p, is_at_cog b = true ->
  rb_mat (set_reduction_point b p) = madd (rb_mat b) (point_mass_inertia (rb_mass b) (rb_cog b) p) /\
  rb_mass (set_reduction_point b p) = rb_mass b /\ rb_cog (set_reduction_point b p) = rb_cog b /\
  (symmetric (rb_mat b) -> symmetric (rb_mat (set_reduction_point b p))).
Proof.
  intros b p H. unfold is_at_cog in H. apply Bool.andb_true_iff in H as [H Hz].
  apply Bool.andb_true_iff in H as [Hx Hy]. apply Reqb_true in Hx, Hy, Hz.
  assert (E : rb_point b = rb_cog b) by (apply vec_eq; auto).
  rewrite set_reduction_point_formula by assumption. cbn [rb_mat rb_mass rb_cog].
  repeat split. unfold symmetric. intros S.
  pose proof (f_equal m01 S) as S1. pose proof (f_equal m02 S) as S2. pose proof (f_equal m12 S) as S3.
  apply mat_eq; cbn in *; congruence.
Qed.

(** A box of sides 1, 2, 3 and density 5 meets the hypotheses. *)
Example C55_case :
  linear (box 1 2 3) /\ rb_point (rectangular_prism 1 2 3 5) = rb_cog (rectangular_prism 1 2 3 5) /\
  is_at_cog (rectangular_prism 1 2 3 5) = true /\
  reports (box 1 2 3) 5 (rectangular_prism 1 2 3 5) /\
  rb_xx (set_reduction_point (rectangular_prism 1 2 3 5) (V3 0 0 1)) = 125 / 2.
Proof.
  split; [apply rectangle_slices_linear|]. split; [reflexivity|]. split.
  { unfold is_at_cog, rectangular_prism, rigid_new, Reqb; cbn.
    repeat match goal with |- context [Req_EM_T ?a ?b] => destruct (Req_EM_T a b); try lra end; reflexivity. }
  split; [apply prism_exact|].
  rewrite set_reduction_point_formula by reflexivity.
  unfold rb_xx, rectangular_prism, rigid_new, point_mass_inertia; cbn. field.
Qed.

(** ** C56 *)
Theorem C56_at_cog_right_iff : forall body rho b, linear body -> deterministic body -> reports body rho b ->
  (reports body rho (at_cog b) <-> rb_mass b = 0 \/ rb_point b = rb_cog b) /\
  (reports body rho (shift_at_cog b) <-> rb_mass b = 0 \/ rb_point b = rb_cog b).
Proof. intros; split; apply at_cog_right_iff; assumption. Qed.

(** The exact matrix at the center is obtained by subtracting, and is twice the transport away from the result. *)
Theorem C56_truth_subtracts : forall body rho b, linear body -> reports body rho b ->
  exact_inertia body rho (rb_mass b) (rb_cog b) (rb_cog b)
    (msub (rb_mat b) (point_mass_inertia (rb_mass b) (rb_cog b) (rb_point b))) /\
  rb_mat (at_cog b) = madd (rb_mat b) (point_mass_inertia (rb_mass b) (rb_cog b) (rb_point b)).
Proof.
  intros. rewrite <- huygens_point_mass. split; [apply center_exact; assumption|reflexivity].
Qed.

Theorem C56_same_point_twice : forall b,
  rb_mat (set_reduction_point b (rb_point b)) = rb_mat b <-> rb_mass b = 0 \/ rb_point b = rb_cog b.
Proof. exact same_point_changes. Qed.

Theorem C56_away_and_back : forall b p,
  rb_mat (set_reduction_point (set_reduction_point b p) (rb_point b)) = rb_mat b <->
  rb_mass b = 0 \/ (rb_point b = rb_cog b /\ p = rb_cog b).
Proof. exact away_and_back. Qed.

Example C56_case : let b := set_reduction_point (rectangular_prism 1 2 3 5) (V3 0 0 1) in
  reports (box 1 2 3) 5 b /\ linear (box 1 2 3) /\ deterministic (box 1 2 3) /\ rb_mass b = 30 /\
  rb_point b <> rb_cog b /\ ~ reports (box 1 2 3) 5 (at_cog b).
Proof.
  set (b := set_reduction_point (rectangular_prism 1 2 3 5) (V3 0 0 1)). cbv zeta.
  assert (L : linear (box 1 2 3)) by apply rectangle_slices_linear.
  assert (D : deterministic (box 1 2 3)) by apply rectangle_slices_det.
  assert (H : reports (box 1 2 3) 5 b) by (apply parallel_axis; [exact L|reflexivity|apply prism_exact]).
  assert (N : rb_point b <> rb_cog b).
  { intros E. apply (f_equal vz) in E. cbn in E. lra. }
  assert (M : rb_mass b = 30) by (cbn; lra).
  split; [exact H|]. split; [exact L|]. split; [exact D|]. split; [exact M|]. split; [exact N|].
  intros W. apply (at_cog_right_iff _ _ _ L D H) in W. destruct W as [E|E]; [lra|auto].
Qed.

(** ** C57: each solid and shell reports the exact integrals of its body. *)
Theorem C57_rectangular_prism : forall a b h rho, reports (box a b h) rho (rectangular_prism a b h rho).
Proof. exact prism_exact. Qed.
Theorem C57_cube : forall a rho, reports (box a a a) rho (cube a rho).
Proof. exact cube_exact. Qed.
Theorem C57_pyramid : forall a b h rho, 0 < h ->
  reports (pyramid a b h) rho (right_rectangular_pyramid a b h rho).
Proof. exact pyramid_exact. Qed.
Theorem C57_isosceles_wedge : forall b h l rho, 0 < h ->
  reports (isosceles_wedge b h l) rho (isoceles_wedge b h l rho).
Proof. exact isosceles_exact. Qed.
Theorem C57_cylinder : forall r l rho, reports (elliptic_cylinder r r l) rho (right_circular_cylinder r l rho).
Proof. exact cylinder_exact. Qed.
Theorem C57_elliptical_cylinder : forall a b l rho,
  reports (elliptic_cylinder a b l) rho (elliptical_cylinder a b l rho).
Proof. exact elliptical_exact. Qed.
Theorem C57_cone : forall r l rho, 0 < l -> reports (cone r l) rho (right_circular_cone r l rho).
Proof. exact cone_exact. Qed.
Theorem C57_ellipsoid : forall a b c rho, 0 < a -> reports (solid_ellipsoid b c a) rho (ellipsoid a b c rho).
Proof. exact ellipsoid_exact. Qed.
Theorem C57_sphere : forall r rho, 0 < r -> reports (solid_ellipsoid r r r) rho (sphere r rho).
Proof. exact sphere_exact. Qed.
Theorem C57_torus : forall c r rho, reports (torus_integral c r) rho (torus c r rho).
Proof. exact torus_exact. Qed.
Theorem C57_hollow_cylinder : forall r1 r2 l rho,
  reports (integral_diff (elliptic_cylinder r2 r2 l) (elliptic_cylinder r1 r1 l)) rho
          (hollow_right_circular_cylinder r1 r2 l rho).
Proof. exact hollow_cylinder_exact. Qed.
Theorem C57_hollow_sphere : forall r1 r2 rho, 0 < r1 < r2 ->
  reports (integral_diff (solid_ellipsoid r2 r2 r2) (solid_ellipsoid r1 r1 r1)) rho (hollow_sphere r1 r2 rho).
Proof. exact hollow_sphere_exact. Qed.
Theorem C57_cone_shell : forall r h density thickness,
  reports (frustum_shell 0 r h (h / 3)) (density * thickness) (circular_cone_shell r h density thickness).
Proof. exact cone_shell_exact. Qed.
Theorem C57_frustum_shell : forall r1 r2 h density thickness, 0 < r1 + r2 ->
  reports (frustum_shell r1 r2 h (h / 3 * (2 * r1 + r2) / (r1 + r2))) (density * thickness)
          (frustrum_of_circular_cone_shell r1 r2 h density thickness).
Proof. exact frustum_exact. Qed.
Theorem C57_lateral_shell : forall r h density thickness, 0 <= h ->
  reports (frustum_shell r r h (h / 2)) (density * thickness) (lateral_cylindrical_shell r h density thickness).
Proof. exact lateral_exact. Qed.
Theorem C57_spherical_shell : forall r density thickness, 0 <= r ->
  reports (ball_shell r) (density * thickness) (spherical_shell r density thickness).
Proof. exact spherical_shell_exact. Qed.
Theorem C57_hemispherical_shell : forall r density thickness, 0 <= r ->
  reports (half_ball_shell r) (density * thickness) (hemispherical_shell r density thickness).
Proof. exact hemispherical_shell_exact. Qed.

(** The full array of RotationalInertia3D is the matrix of a rigid body with the same six values. *)
Theorem C57_rotational_array : forall m c p xx xy yy xz yz zz,
  rotational_array xx xy yy xz yz zz = rb_mat (rigid_new m c xx yy zz yz xz xy p) /\
  let b := rigid_new m c xx yy zz yz xz xy p in
  (rb_xx b, rb_yy b, rb_zz b, rb_yz b, rb_xz b, rb_xy b) = (xx, yy, zz, yz, xz, xy).
Proof.
  intros. split; [reflexivity|]. unfold rb_xx, rb_yy, rb_zz, rb_yz, rb_xz, rb_xy, rigid_new; cbn.
  rewrite !Ropp_involutive. reflexivity.
Qed.

(** A cone of radius 2 and height 3: mass 12 PI and moments are not zero. *)
Example C57_case : let b := right_circular_cone 2 3 3 in
  reports (cone 2 3) 3 b /\ rb_mass b = 12 * PI /\ rb_zz b = 72 / 5 * PI.
Proof.
  cbv zeta. split; [apply cone_exact; lra|].
  unfold right_circular_cone, rigid_new, rb_zz; cbn. split; field.
Qed.

(** ** C58 *)
Theorem C58_hemisphere_wrong : forall r rho, 0 < r -> 0 < rho ->
  ~ reports (half_ball r) rho (hemisphere r rho).
Proof. exact hemisphere_wrong. Qed.
Theorem C58_hemisphere_truth : forall r rho, 0 < r -> let m := rb_mass (hemisphere r rho) in
  exact_mass (half_ball r) rho m /\ exact_center (half_ball r) rho m vzero /\
  exact_moments (half_ball r) rho vzero (83 / 320 * m * r ^ 2) (83 / 320 * m * r ^ 2) (2 / 5 * m * r ^ 2) /\
  exact_products (half_ball r) rho vzero 0 0 0.
Proof. exact hemisphere_true_moments. Qed.
(** Two half balls about the common axis against the sphere. *)
Theorem C58_two_hemispheres : forall r rho, 0 < r -> 0 < rho ->
  rb_mass (hemisphere r rho) + rb_mass (hemisphere r rho) = rb_mass (sphere r rho) /\
  rb_zz (hemisphere r rho) + rb_zz (hemisphere r rho) = 65 / 100 * rb_zz (sphere r rho) /\
  rb_zz (hemisphere r rho) + rb_zz (hemisphere r rho) < rb_zz (sphere r rho).
Proof.
  intros r rho Hr Hrho. unfold hemisphere, sphere, rigid_new, rb_zz. cbn [rb_mass rb_mat m22].
  assert (0 < PI * rho * r ^ 5) by pospoly.
  repeat split; try field. lra.
Qed.

Theorem C58_closed_cylinder_wrong : forall r h density thickness, 0 < r -> 0 < h -> 0 < density * thickness ->
  ~ reports (closed_cylinder_shell r h) (density * thickness) (total_cylindrical_shell r h density thickness).
Proof. exact closed_cylinder_wrong. Qed.
Theorem C58_closed_cylinder_truth : forall r h density thickness, 0 < r -> 0 < h ->
  let b := total_cylindrical_shell r h density thickness in
  let body := closed_cylinder_shell r h in let s := density * thickness in
  exact_mass body s (rb_mass b) /\ exact_center body s (rb_mass b) (rb_cog b) /\
  (let Ixx := rb_mass b * (3 * r ^ 2 * (r + 2 * h) + h ^ 2 * (3 * r + h)) / 12 / (r + h) in
   exact_moments body s vzero Ixx Ixx (rb_zz b)) /\
  exact_products body s vzero (rb_yz b) (rb_xz b) (rb_xy b).
Proof. exact closed_cylinder_right_part. Qed.

Theorem C58_right_angle_wedge_wrong : forall mirrored b h l rho, 0 < b -> 0 < h -> 0 < l -> 0 < rho ->
  ~ reports (right_wedge mirrored b h l) rho (right_angle_wedge b h l rho).
Proof. exact right_wedge_wrong. Qed.
Theorem C58_right_angle_wedge_truth : forall mirrored b h l rho, 0 < h ->
  let w := right_angle_wedge b h l rho in let body := right_wedge mirrored b h l in
  exact_mass body rho (rb_mass w) /\ exact_center body rho (rb_mass w) (rb_cog w) /\
  exact_moments body rho vzero (rb_xx w) (rb_yy w) (rb_zz w) /\
  exact_products body rho vzero 0 (if mirrored then rb_mass w * b * h / 36 else - (rb_mass w * b * h / 36)) 0.
Proof. exact right_wedge_right_part. Qed.

Example C58_case : let b := hemisphere 1 3 in rb_mass b = 2 * PI /\ rb_zz b = 52 / 100 * PI.
Proof. unfold hemisphere, rigid_new, rb_zz; cbn. split; field. Qed.

(** ** C59 *)
Theorem C59_solids_admissible : forall a b c d, 0 < a -> 0 < b -> 0 < c -> 0 < d ->
  admissible (right_circular_cylinder a b d) /\ admissible (right_circular_cone a b d) /\
  admissible (sphere a d) /\ admissible (hemisphere a d) /\ admissible (elliptical_cylinder a b c d) /\
  admissible (ellipsoid a b c d) /\ admissible (torus a b d) /\ admissible (right_angle_wedge a b c d) /\
  admissible (isoceles_wedge a b c d) /\ admissible (right_rectangular_pyramid a b c d) /\
  admissible (cube a d) /\ admissible (rectangular_prism a b c d).
Proof.
  intros a b c d Ha Hb Hc Hd.
  split; [apply admissible_cylinder; assumption|]. split; [apply admissible_cone; assumption|].
  split; [apply admissible_sphere; assumption|]. split; [apply admissible_hemisphere; assumption|].
  split; [apply admissible_elliptical; assumption|]. split; [apply admissible_ellipsoid; assumption|].
  split; [apply admissible_torus; assumption|]. split; [apply admissible_right_wedge; assumption|].
  split; [apply admissible_isosceles; assumption|]. split; [apply admissible_pyramid; assumption|].
  split; [apply admissible_cube; assumption|apply admissible_prism; assumption].
Qed.
Theorem C59_hollow_admissible : forall r1 r2 l d, 0 <= r1 < r2 -> 0 < l -> 0 < d ->
  admissible (hollow_right_circular_cylinder r1 r2 l d) /\ admissible (hollow_sphere r1 r2 d).
Proof. intros; split; [apply admissible_hollow_cylinder|apply admissible_hollow_sphere]; assumption. Qed.
Theorem C59_shells_admissible : forall r1 r2 h d t, 0 < r1 -> 0 < r2 -> 0 < h -> 0 < d -> 0 < t ->
  admissible (circular_cone_shell r1 h d t) /\ admissible (frustrum_of_circular_cone_shell r1 r2 h d t) /\
  admissible (lateral_cylindrical_shell r1 h d t) /\ admissible (spherical_shell r1 d t) /\
  admissible (hemispherical_shell r1 d t).
Proof.
  intros r1 r2 h d t H1 H2 H3 H4 H5.
  split; [apply admissible_cone_shell; assumption|]. split; [apply admissible_frustum; assumption|].
  split; [apply admissible_lateral; assumption|]. split; [apply admissible_ball_shell; assumption|].
  apply admissible_half_ball_shell; assumption.
Qed.
(** The closed cylindrical shell is the exception: flat ones violate Izz <= Ixx + Iyy. *)
Theorem C59_closed_cylinder_admissible_iff : forall r h d t, 0 < r -> 0 < h -> 0 < d -> 0 < t ->
  (admissible (total_cylindrical_shell r h d t) <-> r ^ 2 * (r + 2 * h) <= h ^ 2 * (3 * r + h)).
Proof. exact admissible_total_iff. Qed.
Theorem C59_flat_closed_cylinder_refuted : forall d t, 0 < d -> 0 < t ->
  exists r h, 0 < r /\ 0 < h /\ ~ admissible (total_cylindrical_shell r h d t).
Proof.
  intros d t Hd Ht. exists 2, 1. split; [lra|]. split; [lra|].
  rewrite admissible_total_iff by lra. lra.
Qed.
Example C59_case : admissible (total_cylindrical_shell 1 1 2 3) /\ ~ admissible (total_cylindrical_shell 2 1 2 3).
Proof. rewrite !admissible_total_iff by lra. lra. Qed.

Print Assumptions C55_parallel_axis.
Print Assumptions C55_formula.
Print Assumptions C56_at_cog_right_iff.
Print Assumptions C56_away_and_back.
Print Assumptions C57_ellipsoid.
Print Assumptions C57_torus.
Print Assumptions C58_hemisphere_wrong.
Print Assumptions C58_closed_cylinder_wrong.
Print Assumptions C59_closed_cylinder_admissible_iff.
