(** Proofs about rigid body inertia. *)
From Coq Require Import Reals Lra Psatz FunctionalExtensionality.
From Verif Require Import M_base S_solids M_inertia S_inertia P_base P_solids.
Open Scope R_scope.

Lemma sq_sum_zero : forall a b, a * a + b * b = 0 -> a = 0 /\ b = 0.
Proof.
  intros a b H. pose proof (Rle_0_sqr a) as A. pose proof (Rle_0_sqr b) as B. unfold Rsqr in *.
  split; apply Rsqr_0_uniq; unfold Rsqr; lra.
Qed.
Lemma sq_zero : forall a, a * a = 0 -> a = 0. Proof. intros a H; apply Rsqr_0_uniq; exact H. Qed.

Lemma huygens_point_mass : forall b,
  huygens b = point_mass_inertia (rb_mass b) (rb_cog b) (rb_point b).
Proof.
  intros [m c p M]. unfold huygens, point_mass_inertia, outer. cbn [rb_mass rb_cog rb_point]. vring.
Qed.

Lemma madd_zero_l : forall a b, madd a b = a -> b = M3 0 0 0 0 0 0 0 0 0.
Proof.
  intros a b H. pose proof (f_equal m00 H). pose proof (f_equal m01 H). pose proof (f_equal m02 H).
  pose proof (f_equal m10 H). pose proof (f_equal m11 H). pose proof (f_equal m12 H).
  pose proof (f_equal m20 H). pose proof (f_equal m21 H). pose proof (f_equal m22 H).
  unfold madd in *; cbn in *. apply mat_eq; cbn; lra.
Qed.

Lemma huygens_zero : forall b, huygens b = M3 0 0 0 0 0 0 0 0 0 <-> rb_mass b = 0 \/ rb_point b = rb_cog b.
Proof.
  intros b. rewrite huygens_point_mass. destruct b as [m c p M]; cbn. split.
  - intros H. pose proof (f_equal m00 H) as A. pose proof (f_equal m11 H) as B. pose proof (f_equal m22 H) as C.
    cbn in A, B, C. destruct (Req_dec m 0) as [|N]; [auto|right].
    assert (A' : (vy c - vy p) * (vy c - vy p) + (vz c - vz p) * (vz c - vz p) = 0).
    { apply Rmult_eq_reg_l with m; auto. lra. }
    assert (B' : (vx c - vx p) * (vx c - vx p) + (vz c - vz p) * (vz c - vz p) = 0).
    { apply Rmult_eq_reg_l with m; auto. lra. }
    destruct (sq_sum_zero _ _ A') as [E1 E2]. destruct (sq_sum_zero _ _ B') as [E3 E4].
    apply vec_eq; lra.
  - intros [->| ->]; apply mat_eq; cbn; ring.
Qed.

Definition mzero := M3 0 0 0 0 0 0 0 0 0.
Lemma point_mass_zero_mass : forall c p, point_mass_inertia 0 c p = mzero.
Proof. intros; apply mat_eq; cbn; ring. Qed.
Lemma point_mass_same : forall m c, point_mass_inertia m c c = mzero.
Proof. intros; apply mat_eq; cbn; ring. Qed.

(** *** C55 *)
Lemma set_reduction_point_formula : forall b p, rb_point b = rb_cog b ->
  set_reduction_point b p
  = mkRigid (rb_mass b) (rb_cog b) p (madd (rb_mat b) (point_mass_inertia (rb_mass b) (rb_cog b) p)).
Proof.
  intros [m c q M] p H. cbn in H. subst q. unfold set_reduction_point, at_cog, shift_at_cog.
  rewrite !huygens_point_mass. cbn [rb_mass rb_cog rb_point rb_mat]. f_equal.
  apply mat_eq; unfold point_mass_inertia; cbn; ring.
Qed.

Lemma linear_use : forall (body : integral) f g h phi I J K k l n v,
  linear body -> body f I -> body g J -> body h K ->
  (forall q, phi q = k * f q + l * g q + n * h q) -> v = k * I + l * J + n * K -> body phi v.
Proof.
  intros body f g h phi I J K k l n v L F G H E ->.
  pose proof (L _ _ _ _ k l F G) as A. pose proof (L _ _ _ _ 1 n A H) as B. cbn beta in B.
  replace phi with (fun q => 1 * (k * f q + l * g q) + n * h q).
  - replace (k * I + l * J + n * K) with (1 * (k * I + l * J) + n * K) by ring. exact B.
  - apply functional_extensionality. intros. rewrite E. ring.
Qed.

Lemma parallel_axis : forall body rho b p, linear body -> rb_point b = rb_cog b ->
  reports body rho b -> reports body rho (set_reduction_point b p).
Proof.
  intros body rho b p L H (Hm & (Hx & Hy & Hz) & xx & yy & zz & yz & xz & xy & (Xx & Yy & Zz) & (Yz & Xz & Xy) & E).
  rewrite set_reduction_point_formula by assumption.
  destruct b as [m c q M]. cbn [rb_mass rb_cog rb_point rb_mat] in *. subst q.
  unfold reports, exact_inertia, exact_mass, exact_center in *. cbn [rb_mass rb_cog rb_point rb_mat].
  split; [exact Hm|]. split; [split; [exact Hx|split; [exact Hy|exact Hz]]|].
  set (x := vx c - vx p). set (y := vy c - vy p). set (z := vz c - vz p).
  exists (xx + m * (y ^ 2 + z ^ 2)), (yy + m * (x ^ 2 + z ^ 2)), (zz + m * (x ^ 2 + y ^ 2)),
         (yz + m * (y * z)), (xz + m * (x * z)), (xy + m * (x * y)).
  unfold exact_moments, exact_products.
  (* each quadratic integrand about p is the one about c plus an affine function *)
  assert (Aff : forall k l n w, body (fun q => rho * (k + l * vx q + n * vy q + w * vz q))
                                     (m * (k + l * vx c + n * vy c + w * vz c))).
  { intros k l n w.
    assert (B : body (fun q => rho * (k + l * vx q)) (m * (k + l * vx c))).
    { apply (linear_use body _ _ _ _ _ _ _ k l 0 _ L Hm Hx Hx); intros; ring. }
    apply (linear_use body _ _ _ _ _ _ _ 1 n w _ L B Hy Hz); intros; ring. }
  split; [split; [|split]|split; [split; [|split]|]].
  - apply (linear_use body _ _ _ _ _ _ _ 1 1 0 _ L Xx (Aff (y ^ 2 + z ^ 2 - 2 * y * vy c - 2 * z * vz c) 0 (2 * y) (2 * z)) Hm);
      intros; unfold y, z; ring.
  - apply (linear_use body _ _ _ _ _ _ _ 1 1 0 _ L Yy (Aff (x ^ 2 + z ^ 2 - 2 * x * vx c - 2 * z * vz c) (2 * x) 0 (2 * z)) Hm);
      intros; unfold x, z; ring.
  - apply (linear_use body _ _ _ _ _ _ _ 1 1 0 _ L Zz (Aff (x ^ 2 + y ^ 2 - 2 * x * vx c - 2 * y * vy c) (2 * x) (2 * y) 0) Hm);
      intros; unfold x, y; ring.
  - apply (linear_use body _ _ _ _ _ _ _ 1 1 0 _ L Yz (Aff (y * z - z * vy c - y * vz c) 0 z y) Hm);
      intros; unfold y, z; ring.
  - apply (linear_use body _ _ _ _ _ _ _ 1 1 0 _ L Xz (Aff (x * z - z * vx c - x * vz c) z 0 x) Hm);
      intros; unfold x, z; ring.
  - apply (linear_use body _ _ _ _ _ _ _ 1 1 0 _ L Xy (Aff (x * y - y * vx c - x * vy c) y x 0) Hm);
      intros; unfold x, y; ring.
  - subst M. unfold point_mass_inertia, inertia_matrix. fold x y z. apply mat_eq; cbn; ring.
Qed.

(** *** C56 *)
Lemma mat_det : forall body rho m m' c c' p M M', deterministic body ->
  exact_inertia body rho m c p M -> exact_inertia body rho m' c' p M' -> M = M'.
Proof.
  intros body rho m m' c c' p M M' D
    (_ & _ & xx & yy & zz & yz & xz & xy & (A1 & A2 & A3) & (A4 & A5 & A6) & ->)
    (_ & _ & xx' & yy' & zz' & yz' & xz' & xy' & (B1 & B2 & B3) & (B4 & B5 & B6) & ->).
  rewrite (D _ _ _ A1 B1), (D _ _ _ A2 B2), (D _ _ _ A3 B3), (D _ _ _ A4 B4), (D _ _ _ A5 B5), (D _ _ _ A6 B6).
  reflexivity.
Qed.

(** The matrix at the center, obtained from the exact one at the reduction point by subtraction. *)
Lemma shift_truth : forall body rho b, linear body -> deterministic body -> reports body rho b ->
  forall M, exact_inertia body rho (rb_mass b) (rb_cog b) (rb_cog b) M ->
  rb_mat b = madd M (huygens b).
Proof.
  intros body rho b L D H M HM.
  set (b0 := mkRigid (rb_mass b) (rb_cog b) (rb_cog b) M).
  assert (H0 : reports body rho b0) by exact HM.
  pose proof (parallel_axis body rho b0 (rb_point b) L eq_refl H0) as H1.
  rewrite set_reduction_point_formula in H1 by reflexivity.
  unfold reports in H, H1. cbn [b0 rb_mass rb_cog rb_point rb_mat] in H1.
  rewrite (mat_det _ _ _ _ _ _ _ _ _ D H H1). rewrite huygens_point_mass. reflexivity.
Qed.

Lemma madd_assoc : forall a b c, madd (madd a b) c = madd a (madd b c). Proof. vring. Qed.
Lemma madd_double : forall a, madd a a = M3 0 0 0 0 0 0 0 0 0 -> a = M3 0 0 0 0 0 0 0 0 0.
Proof.
  intros a H. pose proof (f_equal m00 H). pose proof (f_equal m01 H). pose proof (f_equal m02 H).
  pose proof (f_equal m10 H). pose proof (f_equal m11 H). pose proof (f_equal m12 H).
  pose proof (f_equal m20 H). pose proof (f_equal m21 H). pose proof (f_equal m22 H).
  unfold madd in *; cbn in *. apply mat_eq; cbn; lra.
Qed.

(** Existence of the exact matrix at the center follows by linearity. *)
Lemma center_exact : forall body rho b, linear body -> reports body rho b ->
  exact_inertia body rho (rb_mass b) (rb_cog b) (rb_cog b) (msub (rb_mat b) (huygens b)).
Proof.
  intros body rho [m c p M] L (Hm & (Hx & Hy & Hz) & xx & yy & zz & yz & xz & xy & (Xx & Yy & Zz) & (Yz & Xz & Xy) & E).
  rewrite huygens_point_mass. cbn [rb_mass rb_cog rb_point rb_mat] in *.
  unfold exact_inertia, exact_mass, exact_center in *.
  split; [exact Hm|]. split; [split; [exact Hx|split; [exact Hy|exact Hz]]|].
  set (x := vx c - vx p). set (y := vy c - vy p). set (z := vz c - vz p).
  exists (xx - m * (y ^ 2 + z ^ 2)), (yy - m * (x ^ 2 + z ^ 2)), (zz - m * (x ^ 2 + y ^ 2)),
         (yz - m * (y * z)), (xz - m * (x * z)), (xy - m * (x * y)).
  unfold exact_moments, exact_products.
  assert (Aff : forall k l n w, body (fun q => rho * (k + l * vx q + n * vy q + w * vz q))
                                     (m * (k + l * vx c + n * vy c + w * vz c))).
  { intros k l n w.
    assert (B : body (fun q => rho * (k + l * vx q)) (m * (k + l * vx c))).
    { apply (linear_use body _ _ _ _ _ _ _ k l 0 _ L Hm Hx Hx); intros; ring. }
    apply (linear_use body _ _ _ _ _ _ _ 1 n w _ L B Hy Hz); intros; ring. }
  split; [split; [|split]|split; [split; [|split]|]].
  - apply (linear_use body _ _ _ _ _ _ _ 1 (-1) 0 _ L Xx (Aff (y ^ 2 + z ^ 2 - 2 * y * vy c - 2 * z * vz c) 0 (2 * y) (2 * z)) Hm);
      intros; unfold y, z; ring.
  - apply (linear_use body _ _ _ _ _ _ _ 1 (-1) 0 _ L Yy (Aff (x ^ 2 + z ^ 2 - 2 * x * vx c - 2 * z * vz c) (2 * x) 0 (2 * z)) Hm);
      intros; unfold x, z; ring.
  - apply (linear_use body _ _ _ _ _ _ _ 1 (-1) 0 _ L Zz (Aff (x ^ 2 + y ^ 2 - 2 * x * vx c - 2 * y * vy c) (2 * x) (2 * y) 0) Hm);
      intros; unfold x, y; ring.
  - apply (linear_use body _ _ _ _ _ _ _ 1 (-1) 0 _ L Yz (Aff (y * z - z * vy c - y * vz c) 0 z y) Hm);
      intros; unfold y, z; ring.
  - apply (linear_use body _ _ _ _ _ _ _ 1 (-1) 0 _ L Xz (Aff (x * z - z * vx c - x * vz c) z 0 x) Hm);
      intros; unfold x, z; ring.
  - apply (linear_use body _ _ _ _ _ _ _ 1 (-1) 0 _ L Xy (Aff (x * y - y * vx c - x * vy c) y x 0) Hm);
      intros; unfold x, y; ring.
  - subst M. unfold point_mass_inertia, inertia_matrix. fold x y z. apply mat_eq; cbn; ring.
Qed.

Lemma at_cog_right_iff : forall body rho b, linear body -> deterministic body -> reports body rho b ->
  (reports body rho (at_cog b) <-> rb_mass b = 0 \/ rb_point b = rb_cog b).
Proof.
  intros body rho b L D H. pose proof (center_exact _ _ _ L H) as C. rewrite <- huygens_zero. split; intros A.
  - unfold reports, at_cog, shift_at_cog in A. cbn [rb_mass rb_cog rb_point rb_mat] in A.
    pose proof (mat_det _ _ _ _ _ _ _ _ _ D A C) as E.
    apply madd_double. apply (madd_zero_l (rb_mat b)).
    rewrite <- madd_assoc, E. vring.
  - unfold reports, at_cog, shift_at_cog. cbn [rb_mass rb_cog rb_point rb_mat].
    replace (madd (rb_mat b) (huygens b)) with (msub (rb_mat b) (huygens b)); auto.
    rewrite A. vring.
Qed.

Lemma same_point_changes : forall b,
  rb_mat (set_reduction_point b (rb_point b)) = rb_mat b <-> rb_mass b = 0 \/ rb_point b = rb_cog b.
Proof.
  intros b. rewrite <- huygens_zero. destruct b as [m c p M]. unfold set_reduction_point, at_cog, shift_at_cog.
  cbn [rb_mass rb_cog rb_point rb_mat].
  change (huygens {| rb_mass := m; rb_cog := c; rb_point := p; rb_mat := M |}) with
         (huygens (mkRigid m c p M)).
  split; intros H.
  - apply madd_double. apply (madd_zero_l M). rewrite <- madd_assoc. exact H.
  - rewrite H. vring.
Qed.

Lemma away_and_back : forall b p,
  rb_mat (set_reduction_point (set_reduction_point b p) (rb_point b)) = rb_mat b <->
  rb_mass b = 0 \/ (rb_point b = rb_cog b /\ p = rb_cog b).
Proof.
  intros [m c q M] p. unfold set_reduction_point, at_cog, shift_at_cog. rewrite !huygens_point_mass.
  cbn [rb_mass rb_cog rb_point rb_mat]. split.
  - intros H. destruct (Req_dec m 0) as [|N]; [auto|right].
    pose proof (f_equal m00 H) as A. pose proof (f_equal m11 H) as B. pose proof (f_equal m22 H) as C.
    unfold madd, point_mass_inertia in A, B, C. cbn [m00 m11 m22] in A, B, C.
    set (a1 := vx c - vx q) in *. set (a2 := vy c - vy q) in *. set (a3 := vz c - vz q) in *.
    set (b1 := vx c - vx p) in *. set (b2 := vy c - vy p) in *. set (b3 := vz c - vz p) in *.
    assert (A' : a2 * a2 + a3 * a3 + b2 * b2 + b3 * b3 = 0).
    { apply Rmult_eq_reg_l with m; auto. lra. }
    assert (B' : a1 * a1 + a3 * a3 + b1 * b1 + b3 * b3 = 0).
    { apply Rmult_eq_reg_l with m; auto. lra. }
    assert (a1 = 0 /\ a2 = 0 /\ a3 = 0 /\ b1 = 0 /\ b2 = 0 /\ b3 = 0) as (E1 & E2 & E3 & E4 & E5 & E6).
    { clear - A' B'. repeat split; apply sq_zero;
      pose proof (Rle_0_sqr a1); pose proof (Rle_0_sqr a2); pose proof (Rle_0_sqr a3);
      pose proof (Rle_0_sqr b1); pose proof (Rle_0_sqr b2); pose proof (Rle_0_sqr b3); unfold Rsqr in *; lra. }
    split; apply vec_eq; unfold a1, a2, a3, b1, b2, b3 in *; lra.
  - assert (Z : forall M, madd (madd (madd (madd M mzero) mzero) mzero) mzero = M) by (unfold mzero; vring).
    intros [->|[-> ->]]; rewrite ?point_mass_zero_mass, ?point_mass_same; apply Z.
Qed.

Ltac pospoly := repeat match goal with
  | |- 0 < _ * _ => apply Rmult_lt_0_compat
  | |- 0 < _ / _ => apply Rdiv_lt_0_compat
  | |- 0 < _ ^ _ => apply pow_lt
  | |- 0 < _ + _ => apply Rplus_lt_0_compat
  | |- 0 < PI => apply PI_RGT_0
  end; try lra.

(** *** C57 *)
Ltac start := unfold reports; intros.
Ltac use_moments H := eapply moments_reports; [apply H; try lra|..]; cbv zeta; try (field; lra).

Lemma prism_exact : forall a b h rho, reports (box a b h) rho (rectangular_prism a b h rho).
Proof. intros. use_moments box_moments. Qed.
Lemma cube_exact : forall a rho, reports (box a a a) rho (cube a rho).
Proof. intros. use_moments box_moments. Qed.
Lemma pyramid_exact : forall a b h rho, 0 < h -> reports (pyramid a b h) rho (right_rectangular_pyramid a b h rho).
Proof. intros. use_moments pyramid_moments. Qed.
Lemma isosceles_exact : forall b h l rho, 0 < h -> reports (isosceles_wedge b h l) rho (isoceles_wedge b h l rho).
Proof. intros. use_moments isosceles_moments. Qed.
Lemma cylinder_exact : forall r l rho, reports (elliptic_cylinder r r l) rho (right_circular_cylinder r l rho).
Proof. intros. use_moments elliptic_cylinder_moments. Qed.
Lemma elliptical_exact : forall a b l rho, reports (elliptic_cylinder a b l) rho (elliptical_cylinder a b l rho).
Proof. intros. use_moments elliptic_cylinder_moments. Qed.
Lemma cone_exact : forall r l rho, 0 < l -> reports (cone r l) rho (right_circular_cone r l rho).
Proof. intros. use_moments cone_moments. Qed.
Lemma ellipsoid_exact : forall a b c rho, 0 < a -> reports (solid_ellipsoid b c a) rho (ellipsoid a b c rho).
Proof. intros. use_moments ellipsoid_moments. Qed.
Lemma sphere_exact : forall r rho, 0 < r -> reports (solid_ellipsoid r r r) rho (sphere r rho).
Proof. intros. use_moments ellipsoid_moments. Qed.
Lemma torus_exact : forall c r rho, reports (torus_integral c r) rho (torus c r rho).
Proof. intros. use_moments torus_moments. Qed.

Lemma hollow_cylinder_exact : forall r1 r2 l rho,
  reports (integral_diff (elliptic_cylinder r2 r2 l) (elliptic_cylinder r1 r1 l)) rho
          (hollow_right_circular_cylinder r1 r2 l rho).
Proof.
  intros. eapply moments_reports.
  - eapply moments_eq; [apply diff_moments; apply elliptic_cylinder_moments|..];
      try reflexivity; try (cbv zeta; ring).
  - cbv zeta; ring.
  - cbv zeta; field.
  - cbv zeta; field.
  - cbv zeta; field.
Qed.
Lemma hollow_sphere_exact : forall r1 r2 rho, 0 < r1 < r2 ->
  reports (integral_diff (solid_ellipsoid r2 r2 r2) (solid_ellipsoid r1 r1 r1)) rho (hollow_sphere r1 r2 rho).
Proof.
  intros. assert (N : r2 ^ 3 - r1 ^ 3 <> 0).
  { replace (r2 ^ 3 - r1 ^ 3) with ((r2 - r1) * (r2 * r2 + r2 * r1 + r1 * r1)) by ring.
    apply Rgt_not_eq. apply Rmult_lt_0_compat; nra. }
  eapply moments_reports.
  - eapply moments_eq; [apply diff_moments; apply ellipsoid_moments; lra|..]; try reflexivity; try (cbv zeta; ring).
  - cbv zeta; field.
  - cbv zeta; field; auto.
  - cbv zeta; field; auto.
  - cbv zeta; field; auto.
Qed.

Lemma sqrt_swap : forall a b c d, a ^ 2 + b ^ 2 = c ^ 2 + d ^ 2 -> sqrt (a ^ 2 + b ^ 2) = sqrt (c ^ 2 + d ^ 2).
Proof. intros; f_equal; auto. Qed.

Lemma cone_shell_exact : forall Rad h density thickness,
  reports (frustum_shell 0 Rad h (h / 3)) (density * thickness) (circular_cone_shell Rad h density thickness).
Proof.
  intros. pose proof (frustum_moments 0 Rad h (h / 3)) as M. cbv zeta in M.
  replace (sqrt ((0 - Rad) ^ 2 + h ^ 2)) with (sqrt (Rad ^ 2 + h ^ 2)) in M by (f_equal; ring).
  eapply moments_reports.
  - eapply moments_eq; [exact M|..]; try reflexivity; field.
  - field.
  - field.
  - field.
  - field.
Qed.
Lemma frustum_exact : forall r Rad h density thickness, 0 < r + Rad ->
  reports (frustum_shell r Rad h (h / 3 * (2 * r + Rad) / (r + Rad))) (density * thickness)
          (frustrum_of_circular_cone_shell r Rad h density thickness).
Proof.
  intros. pose proof (frustum_moments r Rad h (h / 3 * (2 * r + Rad) / (r + Rad))) as M. cbv zeta in M.
  replace (sqrt ((r - Rad) ^ 2 + h ^ 2)) with (sqrt (h ^ 2 + (Rad - r) ^ 2)) in M by (f_equal; ring).
  eapply moments_reports.
  - eapply moments_eq; [exact M|..]; try reflexivity; field; lra.
  - field.
  - field; lra.
  - field; lra.
  - field; lra.
Qed.
Lemma lateral_exact : forall Rad H density thickness, 0 <= H ->
  reports (frustum_shell Rad Rad H (H / 2)) (density * thickness) (lateral_cylindrical_shell Rad H density thickness).
Proof.
  intros. pose proof (frustum_moments Rad Rad H (H / 2)) as M. cbv zeta in M.
  replace (sqrt ((Rad - Rad) ^ 2 + H ^ 2)) with H in M.
  2:{ replace ((Rad - Rad) ^ 2 + H ^ 2) with (H * H) by ring. rewrite sqrt_square; auto. }
  eapply moments_reports.
  - eapply moments_eq; [exact M|..]; try reflexivity; field.
  - field.
  - field.
  - field.
  - field.
Qed.
Lemma spherical_shell_exact : forall r density thickness, 0 <= r ->
  reports (ball_shell r) (density * thickness) (spherical_shell r density thickness).
Proof. intros. use_moments ball_shell_moments. Qed.
Lemma hemispherical_shell_exact : forall r density thickness, 0 <= r ->
  reports (half_ball_shell r) (density * thickness) (hemispherical_shell r density thickness).
Proof. intros. use_moments half_ball_shell_moments. Qed.


Lemma closed_cylinder_moments : forall Rad H, 0 <= Rad -> 0 <= H ->
  has_moments (closed_cylinder_shell Rad H) (2 * PI * Rad * (Rad + H)) 0 0 0
     (PI * Rad ^ 3 * H + PI * Rad ^ 4 / 2) (PI * Rad ^ 3 * H + PI * Rad ^ 4 / 2)
     (PI * Rad * H ^ 3 / 6 + PI * Rad ^ 2 * H ^ 2 / 2) 0 0 0.
Proof.
  intros. pose proof (frustum_moments Rad Rad H (H / 2)) as M. cbv zeta in M.
  replace (sqrt ((Rad - Rad) ^ 2 + H ^ 2)) with H in M.
  2:{ replace ((Rad - Rad) ^ 2 + H ^ 2) with (H * H) by ring. rewrite sqrt_square; auto. }
  eapply moments_eq.
  - apply sum_moments; [exact M|]. apply sum_moments; apply disc_moments; assumption.
  - field. - field. - field. - field. - field. - field. - field. - field. - field. - field.
Qed.

(** *** C58 *)
Lemma hemisphere_wrong : forall r rho, 0 < r -> 0 < rho -> ~ reports (half_ball r) rho (hemisphere r rho).
Proof.
  intros r rho Hr Hrho H.
  destruct (moments_exact _ _ _ _ _ _ _ _ rho (half_ball_moments r Hr)) as (_ & _ & (_ & _ & Z) & _).
  pose proof (det_reports_zz _ _ _ _ (ellipse_slices_det _ _ _ _) H Z) as E. cbn in E.
  pose proof PI_RGT_0. assert (0 < PI * rho * r ^ 5) by pospoly.
  lra.
Qed.

Lemma hemisphere_true_moments : forall r rho, 0 < r -> let m := rb_mass (hemisphere r rho) in
  exact_mass (half_ball r) rho m /\ exact_center (half_ball r) rho m vzero /\
  exact_moments (half_ball r) rho vzero (83 / 320 * m * r ^ 2) (83 / 320 * m * r ^ 2) (2 / 5 * m * r ^ 2) /\
  exact_products (half_ball r) rho vzero 0 0 0.
Proof.
  intros r rho Hr m.
  destruct (moments_exact _ _ _ _ _ _ _ _ rho (half_ball_moments r Hr)) as (A & B & C & D).
  replace m with (rho * (2 / 3 * PI * r ^ 3)) by (unfold m, hemisphere, rigid_new; cbn; field).
  split; [exact A|]. split; [exact B|]. split.
  - replace (83 / 320 * (rho * (2 / 3 * PI * r ^ 3)) * r ^ 2) with
      (rho * (2 / 3 * PI * r ^ 3 * (r ^ 2 / 5) + 2 / 3 * PI * r ^ 3 * (19 * r ^ 2 / 320))) by field.
    replace (2 / 5 * (rho * (2 / 3 * PI * r ^ 3)) * r ^ 2) with
      (rho * (2 / 3 * PI * r ^ 3 * (r ^ 2 / 5) + 2 / 3 * PI * r ^ 3 * (r ^ 2 / 5))) by field.
    exact C.
  - replace 0 with (rho * 0) by ring. exact D.
Qed.

Lemma closed_cylinder_det : forall Rad H, deterministic (closed_cylinder_shell Rad H).
Proof.
  intros. apply sum_det; [apply revolution_det|]. apply sum_det; apply revolution_det.
Qed.

Lemma closed_cylinder_wrong : forall Rad H density thickness, 0 < Rad -> 0 < H -> 0 < density * thickness ->
  ~ reports (closed_cylinder_shell Rad H) (density * thickness) (total_cylindrical_shell Rad H density thickness).
Proof.
  intros Rad H density thickness HR HH Hs W.
  destruct (moments_exact _ _ _ _ _ _ _ _ (density * thickness)
              (closed_cylinder_moments Rad H (Rlt_le _ _ HR) (Rlt_le _ _ HH))) as (_ & _ & (X & _ & _) & _).
  pose proof (det_reports_xx _ _ _ _ (closed_cylinder_det _ _) W X) as E. cbn [total_cylindrical_shell rigid_new rb_mat m00] in E.
  set (s := density * thickness) in *.
  assert (E' : s * PI * Rad ^ 3 * (Rad + 2 * H) = 0).
  { transitivity (6 * (s * (PI * Rad ^ 3 * H + PI * Rad ^ 4 / 2 + (PI * Rad * H ^ 3 / 6 + PI * Rad ^ 2 * H ^ 2 / 2))
       - s * (2 * PI * Rad * (Rad + H)) * (2 * Rad ^ 2 * (Rad + 2 * H) + H ^ 2 * (3 * Rad + H)) / 12 / (Rad + H))).
    - field. lra.
    - rewrite E. ring. }
  pose proof PI_RGT_0. assert (0 < s * PI * Rad ^ 3 * (Rad + 2 * H)).
  { pospoly. }
  lra.
Qed.

(** What is right about the closed cylinder: mass, center, axial moment, products; and the right value of Ixx. *)
Lemma closed_cylinder_right_part : forall Rad H density thickness, 0 < Rad -> 0 < H ->
  let b := total_cylindrical_shell Rad H density thickness in
  let body := closed_cylinder_shell Rad H in let s := density * thickness in
  exact_mass body s (rb_mass b) /\ exact_center body s (rb_mass b) (rb_cog b) /\
  (let Ixx := rb_mass b * (3 * Rad ^ 2 * (Rad + 2 * H) + H ^ 2 * (3 * Rad + H)) / 12 / (Rad + H) in
   exact_moments body s vzero Ixx Ixx (rb_zz b)) /\
  exact_products body s vzero (rb_yz b) (rb_xz b) (rb_xy b).
Proof.
  intros Rad H density thickness HR HH b body s.
  destruct (moments_exact _ _ _ _ _ _ _ _ s
              (closed_cylinder_moments Rad H (Rlt_le _ _ HR) (Rlt_le _ _ HH))) as (A & B & C & D).
  unfold b, body, total_cylindrical_shell, rigid_new, rb_zz, rb_yz, rb_xz, rb_xy.
  cbn [rb_mass rb_cog rb_mat m22 m12 m02 m01].
  fold s. split; [exact A|]. split; [exact B|]. split.
  - cbv zeta. match type of C with exact_moments _ _ _ ?x ?y ?z => match goal with |- exact_moments _ _ _ ?x' ?y' ?z' =>
      replace x' with x by (field; lra); replace y' with y by (field; lra); replace z' with z by (field; lra) end end.
    exact C.
  - replace (- - 0) with (s * 0) by ring. exact D.
Qed.

Lemma right_wedge_wrong : forall mi b h l rho, 0 < b -> 0 < h -> 0 < l -> 0 < rho ->
  ~ reports (right_wedge mi b h l) rho (right_angle_wedge b h l rho).
Proof.
  intros mi b h l rho Hb Hh Hl Hr W.
  assert (N : h <> 0) by lra.
  destruct (moments_exact _ _ _ _ _ _ _ _ rho (right_wedge_moments mi b h l N)) as (_ & _ & _ & (_ & X & _)).
  pose proof (det_reports_xz _ _ _ _ (rectangle_slices_det _ _ _ _ _ _) W X) as E. cbn in E.
  assert (0 < rho * b * h * l * (b * h)) by pospoly.
  destruct mi; lra.
Qed.

Lemma right_wedge_right_part : forall mi b h l rho, 0 < h ->
  let w := right_angle_wedge b h l rho in let body := right_wedge mi b h l in
  exact_mass body rho (rb_mass w) /\ exact_center body rho (rb_mass w) (rb_cog w) /\
  exact_moments body rho vzero (rb_xx w) (rb_yy w) (rb_zz w) /\
  exact_products body rho vzero 0 (if mi then rb_mass w * b * h / 36 else - (rb_mass w * b * h / 36)) 0.
Proof.
  intros mi b h l rho Hh w body.
  assert (N : h <> 0) by lra.
  destruct (moments_exact _ _ _ _ _ _ _ _ rho (right_wedge_moments mi b h l N)) as (A & B & C & D).
  unfold w, body, right_angle_wedge, rigid_new, rb_xx, rb_yy, rb_zz.
  cbn [rb_mass rb_cog rb_mat m00 m11 m22].
  split; [exact A|]. split; [exact B|]. split.
  - match type of C with exact_moments _ _ _ ?x ?y ?z => match goal with |- exact_moments _ _ _ ?x' ?y' ?z' =>
      replace x' with x by field; replace y' with y by field; replace z' with z by field end end.
    exact C.
  - match type of D with exact_products _ _ _ ?x ?y ?z => match goal with |- exact_products _ _ _ ?x' ?y' ?z' =>
      replace y' with y by (destruct mi; field) end end.
    rewrite Rmult_0_r in D. exact D.
Qed.

(** *** C59 *)
(** Bodies with mass [m > 0] and moments m(q+r), m(p+r), m(p+q) with p, q, r >= 0. *)
Lemma admissible_gen : forall m p q r xx yy zz, 0 < m -> 0 <= p -> 0 <= q -> 0 <= r ->
  0 < q + r -> 0 < p + r -> 0 < p + q ->
  xx = m * (q + r) -> yy = m * (p + r) -> zz = m * (p + q) ->
  admissible (rigid_new m (V3 0 0 0) xx yy zz 0 0 0 None).
Proof.
  intros m p q r xx yy zz Hm Hp Hq Hr H1 H2 H3 -> -> ->.
  unfold admissible, rigid_new, rb_xx, rb_yy, rb_zz; cbn.
  pose proof (Rmult_lt_0_compat _ _ Hm H1). pose proof (Rmult_lt_0_compat _ _ Hm H2).
  pose proof (Rmult_lt_0_compat _ _ Hm H3).
  assert (0 <= m * p) by (apply Rmult_le_pos; lra). assert (0 <= m * q) by (apply Rmult_le_pos; lra).
  assert (0 <= m * r) by (apply Rmult_le_pos; lra).
  repeat split; lra.
Qed.
Ltac sq x := let H := fresh in assert (H : 0 < x * x) by (apply Rmult_lt_0_compat; lra).

Lemma admissible_cylinder : forall r l d, 0 < r -> 0 < l -> 0 < d -> admissible (right_circular_cylinder r l d).
Proof.
  intros r l d H1 H2 H3. sq r. sq l. unfold right_circular_cylinder.
  apply admissible_gen with (p := r ^ 2 / 4) (q := r ^ 2 / 4) (r := l ^ 2 / 12); try lra; try (field); pospoly.
Qed.
Lemma admissible_hollow_cylinder : forall r1 r2 l d, 0 <= r1 < r2 -> 0 < l -> 0 < d ->
  admissible (hollow_right_circular_cylinder r1 r2 l d).
Proof.
  intros r1 r2 l d H1 H2 H3. sq r2. sq l. assert (0 <= r1 * r1) by nra. unfold hollow_right_circular_cylinder.
  apply admissible_gen with (p := (r2 ^ 2 + r1 ^ 2) / 4) (q := (r2 ^ 2 + r1 ^ 2) / 4) (r := l ^ 2 / 12);
    try lra; try (field). apply Rmult_lt_0_compat; auto. apply Rmult_lt_0_compat; [pospoly|]. nra.
Qed.
Lemma admissible_cone : forall r l d, 0 < r -> 0 < l -> 0 < d -> admissible (right_circular_cone r l d).
Proof.
  intros r l d H1 H2 H3. sq r. sq l. unfold right_circular_cone.
  apply admissible_gen with (p := 3 * r ^ 2 / 20) (q := 3 * r ^ 2 / 20) (r := 3 * l ^ 2 / 80); try lra; try field; pospoly.
Qed.
Lemma admissible_sphere : forall r d, 0 < r -> 0 < d -> admissible (sphere r d).
Proof.
  intros r d H1 H3. sq r. unfold sphere.
  apply admissible_gen with (p := r ^ 2 / 5) (q := r ^ 2 / 5) (r := r ^ 2 / 5); try lra; try field; pospoly.
Qed.
Lemma admissible_hollow_sphere : forall r1 r2 d, 0 <= r1 < r2 -> 0 < d -> admissible (hollow_sphere r1 r2 d).
Proof.
  intros r1 r2 d H1 H3.
  assert (P : 0 < r2 ^ 3 - r1 ^ 3).
  { replace (r2 ^ 3 - r1 ^ 3) with ((r2 - r1) * (r2 * r2 + r2 * r1 + r1 * r1)) by ring.
    apply Rmult_lt_0_compat; nra. }
  assert (Q : 0 < r2 ^ 5 - r1 ^ 5).
  { replace (r2 ^ 5 - r1 ^ 5) with ((r2 - r1) * (r2 ^ 4 + r2 ^ 3 * r1 + r2 ^ 2 * r1 ^ 2 + r2 * r1 ^ 3 + r1 ^ 4)) by ring.
    apply Rmult_lt_0_compat; [lra|].
    assert (0 < r2 ^ 4) by (apply pow_lt; lra).
    assert (0 <= r2 ^ 3 * r1) by (apply Rmult_le_pos; [apply pow_le|]; lra).
    assert (0 <= r2 ^ 2 * r1 ^ 2) by (apply Rmult_le_pos; apply pow_le; lra).
    assert (0 <= r2 * r1 ^ 3) by (apply Rmult_le_pos; [|apply pow_le]; lra).
    assert (0 <= r1 ^ 4) by (apply pow_le; lra). lra. }
  set (k := (r2 ^ 5 - r1 ^ 5) / (r2 ^ 3 - r1 ^ 3)). assert (0 < k) by (apply Rdiv_lt_0_compat; auto).
  unfold hollow_sphere.
  apply admissible_gen with (p := k / 5) (q := k / 5) (r := k / 5); try lra; try (unfold k; field; lra).
  pospoly.
Qed.
Lemma admissible_hemisphere : forall r d, 0 < r -> 0 < d -> admissible (hemisphere r d).
Proof.
  intros r d H1 H3. sq r. unfold hemisphere.
  apply admissible_gen with (p := 13 * r ^ 2 / 100) (q := 13 * r ^ 2 / 100) (r := 13 * r ^ 2 / 100); try lra; try field; pospoly.
Qed.
Lemma admissible_elliptical : forall a b l d, 0 < a -> 0 < b -> 0 < l -> 0 < d -> admissible (elliptical_cylinder a b l d).
Proof.
  intros a b l d H1 H2 H3 H4. sq a. sq b. sq l. unfold elliptical_cylinder.
  apply admissible_gen with (p := a ^ 2 / 4) (q := b ^ 2 / 4) (r := l ^ 2 / 12); try lra; try (field); pospoly.
Qed.
Lemma admissible_ellipsoid : forall a b c d, 0 < a -> 0 < b -> 0 < c -> 0 < d -> admissible (ellipsoid a b c d).
Proof.
  intros a b l d H1 H2 H3 H4. sq a. sq b. sq l. unfold ellipsoid.
  apply admissible_gen with (p := b ^ 2 / 5) (q := l ^ 2 / 5) (r := a ^ 2 / 5); try lra; try (field); pospoly.
Qed.
Lemma admissible_torus : forall c r d, 0 < c -> 0 < r -> 0 < d -> admissible (torus c r d).
Proof.
  intros c r d H1 H2 H3. sq c. sq r. unfold torus.
  apply admissible_gen with (p := (4 * c ^ 2 + 3 * r ^ 2) / 8) (q := r ^ 2 / 4) (r := (4 * c ^ 2 + 3 * r ^ 2) / 8);
    try lra; try (field); pospoly.
Qed.
Lemma admissible_right_wedge : forall b h l d, 0 < b -> 0 < h -> 0 < l -> 0 < d -> admissible (right_angle_wedge b h l d).
Proof.
  intros a b l d H1 H2 H3 H4. sq a. sq b. sq l. unfold right_angle_wedge.
  apply admissible_gen with (p := a ^ 2 / 18) (q := l ^ 2 / 12) (r := b ^ 2 / 18); try lra; try (field); pospoly.
Qed.
Lemma admissible_isosceles : forall b h l d, 0 < b -> 0 < h -> 0 < l -> 0 < d -> admissible (isoceles_wedge b h l d).
Proof.
  intros a b l d H1 H2 H3 H4. sq a. sq b. sq l. unfold isoceles_wedge.
  apply admissible_gen with (p := a ^ 2 / 24) (q := l ^ 2 / 12) (r := b ^ 2 / 18); try lra; try (field); pospoly.
Qed.
Lemma admissible_pyramid : forall a b h d, 0 < a -> 0 < b -> 0 < h -> 0 < d -> admissible (right_rectangular_pyramid a b h d).
Proof.
  intros a b l d H1 H2 H3 H4. sq a. sq b. sq l. unfold right_rectangular_pyramid.
  apply admissible_gen with (p := a ^ 2 / 20) (q := b ^ 2 / 20) (r := 3 * l ^ 2 / 80); try lra; try (field); pospoly.
Qed.
Lemma admissible_prism : forall a b h d, 0 < a -> 0 < b -> 0 < h -> 0 < d -> admissible (rectangular_prism a b h d).
Proof.
  intros a b l d H1 H2 H3 H4. sq a. sq b. sq l. unfold rectangular_prism.
  apply admissible_gen with (p := a ^ 2 / 12) (q := b ^ 2 / 12) (r := l ^ 2 / 12); try lra; try (field); pospoly.
Qed.
Lemma admissible_cube : forall a d, 0 < a -> 0 < d -> admissible (cube a d).
Proof.
  intros a d H1 H4. sq a. unfold cube.
  apply admissible_gen with (p := a ^ 2 / 12) (q := a ^ 2 / 12) (r := a ^ 2 / 12); try lra; try (field); pospoly.
Qed.
Lemma admissible_cone_shell : forall r h d t, 0 < r -> 0 < h -> 0 < d -> 0 < t -> admissible (circular_cone_shell r h d t).
Proof.
  intros a b d t H1 H2 H3 H4. sq a. sq b. unfold circular_cone_shell.
  apply admissible_gen with (p := a ^ 2 / 4) (q := a ^ 2 / 4) (r := b ^ 2 / 18); try lra; try (field).
  pospoly. apply sqrt_lt_R0; nra.
Qed.
Lemma admissible_frustum : forall r1 r2 h d t, 0 < r1 -> 0 < r2 -> 0 < h -> 0 < d -> 0 < t ->
  admissible (frustrum_of_circular_cone_shell r1 r2 h d t).
Proof.
  intros a b h d t H1 H2 H3 H4 H5. sq a. sq b. sq h. unfold frustrum_of_circular_cone_shell.
  assert (0 < 1 + 2 * b * a / (b + a) ^ 2) by pospoly.
  assert (0 < h ^ 2 * (1 + 2 * b * a / (b + a) ^ 2) / 18) by pospoly.
  apply admissible_gen with (p := (b ^ 2 + a ^ 2) / 4) (q := (b ^ 2 + a ^ 2) / 4)
     (r := h ^ 2 * (1 + 2 * b * a / (b + a) ^ 2) / 18); try lra; try (field; lra).
  pospoly. apply sqrt_lt_R0. pose proof (pow2_ge_0 (b - a)). lra.
Qed.
Lemma admissible_lateral : forall r h d t, 0 < r -> 0 < h -> 0 < d -> 0 < t -> admissible (lateral_cylindrical_shell r h d t).
Proof.
  intros a b d t H1 H2 H3 H4. sq a. sq b. unfold lateral_cylindrical_shell.
  apply admissible_gen with (p := a ^ 2 / 2) (q := a ^ 2 / 2) (r := b ^ 2 / 12); try lra; try (field); pospoly.
Qed.
Lemma admissible_ball_shell : forall r d t, 0 < r -> 0 < d -> 0 < t -> admissible (spherical_shell r d t).
Proof.
  intros a d t H1 H2 H4. sq a. unfold spherical_shell.
  apply admissible_gen with (p := a ^ 2 / 3) (q := a ^ 2 / 3) (r := a ^ 2 / 3); try lra; try (field); pospoly.
Qed.
Lemma admissible_half_ball_shell : forall r d t, 0 < r -> 0 < d -> 0 < t -> admissible (hemispherical_shell r d t).
Proof.
  intros a d t H1 H2 H4. sq a. unfold hemispherical_shell.
  apply admissible_gen with (p := a ^ 2 / 3) (q := a ^ 2 / 3) (r := a ^ 2 / 12); try lra; try (field); pospoly.
Qed.
Lemma admissible_total_iff : forall r h d t, 0 < r -> 0 < h -> 0 < d -> 0 < t ->
  (admissible (total_cylindrical_shell r h d t) <-> r ^ 2 * (r + 2 * h) <= h ^ 2 * (3 * r + h)).
Proof.
  intros r h d t Hr Hh Hd Ht. unfold total_cylindrical_shell, admissible, rigid_new, rb_xx, rb_yy, rb_zz.
  cbn [rb_mass rb_mat m00 m11 m22].
  set (m := d * t * (2 * PI * r * (r + h))). assert (Hm : 0 < m) by (unfold m; pospoly).
  set (X := 2 * r ^ 2 * (r + 2 * h) + h ^ 2 * (3 * r + h)).
  assert (HX : 0 < X) by (unfold X; pospoly).
  assert (E1 : m * X / 12 / (r + h) = (m / (12 * (r + h))) * X) by (field; lra).
  assert (E2 : m * r ^ 2 * ((r + 2 * h) / (r + h)) / 2 = (m / (12 * (r + h))) * (6 * r ^ 2 * (r + 2 * h))) by (field; lra).
  rewrite E1, E2. set (k := m / (12 * (r + h))). assert (Hk : 0 < k) by (unfold k; pospoly).
  set (A := r ^ 2 * (r + 2 * h)). assert (HA : 0 < A) by (unfold A; pospoly).
  replace (6 * r ^ 2 * (r + 2 * h)) with (6 * A) by (unfold A; ring).
  set (B := h ^ 2 * (3 * r + h)) in *. assert (HB : 0 < B) by (unfold B; pospoly).
  assert (EX : X = 2 * A + B) by (unfold X, A; ring). rewrite EX.
  pose proof (Rmult_lt_0_compat _ _ Hk HA). pose proof (Rmult_lt_0_compat _ _ Hk HB).
  split.
  - intros (_ & _ & _ & _ & _ & _ & H1). apply Rmult_le_reg_l with k; auto. lra.
  - intros H1. apply (Rmult_le_compat_l k) in H1; [|lra]. repeat split; lra.
Qed.

(** *** Linear integrals *)
From Coquelicot Require Import Coquelicot.
Lemma RInt_lin : forall (f g : R -> R) a b I J k l, is_RInt f a b I -> is_RInt g a b J ->
  is_RInt (fun x => k * f x + l * g x) a b (k * I + l * J).
Proof.
  intros f g a b I J k l F G.
  apply (@is_RInt_plus R_NormedModule (fun x => k * f x) (fun x => l * g x) a b (k * I) (l * J)).
  - apply (@is_RInt_scal R_NormedModule f a b k I F).
  - apply (@is_RInt_scal R_NormedModule g a b l J G).
Qed.

Lemma rectangle_slices_linear : forall z0 z1 x0 x1 y0 y1, linear (rectangle_slices z0 z1 x0 x1 y0 y1).
Proof.
  intros z0 z1 x0 x1 y0 y1 f g I J k l (F & HF & IF) (G & HG & IG).
  exists (fun z => k * F z + l * G z). split; [|apply RInt_lin; assumption].
  intros z Hz. destruct (HF z Hz) as (f1 & Hf1 & If1). destruct (HG z Hz) as (g1 & Hg1 & Ig1).
  exists (fun x => k * f1 x + l * g1 x). split; [|apply RInt_lin; assumption].
  intros x. apply (RInt_lin (fun y => f (V3 x y z)) (fun y => g (V3 x y z))); auto.
Qed.
