(** Moments of the solids and shells of S_solids. *)
From Coq Require Import Reals Lra Psatz FunctionalExtensionality.
From Coquelicot Require Import Coquelicot.
From Verif Require Import M_base S_solids M_inertia S_inertia P_base P_integral.
Open Scope R_scope.

Definition quad (k lx ly lz a b c d e f : R) (q : vec) : R :=
  k + lx * vx q + ly * vy q + lz * vz q + a * vx q ^ 2 + b * vy q ^ 2 + c * vz q ^ 2
  + d * (vy q * vz q) + e * (vx q * vz q) + f * (vx q * vy q).

Definition has_moments (body : integral) (V Sx Sy Sz Mxx Myy Mzz Myz Mxz Mxy : R) : Prop :=
  forall k lx ly lz a b c d e f,
    body (quad k lx ly lz a b c d e f)
         (k * V + lx * Sx + ly * Sy + lz * Sz + a * Mxx + b * Myy + c * Mzz + d * Myz + e * Mxz + f * Mxy).

(** From moments to the exact inertia. *)
Lemma moments_use : forall body V Sx Sy Sz Mxx Myy Mzz Myz Mxz Mxy k lx ly lz a b c d e f phi I,
  has_moments body V Sx Sy Sz Mxx Myy Mzz Myz Mxz Mxy ->
  (forall q, phi q = quad k lx ly lz a b c d e f q) ->
  I = k * V + lx * Sx + ly * Sy + lz * Sz + a * Mxx + b * Myy + c * Mzz + d * Myz + e * Mxz + f * Mxy ->
  body phi I.
Proof.
  intros. subst I. replace phi with (quad k lx ly lz a b c d e f); [apply H|].
  apply functional_extensionality. intros; symmetry; auto.
Qed.

Lemma moments_exact : forall body V Mxx Myy Mzz Myz Mxz Mxy rho,
  has_moments body V 0 0 0 Mxx Myy Mzz Myz Mxz Mxy ->
  exact_mass body rho (rho * V) /\ exact_center body rho (rho * V) vzero /\
  exact_moments body rho vzero (rho * (Myy + Mzz)) (rho * (Mxx + Mzz)) (rho * (Mxx + Myy)) /\
  exact_products body rho vzero (rho * Myz) (rho * Mxz) (rho * Mxy).
Proof.
  intros body V Mxx Myy Mzz Myz Mxz Mxy rho H.
  unfold exact_mass, exact_center, exact_moments, exact_products, vzero; cbn [vx vy vz].
  repeat split.
  - apply (moments_use _ _ _ _ _ _ _ _ _ _ _ rho 0 0 0 0 0 0 0 0 0 _ _ H); intros; unfold quad; ring.
  - apply (moments_use _ _ _ _ _ _ _ _ _ _ _ 0 rho 0 0 0 0 0 0 0 0 _ _ H); intros; unfold quad; ring.
  - apply (moments_use _ _ _ _ _ _ _ _ _ _ _ 0 0 rho 0 0 0 0 0 0 0 _ _ H); intros; unfold quad; ring.
  - apply (moments_use _ _ _ _ _ _ _ _ _ _ _ 0 0 0 rho 0 0 0 0 0 0 _ _ H); intros; unfold quad; ring.
  - apply (moments_use _ _ _ _ _ _ _ _ _ _ _ 0 0 0 0 0 rho rho 0 0 0 _ _ H); intros; unfold quad; ring.
  - apply (moments_use _ _ _ _ _ _ _ _ _ _ _ 0 0 0 0 rho 0 rho 0 0 0 _ _ H); intros; unfold quad; ring.
  - apply (moments_use _ _ _ _ _ _ _ _ _ _ _ 0 0 0 0 rho rho 0 0 0 0 _ _ H); intros; unfold quad; ring.
  - apply (moments_use _ _ _ _ _ _ _ _ _ _ _ 0 0 0 0 0 0 0 rho 0 0 _ _ H); intros; unfold quad; ring.
  - apply (moments_use _ _ _ _ _ _ _ _ _ _ _ 0 0 0 0 0 0 0 0 rho 0 _ _ H); intros; unfold quad; ring.
  - apply (moments_use _ _ _ _ _ _ _ _ _ _ _ 0 0 0 0 0 0 0 0 0 rho _ _ H); intros; unfold quad; ring.
Qed.

Lemma moments_reports : forall body V Mxx Myy Mzz rho xx yy zz m,
  has_moments body V 0 0 0 Mxx Myy Mzz 0 0 0 ->
  m = rho * V -> xx = rho * (Myy + Mzz) -> yy = rho * (Mxx + Mzz) -> zz = rho * (Mxx + Myy) ->
  reports body rho (rigid_new m (V3 0 0 0) xx yy zz 0 0 0 None).
Proof.
  intros body V Mxx Myy Mzz rho xx yy zz m H -> -> -> ->.
  destruct (moments_exact _ _ _ _ _ _ _ _ rho H) as (A & B & C & D).
  unfold reports, exact_inertia, rigid_new; cbn [rb_mass rb_cog rb_point rb_mat]. fold vzero.
  split; [exact A|]. split; [exact B|].
  do 6 eexists. split; [exact C|]. split; [exact D|]. unfold inertia_matrix. f_equal; ring.
Qed.

Lemma det_reports_zz : forall body rho b I, deterministic body -> reports body rho b ->
  body (fun q => rho * ((vx q - vx (rb_point b)) ^ 2 + (vy q - vy (rb_point b)) ^ 2)) I -> I = m22 (rb_mat b).
Proof.
  intros body rho b I D (_ & _ & xx & yy & zz & yz & xz & xy & (_ & _ & Z) & _ & E) H.
  rewrite E. cbn. eapply D; eassumption.
Qed.
Lemma det_reports_xx : forall body rho b I, deterministic body -> reports body rho b ->
  body (fun q => rho * ((vy q - vy (rb_point b)) ^ 2 + (vz q - vz (rb_point b)) ^ 2)) I -> I = m00 (rb_mat b).
Proof.
  intros body rho b I D (_ & _ & xx & yy & zz & yz & xz & xy & (X & _ & _) & _ & E) H.
  rewrite E. cbn. eapply D; eassumption.
Qed.
Lemma det_reports_xz : forall body rho b I, deterministic body -> reports body rho b ->
  body (fun q => rho * ((vx q - vx (rb_point b)) * (vz q - vz (rb_point b)))) I -> I = - m02 (rb_mat b).
Proof.
  intros body rho b I D (_ & _ & xx & yy & zz & yz & xz & xy & _ & (_ & X & _) & E) H.
  rewrite E. cbn. rewrite Ropp_involutive. eapply D; eassumption.
Qed.

(** ** One dimensional integrals *)
Lemma RInt_eq : forall (f : R -> R) a b I J, is_RInt f a b I -> I = J -> is_RInt f a b J.
Proof. intros; subst; auto. Qed.

Lemma RInt_det : forall (f : R -> R) a b I J, is_RInt f a b I -> is_RInt f a b J -> I = J.
Proof. intros f a b I J H K. rewrite <- (is_RInt_unique _ _ _ _ H). apply (is_RInt_unique _ _ _ _ K). Qed.

Lemma RInt_det_ext : forall (f g : R -> R) a b I J, is_RInt f a b I -> is_RInt g a b J ->
  (forall x, Rmin a b <= x <= Rmax a b -> f x = g x) -> I = J.
Proof.
  intros f g a b I J H K E. apply (RInt_det g a b); auto.
  apply is_RInt_ext with f; auto. intros; apply E. lra.
Qed.

Lemma trig_int : forall c0 c1 c2 c3 c4 c5,
  is_RInt (fun t => c0 + c1 * cos t + c2 * sin t + c3 * (cos t * cos t) + c4 * (sin t * sin t)
                    + c5 * (cos t * sin t)) 0 (2 * PI) (2 * PI * c0 + PI * c3 + PI * c4).
Proof.
  intros.
  apply RInt_antiderivative with (F := fun t => c0 * t + c1 * sin t - c2 * cos t
     + c3 * ((t + sin t * cos t) / 2) + c4 * ((t - sin t * cos t) / 2) + c5 * (sin t * sin t / 2)).
  - intros x. auto_derive; [exact I|]. pose proof (sin2_cos2 x) as P. unfold Rsqr in P.
    pose proof (f_equal (Rmult c3) P). pose proof (f_equal (Rmult c4) P). lra.
  - intros x. apply (@ex_derive_continuous R_AbsRing R_NormedModule). auto_derive. exact I.
  - rewrite cos_2PI, sin_2PI, cos_0, sin_0. field.
Qed.

(** ** Sections *)
Lemma rectangle_det : forall x0 x1 y0 y1 f I J,
  is_rectangle_integral x0 x1 y0 y1 f I -> is_rectangle_integral x0 x1 y0 y1 f J -> I = J.
Proof.
  intros x0 x1 y0 y1 f I J (h & H & HI) (h' & H' & HJ).
  eapply RInt_det_ext; try eassumption. intros. eapply RInt_det; [apply H|apply H'].
Qed.

Lemma ellipse_det : forall A B f I J, is_ellipse_integral A B f I -> is_ellipse_integral A B f J -> I = J.
Proof.
  intros A B f I J (h & H & HI) (h' & H' & HJ).
  eapply RInt_det_ext; try eassumption. intros. eapply RInt_det; [apply H|apply H'].
Qed.

Lemma rectangle_slices_det : forall z0 z1 x0 x1 y0 y1, deterministic (rectangle_slices z0 z1 x0 x1 y0 y1).
Proof.
  intros z0 z1 x0 x1 y0 y1 phi I J (g & H & HI) (g' & H' & HJ).
  eapply RInt_det_ext; try eassumption. intros. eapply rectangle_det; [apply H|apply H']; auto.
Qed.

Lemma ellipse_slices_det : forall z0 z1 A B, deterministic (ellipse_slices z0 z1 A B).
Proof.
  intros z0 z1 A B phi I J (g & H & HI) (g' & H' & HJ).
  eapply RInt_det_ext; try eassumption. intros. eapply ellipse_det; [apply H|apply H']; auto.
Qed.

Lemma torus_det : forall c r, deterministic (torus_integral c r).
Proof.
  intros c r phi I J (g & h & H & G & HI) (g' & h' & H' & G' & HJ).
  eapply RInt_det_ext; try eassumption. intros t _.
  eapply RInt_det_ext; [apply G|apply G'|]. intros. eapply RInt_det; [apply H|apply H'].
Qed.

Lemma revolution_det : forall s0 s1 p z dp dz, deterministic (revolution s0 s1 p z dp dz).
Proof.
  intros s0 s1 p z dp dz phi I J (_ & _ & g & H & HI) (_ & _ & g' & H' & HJ).
  eapply RInt_det_ext; try eassumption. intros t _. eapply RInt_det; [apply H|apply H'].
Qed.

Lemma sum_det : forall b1 b2, deterministic b1 -> deterministic b2 -> deterministic (integral_sum b1 b2).
Proof.
  intros b1 b2 H1 H2 phi I J (i1 & i2 & A & B & ->) (j1 & j2 & C & D & ->).
  rewrite (H1 _ _ _ A C), (H2 _ _ _ B D). reflexivity.
Qed.

Lemma sum_moments : forall b1 b2 V Sx Sy Sz Mxx Myy Mzz Myz Mxz Mxy V' Sx' Sy' Sz' Mxx' Myy' Mzz' Myz' Mxz' Mxy',
  has_moments b1 V Sx Sy Sz Mxx Myy Mzz Myz Mxz Mxy ->
  has_moments b2 V' Sx' Sy' Sz' Mxx' Myy' Mzz' Myz' Mxz' Mxy' ->
  has_moments (integral_sum b1 b2) (V + V') (Sx + Sx') (Sy + Sy') (Sz + Sz') (Mxx + Mxx') (Myy + Myy')
     (Mzz + Mzz') (Myz + Myz') (Mxz + Mxz') (Mxy + Mxy').
Proof.
  intros. intros k lx ly lz a b c d e f. do 2 eexists. split; [apply H|]. split; [apply H0|]. ring.
Qed.
Lemma diff_moments : forall b1 b2 V Sx Sy Sz Mxx Myy Mzz Myz Mxz Mxy V' Sx' Sy' Sz' Mxx' Myy' Mzz' Myz' Mxz' Mxy',
  has_moments b1 V Sx Sy Sz Mxx Myy Mzz Myz Mxz Mxy ->
  has_moments b2 V' Sx' Sy' Sz' Mxx' Myy' Mzz' Myz' Mxz' Mxy' ->
  has_moments (integral_diff b1 b2) (V - V') (Sx - Sx') (Sy - Sy') (Sz - Sz') (Mxx - Mxx') (Myy - Myy')
     (Mzz - Mzz') (Myz - Myz') (Mxz - Mxz') (Mxy - Mxy').
Proof.
  intros. intros k lx ly lz a b c d e f. do 2 eexists. split; [apply H|]. split; [apply H0|]. ring.
Qed.
Lemma moments_eq : forall body V Sx Sy Sz Mxx Myy Mzz Myz Mxz Mxy V' Sx' Sy' Sz' Mxx' Myy' Mzz' Myz' Mxz' Mxy',
  has_moments body V Sx Sy Sz Mxx Myy Mzz Myz Mxz Mxy ->
  V = V' -> Sx = Sx' -> Sy = Sy' -> Sz = Sz' -> Mxx = Mxx' -> Myy = Myy' -> Mzz = Mzz' -> Myz = Myz' ->
  Mxz = Mxz' -> Mxy = Mxy' -> has_moments body V' Sx' Sy' Sz' Mxx' Myy' Mzz' Myz' Mxz' Mxy'.
Proof. intros; subst; auto. Qed.

Lemma rectangle_quad : forall x0 x1 y0 y1 z k lx ly lz a b c d e f,
  let X1 := x1 - x0 in let X2 := (x1 ^ 2 - x0 ^ 2) / 2 in let X3 := (x1 ^ 3 - x0 ^ 3) / 3 in
  let Y1 := y1 - y0 in let Y2 := (y1 ^ 2 - y0 ^ 2) / 2 in let Y3 := (y1 ^ 3 - y0 ^ 3) / 3 in
  is_rectangle_integral x0 x1 y0 y1 (fun x y => quad k lx ly lz a b c d e f (V3 x y z))
    ((k + lz * z + c * z ^ 2) * X1 * Y1 + (lx + e * z) * X2 * Y1 + (ly + d * z) * X1 * Y2
     + a * X3 * Y1 + b * X1 * Y3 + f * X2 * Y2).
Proof.
  intros. eexists. split.
  - intros x. eapply is_RInt_ext.
    2: apply (poly5_int (k + lx * x + lz * z + a * x ^ 2 + c * z ^ 2 + e * (x * z)) (ly + d * z + f * x) b 0 0 0).
    intros y _. req. unfold poly5, quad. cbn [vx vy vz]. ring.
  - cbn beta. eapply RInt_eq.
    + eapply is_RInt_ext.
      2: apply (poly5_int ((k + lz * z + c * z ^ 2) * Y1 + (ly + d * z) * Y2 + b * Y3)
                          ((lx + e * z) * Y1 + f * Y2) (a * Y1) 0 0 0).
      intros x _. req. unfold poly5, Y1, Y2, Y3. field.
    + req. unfold X1, X2, X3. field.
Qed.

Lemma ellipse_quad : forall A B z k lx ly lz a b c d e f,
  is_ellipse_integral A B (fun x y => quad k lx ly lz a b c d e f (V3 x y z))
    (PI * A * B * (k + lz * z + c * z ^ 2) + PI * A * B / 4 * (a * A ^ 2 + b * B ^ 2)).
Proof.
  intros. eexists. split.
  - intros s. eapply is_RInt_ext.
    2: apply (trig_int ((k + lz * z + c * z ^ 2) * (A * B * s)) ((lx + e * z) * (A * s) * (A * B * s))
                 ((ly + d * z) * (B * s) * (A * B * s)) (a * (A * s) ^ 2 * (A * B * s))
                 (b * (B * s) ^ 2 * (A * B * s)) (f * (A * s) * (B * s) * (A * B * s))).
    intros t _. req. unfold quad. cbn [vx vy vz]. ring.
  - cbn beta. eapply RInt_eq.
    + eapply is_RInt_ext.
      2: apply (poly5_int 0 (2 * PI * (k + lz * z + c * z ^ 2) * (A * B)) 0 (PI * (a * A ^ 2 + b * B ^ 2) * (A * B)) 0 0).
      intros s _. req. unfold poly5. ring.
    + req. field.
Qed.

(** ** Solids *)
Ltac finish_poly := match goal with |- is_RInt (poly5 ?c0 ?c1 ?c2 ?c3 ?c4 ?c5) ?a ?b _ =>
    eapply RInt_eq; [apply (poly5_int c0 c1 c2 c3 c4 c5 a b)|req] end.

Lemma box_moments : forall a b h,
  has_moments (box a b h) (a * b * h) 0 0 0 (a * b * h * (a ^ 2 / 12)) (a * b * h * (b ^ 2 / 12))
              (a * b * h * (h ^ 2 / 12)) 0 0 0.
Proof.
  intros A B H k lx ly lz a b c d e f. eexists. split.
  - intros z _. apply rectangle_quad.
  - cbn beta. apply is_RInt_ext with
      (poly5 (k * A * B + a * (A ^ 3 / 12) * B + b * A * (B ^ 3 / 12)) (lz * A * B) (c * A * B) 0 0 0).
    + intros z _. req. unfold poly5. field.
    + finish_poly. field.
Qed.

Lemma pyramid_moments : forall a b h, h <> 0 ->
  let V := a * b * h / 3 in
  has_moments (pyramid a b h) V 0 0 0 (V * (a ^ 2 / 20)) (V * (b ^ 2 / 20)) (V * (3 * h ^ 2 / 80)) 0 0 0.
Proof.
  intros A B H Hh V k lx ly lz a b c d e f. eexists. split.
  - intros z _. apply rectangle_quad.
  - cbn beta.
    set (q := k * A * B). set (l := lz * A * B). set (m := c * A * B).
    set (n := a * A ^ 3 * B / 12 + b * A * B ^ 3 / 12).
    apply is_RInt_ext with
      (poly5 (9 / 16 * q + 81 / 256 * n)
             (9 / 16 * l - 3 / 2 * q / H - 27 / 16 * n / H)
             (9 / 16 * m - 3 / 2 * l / H + q / H ^ 2 + 27 / 8 * n / H ^ 2)
             (- (3 / 2 * m / H) + l / H ^ 2 - 3 * n / H ^ 3)
             (m / H ^ 2 + n / H ^ 4) 0).
    + intros z _. req. unfold poly5, q, l, m, n. field. auto.
    + finish_poly. unfold V, q, l, m, n. field. auto.
Qed.

Lemma isosceles_moments : forall b h l, h <> 0 ->
  let V := b * h * l / 2 in
  has_moments (isosceles_wedge b h l) V 0 0 0 (V * (b ^ 2 / 24)) (V * (l ^ 2 / 12)) (V * (h ^ 2 / 18)) 0 0 0.
Proof.
  intros B H L Hh V k lx ly lz a b c d e f. eexists. split.
  - intros z _. apply rectangle_quad.
  - cbn beta.
    set (q := k * B * L + b * B * L ^ 3 / 12). set (l := lz * B * L). set (m := c * B * L). set (n := a * B ^ 3 / 12 * L).
    apply is_RInt_ext with
      (poly5 (2 / 3 * q + 8 / 27 * n)
             (2 / 3 * l - q / H - 4 / 3 * n / H)
             (2 / 3 * m - l / H + 2 * n / H ^ 2)
             (- (m / H) - n / H ^ 3) 0 0).
    + intros z _. req. unfold poly5, q, l, m, n. field. auto.
    + finish_poly. unfold V, q, l, m, n. field. auto.
Qed.

Lemma right_wedge_moments : forall (mi : bool) b h l, h <> 0 ->
  let V := b * h * l / 2 in let s := if mi then -1 else 1 in
  has_moments (right_wedge mi b h l) V 0 0 0 (V * (b ^ 2 / 18)) (V * (l ^ 2 / 12)) (V * (h ^ 2 / 18))
              0 (- s * V * (b * h / 36)) 0.
Proof.
  intros mi B H L Hh V s k lx ly lz a b c d e f. eexists. split.
  - intros z _. apply rectangle_quad.
  - cbn beta.
    set (q := k * L + b * L ^ 3 / 12). set (l := lz * L). set (m := c * L). set (n := a * L).
    set (u := s * lx * L). set (v := s * e * L).
    set (w0 := 2 / 3 * B). set (w1 := - B / H).
    (* half width moments: with t = 2/3 - z/H, x goes from -B/3 to B t - B/3 (or mirrored) *)
    apply is_RInt_ext with
      (fun z => let t := 2 / 3 - z / H in
         (q + l * z + m * z ^ 2) * (B * t) + (u + v * z) * ((B * t) * (B * t) / 2 - B / 3 * (B * t))
         + n * ((B * t - B / 3) ^ 3 + (B / 3) ^ 3) / 3).
    + intros z _. req. unfold q, l, m, n, u, v, s. cbv zeta. destruct mi; field; auto.
    + cbv zeta.
      apply is_RInt_ext with
        (poly5 (2 / 3 * B * q + (2 / 9 * B ^ 2 - 2 / 9 * B ^ 2) * u + n * (B ^ 3 / 27 + B ^ 3 / 27) / 3)
               (2 / 3 * B * l - B / H * q + u * (- 2 / 3 * B ^ 2 / H + B ^ 2 / 3 / H)
                  - n * (B ^ 3 / 3 / H) / 3)
               (2 / 3 * B * m - B / H * l + u * (B ^ 2 / H ^ 2 / 2) - v * (1 / 3) * B ^ 2 / H + n * (B ^ 3 / H ^ 2) / 3)
               (- (B / H) * m + v * (B ^ 2 / H ^ 2 / 2) - n * (B ^ 3 / H ^ 3) / 3) 0 0).
      * intros z _. req. unfold poly5. field. auto.
      * finish_poly. unfold V, q, l, m, n, u, v, s. destruct mi; field; auto.
Qed.

Lemma elliptic_cylinder_moments : forall a b l,
  let V := PI * a * b * l in
  has_moments (elliptic_cylinder a b l) V 0 0 0 (V * (a ^ 2 / 4)) (V * (b ^ 2 / 4)) (V * (l ^ 2 / 12)) 0 0 0.
Proof.
  intros A B L V k lx ly lz a b c d e f. eexists. split.
  - intros z _. apply ellipse_quad.
  - cbn beta. apply is_RInt_ext with
      (poly5 (PI * A * B * k + PI * A * B / 4 * (a * A ^ 2 + b * B ^ 2)) (PI * A * B * lz) (PI * A * B * c) 0 0 0).
    + intros z _. req. unfold poly5. field.
    + finish_poly. unfold V. field.
Qed.

Lemma cone_moments : forall r l, l <> 0 ->
  let V := PI * r ^ 2 * l / 3 in
  has_moments (cone r l) V 0 0 0 (V * (3 * r ^ 2 / 20)) (V * (3 * r ^ 2 / 20)) (V * (3 * l ^ 2 / 80)) 0 0 0.
Proof.
  intros A H Hh V k lx ly lz a b c d e f. eexists. split.
  - intros z _. apply ellipse_quad.
  - cbn beta.
    set (q := PI * A ^ 2 * k). set (l := PI * A ^ 2 * lz). set (m := PI * A ^ 2 * c).
    set (n := PI * A ^ 4 / 4 * (a + b)).
    apply is_RInt_ext with
      (poly5 (9 / 16 * q + 81 / 256 * n)
             (9 / 16 * l - 3 / 2 * q / H - 27 / 16 * n / H)
             (9 / 16 * m - 3 / 2 * l / H + q / H ^ 2 + 27 / 8 * n / H ^ 2)
             (- (3 / 2 * m / H) + l / H ^ 2 - 3 * n / H ^ 3)
             (m / H ^ 2 + n / H ^ 4) 0).
    + intros z _. req. unfold poly5, q, l, m, n. field. auto.
    + finish_poly. unfold V, q, l, m, n. field. auto.
Qed.

Lemma ellipsoid_moments : forall a b c, 0 < c ->
  let V := 4 / 3 * PI * a * b * c in
  has_moments (solid_ellipsoid a b c) V 0 0 0 (V * (a ^ 2 / 5)) (V * (b ^ 2 / 5)) (V * (c ^ 2 / 5)) 0 0 0.
Proof.
  intros A B C Hc V k lx ly lz a b c d e f. eexists. split.
  - intros z _. apply ellipse_quad.
  - cbn beta.
    set (w := PI * A * B). set (n := PI * A * B / 4 * (a * A ^ 2 + b * B ^ 2)).
    apply is_RInt_ext with
      (poly5 (w * k + n) (w * lz) (w * c - w * k / C ^ 2 - 2 * n / C ^ 2) (- (w * lz / C ^ 2))
             (- (w * c / C ^ 2) + n / C ^ 4) 0).
    + intros z Hz. rewrite Rmin_left, Rmax_right in Hz by lra.
      assert (P : 0 <= 1 - (z / C) ^ 2).
      { assert (-1 <= z / C <= 1).
        { split; [apply Rmult_le_reg_r with C|apply Rmult_le_reg_r with C]; try lra;
          replace (z / C * C) with z by (field; lra); lra. } nra. }
      pose proof (sqrt_sqrt _ P) as S. set (t := sqrt (1 - (z / C) ^ 2)) in *.
      req. unfold poly5.
      transitivity (w * (t * t) * (k + lz * z + c * z ^ 2) + n * (t * t) ^ 2).
      * rewrite S. field. lra.
      * unfold w, n. field.
    + finish_poly. unfold V, w, n. field. lra.
Qed.

Lemma half_ball_moments : forall r, 0 < r ->
  let V := 2 / 3 * PI * r ^ 3 in
  has_moments (half_ball r) V 0 0 0 (V * (r ^ 2 / 5)) (V * (r ^ 2 / 5)) (V * (19 * r ^ 2 / 320)) 0 0 0.
Proof.
  intros r Hr V k lx ly lz a b c d e f. eexists. split.
  - intros z _. apply ellipse_quad.
  - cbn beta.
    set (al := 55 / 64 * r ^ 2). set (be := - 3 / 4 * r). (* r^2 - (z + 3r/8)^2 = al + be z - z^2 *)
    set (n := (a + b) / 4).
    apply is_RInt_ext with
      (poly5 (PI * (al * k + n * al ^ 2))
             (PI * (al * lz + be * k + n * (2 * al * be)))
             (PI * (al * c + be * lz - k + n * (be ^ 2 - 2 * al)))
             (PI * (be * c - lz - n * (2 * be)))
             (PI * (- c + n)) 0).
    + intros z Hz. rewrite Rmin_left, Rmax_right in Hz by lra.
      assert (P : 0 <= r ^ 2 - (z + 3 * r / 8) ^ 2) by nra.
      pose proof (sqrt_sqrt _ P) as S. set (t := sqrt (r ^ 2 - (z + 3 * r / 8) ^ 2)) in *.
      req. unfold poly5.
      transitivity (PI * ((t * t) * (k + lz * z + c * z ^ 2) + n * (t * t) ^ 2)).
      * rewrite S. unfold al, be. field.
      * unfold n. field.
    + finish_poly. unfold V, al, be, n. field.
Qed.

(** The torus *)
Lemma trig3_int : forall c0 c1 c2 c3 c4 c5 c6 c7,
  is_RInt (fun t => c0 + c1 * cos t + c2 * sin t + c3 * (cos t * cos t) + c4 * (sin t * sin t)
                    + c5 * (cos t * sin t) + c6 * (cos t * cos t * cos t) + c7 * (cos t * sin t * sin t))
          0 (2 * PI) (2 * PI * c0 + PI * c3 + PI * c4).
Proof.
  intros.
  apply RInt_antiderivative with (F := fun t => c0 * t + c1 * sin t - c2 * cos t
     + c3 * ((t + sin t * cos t) / 2) + c4 * ((t - sin t * cos t) / 2) + c5 * (sin t * sin t / 2)
     + c6 * (sin t - sin t * sin t * sin t / 3) + c7 * (sin t * sin t * sin t / 3)).
  - intros x. auto_derive; [exact I|]. pose proof (sin2_cos2 x) as P. unfold Rsqr in P.
    pose proof (f_equal (Rmult c3) P). pose proof (f_equal (Rmult c4) P).
    pose proof (f_equal (Rmult (c6 * cos x)) P). lra.
  - intros x. apply (@ex_derive_continuous R_AbsRing R_NormedModule). auto_derive. exact I.
  - rewrite cos_2PI, sin_2PI, cos_0, sin_0. field.
Qed.

Lemma torus_moments : forall c r,
  let V := 2 * PI ^ 2 * r ^ 2 * c in
  has_moments (torus_integral c r) V 0 0 0 (V * ((4 * c ^ 2 + 3 * r ^ 2) / 8)) (V * (r ^ 2 / 4))
              (V * ((4 * c ^ 2 + 3 * r ^ 2) / 8)) 0 0 0.
Proof.
  intros C r V k lx ly lz a b c d e f. eexists. eexists. split; [|split].
  - intros t u. eapply is_RInt_ext.
    2: apply (trig_int
        ((k + ly * (t * sin u) + b * (t * sin u) ^ 2) * (t * (C + t * cos u)))
        ((lx + f * (t * sin u)) * (C + t * cos u) * (t * (C + t * cos u)))
        ((lz + d * (t * sin u)) * (C + t * cos u) * (t * (C + t * cos u)))
        (a * (C + t * cos u) ^ 2 * (t * (C + t * cos u)))
        (c * (C + t * cos u) ^ 2 * (t * (C + t * cos u)))
        (e * (C + t * cos u) ^ 2 * (t * (C + t * cos u)))).
    intros w _. req. unfold quad. cbn [vx vy vz]. ring.
  - intros t. cbn beta. eapply is_RInt_ext.
    2: apply (trig3_int
       (2 * PI * t * C * k + PI * (a + c) * t * C ^ 3)
       (2 * PI * t * t * k + 3 * PI * (a + c) * t * C ^ 2 * t)
       (2 * PI * t * C * ly * t)
       (3 * PI * (a + c) * t * C * t ^ 2)
       (2 * PI * t * C * b * t ^ 2)
       (2 * PI * t * t * ly * t)
       (PI * (a + c) * t * t ^ 3)
       (2 * PI * t * t * b * t ^ 2)).
    intros u _. req. cbv beta. ring.
  - cbn beta. eapply RInt_eq; [|]. eapply is_RInt_ext.
    2: apply (poly5_int 0 (2 * PI * (2 * PI * C * k + PI * (a + c) * C ^ 3)) 0
         (PI * (3 * PI * (a + c) * C) + PI * (2 * PI * C * b)) 0 0 0 r).
    intros t _. req. cbv beta. unfold poly5. ring.
    req. unfold V. field.
Qed.

(** ** Shells of revolution *)
Lemma revolution_moments : forall s0 s1 p z dp dz V Sz Mr Mzz,
  (forall s, is_derive p s (dp s)) -> (forall s, is_derive z s (dz s)) ->
  (forall k lz c ab, is_RInt (fun s => p s * sqrt (dp s ^ 2 + dz s ^ 2)
       * (2 * PI * (k + lz * z s + c * z s ^ 2) + PI * p s ^ 2 * ab)) s0 s1
     (k * V + lz * Sz + c * Mzz + ab * Mr)) ->
  has_moments (revolution s0 s1 p z dp dz) V 0 0 Sz Mr Mr Mzz 0 0 0.
Proof.
  intros s0 s1 p z dp dz V Sz Mr Mzz Hp Hz H k lx ly lz a b c d e f.
  split; [exact Hp|]. split; [exact Hz|]. eexists. split.
  - intros s. eapply is_RInt_ext.
    2: apply (trig_int ((k + lz * z s + c * z s ^ 2) * (p s * sqrt (dp s ^ 2 + dz s ^ 2)))
         ((lx + e * z s) * p s * (p s * sqrt (dp s ^ 2 + dz s ^ 2)))
         ((ly + d * z s) * p s * (p s * sqrt (dp s ^ 2 + dz s ^ 2)))
         (a * p s ^ 2 * (p s * sqrt (dp s ^ 2 + dz s ^ 2)))
         (b * p s ^ 2 * (p s * sqrt (dp s ^ 2 + dz s ^ 2)))
         (f * p s ^ 2 * (p s * sqrt (dp s ^ 2 + dz s ^ 2)))).
    intros t _. req. unfold quad. cbn [vx vy vz]. ring.
  - cbn beta. eapply RInt_eq.
    + eapply is_RInt_ext. 2: apply (H k lz c (a + b)). intros s _. req. cbv beta. ring.
    + req. ring.
Qed.

Lemma frustum_moments : forall r1 r2 h h0,
  let L := sqrt ((r1 - r2) ^ 2 + h ^ 2) in
  has_moments (frustum_shell r1 r2 h h0)
    (PI * (r1 + r2) * L) 0 0
    (PI * L * (h * (2 * r1 + r2) / 3 - h0 * (r1 + r2)))
    (PI * L * (r1 + r2) * (r1 ^ 2 + r2 ^ 2) / 4) (PI * L * (r1 + r2) * (r1 ^ 2 + r2 ^ 2) / 4)
    (PI * L * (h ^ 2 * (3 * r1 + r2) / 6 - 2 * h * h0 * (2 * r1 + r2) / 3 + h0 ^ 2 * (r1 + r2)))
    0 0 0.
Proof.
  intros. apply revolution_moments.
  - intros s. auto_derive; [exact I|]. ring.
  - intros s. auto_derive; [exact I|]. ring.
  - intros k lz c ab. fold L.
    set (q := k - lz * h0 + c * h0 ^ 2). set (l := lz * h - 2 * c * h * h0). set (m := c * h ^ 2).
    set (w := r1 - r2). set (T := 2 * PI * L). set (n := PI * L * ab).
    apply is_RInt_ext with
      (poly5 (T * r2 * q + n * r2 ^ 3) (T * (r2 * l + w * q) + n * (3 * r2 ^ 2 * w))
             (T * (r2 * m + w * l) + n * (3 * r2 * w ^ 2)) (T * (w * m) + n * w ^ 3) 0 0).
    + intros s _. req. unfold poly5, q, l, m, w, T, n. ring.
    + finish_poly. unfold q, l, m, w, T, n. field.
Qed.

Lemma disc_moments : forall r z, 0 <= r ->
  has_moments (disc_shell r z) (PI * r ^ 2) 0 0 (PI * r ^ 2 * z) (PI * r ^ 4 / 4) (PI * r ^ 4 / 4)
     (PI * r ^ 2 * z ^ 2) 0 0 0.
Proof.
  intros. apply revolution_moments.
  - intros s. auto_derive; [exact I|]. ring.
  - intros s. auto_derive; [exact I|]. ring.
  - intros k lz c ab. replace (r ^ 2 + 0 ^ 2) with (r * r) by ring. rewrite sqrt_square by auto.
    apply is_RInt_ext with (poly5 0 (2 * PI * r ^ 2 * (k + lz * z + c * z ^ 2)) 0 (PI * r ^ 4 * ab) 0 0).
    + intros s _. req. unfold poly5. ring.
    + finish_poly. field.
Qed.

Lemma sphere_element : forall r s, 0 <= r -> sqrt ((r * cos s) ^ 2 + (- (r * sin s)) ^ 2) = r.
Proof.
  intros. replace ((r * cos s) ^ 2 + (- (r * sin s)) ^ 2) with (r * r).
  - apply sqrt_square; auto.
  - pose proof (sin2_cos2 s) as P. unfold Rsqr in P. pose proof (f_equal (Rmult (r * r)) P). lra.
Qed.

(** int sin, sin cos, sin cos^2, sin^3 *)
Lemma sphere_int : forall c0 c1 c2 c3 a b,
  is_RInt (fun s => sin s * (c0 + c1 * cos s + c2 * (cos s * cos s) + c3 * (sin s * sin s))) a b
    (- c0 * (cos b - cos a) - c1 * (cos b * cos b - cos a * cos a) / 2
     - c2 * (cos b * cos b * cos b - cos a * cos a * cos a) / 3
     + c3 * ((cos b * cos b * cos b / 3 - cos b) - (cos a * cos a * cos a / 3 - cos a))).
Proof.
  intros.
  apply RInt_antiderivative with (F := fun s => - c0 * cos s - c1 * (cos s * cos s) / 2
     - c2 * (cos s * cos s * cos s) / 3 + c3 * (cos s * cos s * cos s / 3 - cos s)).
  - intros x. auto_derive; [exact I|]. pose proof (sin2_cos2 x) as P. unfold Rsqr in P.
    pose proof (f_equal (Rmult (c3 * sin x)) P). lra.
  - intros x. apply (@ex_derive_continuous R_AbsRing R_NormedModule). auto_derive. exact I.
  - field.
Qed.

Lemma ball_shell_moments : forall r, 0 <= r ->
  let S := 4 * PI * r ^ 2 in
  has_moments (ball_shell r) S 0 0 0 (S * (r ^ 2 / 3)) (S * (r ^ 2 / 3)) (S * (r ^ 2 / 3)) 0 0 0.
Proof.
  intros. apply revolution_moments.
  - intros s. auto_derive; [exact I|]. ring.
  - intros s. auto_derive; [exact I|]. ring.
  - intros k lz c ab. eapply is_RInt_ext.
    2: eapply RInt_eq;
       [apply (sphere_int (2 * PI * r ^ 2 * k) (2 * PI * r ^ 3 * lz) (2 * PI * r ^ 4 * c) (PI * r ^ 4 * ab))|].
    + intros s _. req. cbv beta. rewrite sphere_element by auto. ring.
    + req. rewrite cos_PI, cos_0. unfold S. field.
Qed.

Lemma half_ball_shell_moments : forall r, 0 <= r ->
  let S := 2 * PI * r ^ 2 in
  has_moments (half_ball_shell r) S 0 0 0 (S * (r ^ 2 / 3)) (S * (r ^ 2 / 3)) (S * (r ^ 2 / 12)) 0 0 0.
Proof.
  intros. apply revolution_moments.
  - intros s. auto_derive; [exact I|]. ring.
  - intros s. auto_derive; [exact I|]. ring.
  - intros k lz c ab. eapply is_RInt_ext.
    2: eapply RInt_eq;
       [apply (sphere_int (2 * PI * r ^ 2 * (k - lz * r / 2 + c * r ^ 2 / 4)) (2 * PI * r ^ 3 * (lz - c * r))
                 (2 * PI * r ^ 4 * c) (PI * r ^ 4 * ab))|].
    + intros s _. req. cbv beta. rewrite sphere_element by auto. field.
    + req. rewrite cos_PI2, cos_0. unfold S. field.
Qed.
