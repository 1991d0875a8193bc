(** Integrals of products of affine functions over the unit triangle and the unit tetrahedron. *)
From Coq Require Import Reals Lra Psatz.
From Coquelicot Require Import Coquelicot.
From Verif Require Import M_base S_integral P_base.
Open Scope R_scope.

(** Coquelicot states equalities in a structure whose carrier is R. *)
Ltac req := match goal with |- ?a = ?b => change (@eq R a b) end.

(** Riemann integral from an antiderivative valid everywhere, with a continuous derivative. *)
Lemma RInt_antiderivative : forall (F f : R -> R) a b I,
  (forall x, is_derive F x (f x)) -> (forall x, continuous f x) -> I = F b - F a -> is_RInt f a b I.
Proof.
  intros F f a b I H C ->. apply (is_RInt_derive F f a b); intros; auto.
Qed.

Lemma unit_triangle_unique : forall f I J,
  is_unit_triangle_integral f I -> is_unit_triangle_integral f J -> I = J.
Proof.
  intros f I J (g & Hg & HI) (k & Hk & HJ).
  assert (E : is_RInt g 0 1 J).
  { apply is_RInt_ext with k; auto. intros x Hx. rewrite Rmin_left, Rmax_right in Hx by lra.
    assert (Hx' : 0 <= x <= 1) by lra.
    pose proof (is_RInt_unique _ _ _ _ (Hg x Hx')) as A. pose proof (is_RInt_unique _ _ _ _ (Hk x Hx')) as B.
    congruence. }
  rewrite <- (is_RInt_unique _ _ _ _ HI). apply (is_RInt_unique _ _ _ _ E).
Qed.

Lemma surface_unique : forall phi a b c I J,
  is_surface_integral phi a b c I -> is_surface_integral phi a b c J -> I = J.
Proof. intros. eapply unit_triangle_unique; eassumption. Qed.

Lemma unit_tetra_unique : forall f I J,
  is_unit_tetra_integral f I -> is_unit_tetra_integral f J -> I = J.
Proof.
  intros f I J (g & h & Hg & Hh & HI) (g' & h' & Hg' & Hh' & HJ).
  assert (G : forall u v, 0 <= u -> 0 <= v -> u + v <= 1 -> g u v = g' u v).
  { intros u v A B C. pose proof (is_RInt_unique _ _ _ _ (Hg u v A B C)).
    pose proof (is_RInt_unique _ _ _ _ (Hg' u v A B C)). congruence. }
  assert (H : forall u, 0 <= u <= 1 -> h u = h' u).
  { intros u Hu. pose proof (is_RInt_unique _ _ _ _ (Hh u Hu)) as A.
    assert (B : is_RInt (fun v => g u v) 0 (1 - u) (h' u)).
    { apply is_RInt_ext with (fun v => g' u v); [|apply Hh'; assumption].
      intros x Hx. rewrite Rmin_left, Rmax_right in Hx by lra. symmetry; apply G; lra. }
    rewrite (is_RInt_unique _ _ _ _ B) in A. auto. }
  assert (E : is_RInt h 0 1 J).
  { apply is_RInt_ext with h'; auto. intros x Hx. rewrite Rmin_left, Rmax_right in Hx by lra.
    symmetry. apply H. lra. }
  rewrite <- (is_RInt_unique _ _ _ _ HI). apply (is_RInt_unique _ _ _ _ E).
Qed.

Lemma cone_unique : forall phi a b c I J,
  is_cone_integral phi a b c I -> is_cone_integral phi a b c J -> I = J.
Proof. intros. eapply unit_tetra_unique; eassumption. Qed.

(** Polynomials of one variable, in Horner-free form. *)
Definition poly5 (c0 c1 c2 c3 c4 c5 x : R) := c0 + c1 * x + c2 * x ^ 2 + c3 * x ^ 3 + c4 * x ^ 4 + c5 * x ^ 5.

Lemma poly5_int : forall c0 c1 c2 c3 c4 c5 a b,
  is_RInt (poly5 c0 c1 c2 c3 c4 c5) a b
    (c0 * (b - a) + c1 * (b ^ 2 - a ^ 2) / 2 + c2 * (b ^ 3 - a ^ 3) / 3 + c3 * (b ^ 4 - a ^ 4) / 4
     + c4 * (b ^ 5 - a ^ 5) / 5 + c5 * (b ^ 6 - a ^ 6) / 6).
Proof.
  intros.
  apply RInt_antiderivative with
    (F := fun x => c0 * x + c1 * x ^ 2 / 2 + c2 * x ^ 3 / 3 + c3 * x ^ 4 / 4 + c4 * x ^ 5 / 5 + c5 * x ^ 6 / 6).
  - intros x. unfold poly5. auto_derive; [exact I|]. field.
  - intros x. unfold poly5. apply (@ex_derive_continuous R_AbsRing R_NormedModule). auto_derive. exact I.
  - field.
Qed.

(** Integral of a product of three affine functions over the unit triangle. [x1 x2 x3] are the values of the first
    at the three vertices, etc. *)
Definition tri3 (x1 x2 x3 y1 y2 y3 z1 z2 z3 : R) : R :=
  ((x1 + x2 + x3) * (y1 + y2 + y3) * (z1 + z2 + z3)
   + (x1 + x2 + x3) * (y1 * z1 + y2 * z2 + y3 * z3)
   + (y1 + y2 + y3) * (x1 * z1 + x2 * z2 + x3 * z3)
   + (z1 + z2 + z3) * (x1 * y1 + x2 * y2 + x3 * y3)
   + 2 * (x1 * y1 * z1 + x2 * y2 * z2 + x3 * y3 * z3)) / 120.

Lemma tri3_int : forall x1 x2 x3 y1 y2 y3 z1 z2 z3,
  is_unit_triangle_integral
    (fun u v => (x1 + (u * (x2 - x1) + v * (x3 - x1)))
              * (y1 + (u * (y2 - y1) + v * (y3 - y1)))
              * (z1 + (u * (z2 - z1) + v * (z3 - z1))))
    (tri3 x1 x2 x3 y1 y2 y3 z1 z2 z3).
Proof.
  intros.
  set (X := fun u => x1 + u * (x2 - x1)). set (Y := fun u => y1 + u * (y2 - y1)).
  set (Z := fun u => z1 + u * (z2 - z1)).
  set (a := x3 - x1). set (b := y3 - y1). set (c := z3 - z1).
  eexists. split.
  - intros u Hu.
    apply is_RInt_ext with (poly5 (X u * Y u * Z u) (a * Y u * Z u + b * X u * Z u + c * X u * Y u)
                                  (a * b * Z u + a * c * Y u + b * c * X u) (a * b * c) 0 0).
    + intros v _. req. unfold poly5, X, Y, Z, a, b, c. ring.
    + apply poly5_int.
  - cbn beta.
    set (p := x2 - x1). set (q := y2 - y1). set (r := z2 - z1).
    (* coefficients of the polynomials in u *)
    set (A0 := x1 * y1 * z1). set (A1 := p * y1 * z1 + q * x1 * z1 + r * x1 * y1).
    set (A2 := p * q * z1 + p * r * y1 + q * r * x1). set (A3 := p * q * r).
    set (B0 := a * y1 * z1 + b * x1 * z1 + c * x1 * y1).
    set (B1 := a * (q * z1 + r * y1) + b * (p * z1 + r * x1) + c * (p * y1 + q * x1)).
    set (B2 := a * q * r + b * p * r + c * p * q).
    set (C0 := a * b * z1 + a * c * y1 + b * c * x1). set (C1 := a * b * r + a * c * q + b * c * p).
    set (D0 := a * b * c).
    apply is_RInt_ext with
      (poly5 (A0 + B0 / 2 + C0 / 3 + D0 / 4)
             (A1 - A0 + (B1 - 2 * B0) / 2 + (C1 - 3 * C0) / 3 - D0)
             (A2 - A1 + (B2 - 2 * B1 + B0) / 2 + (- 3 * C1 + 3 * C0) / 3 + 3 / 2 * D0)
             (A3 - A2 + (- 2 * B2 + B1) / 2 + (3 * C1 - C0) / 3 - D0)
             (- A3 + B2 / 2 - C1 / 3 + D0 / 4) 0).
    + intros u _. req. unfold poly5, A0, A1, A2, A3, B0, B1, B2, C0, C1, D0, X, Y, Z, p, q, r. field.
    + match goal with |- is_RInt (poly5 ?c0 ?c1 ?c2 ?c3 ?c4 ?c5) _ _ _ =>
        pose proof (poly5_int c0 c1 c2 c3 c4 c5 0 1) as H end.
      match type of H with is_RInt _ _ _ ?v => replace (tri3 x1 x2 x3 y1 y2 y3 z1 z2 z3) with v; auto end.
      unfold tri3, A0, A1, A2, A3, B0, B1, B2, C0, C1, D0, a, b, c, p, q, r. field.
Qed.

(** Integral of a product of two linear functions over the unit tetrahedron (zero at the first vertex). *)
Definition tet2 (x1 x2 x3 y1 y2 y3 : R) : R :=
  ((x1 + x2 + x3) * (y1 + y2 + y3) + (x1 * y1 + x2 * y2 + x3 * y3)) / 120.

Lemma tet2_int : forall k l m x1 x2 x3 y1 y2 y3,
  is_unit_tetra_integral
    (fun u v w => k + l * (u * x1 + (v * x2 + w * x3)) 
                  + m * ((u * x1 + (v * x2 + w * x3)) * (u * y1 + (v * y2 + w * y3))))
    (k / 6 + l * (x1 + x2 + x3) / 24 + m * tet2 x1 x2 x3 y1 y2 y3).
Proof.
  intros.
  (* innermost integrand as a polynomial in w *)
  set (P := fun u v => u * x1 + v * x2). set (Q := fun u v => u * y1 + v * y2).
  eexists. eexists. split; [|split].
  - intros u v Hu Hv Huv.
    apply is_RInt_ext with (poly5 (k + l * P u v + m * (P u v * Q u v))
        (l * x3 + m * (P u v * y3 + x3 * Q u v)) (m * (x3 * y3)) 0 0 0).
    + intros w _. req. unfold poly5, P, Q. ring.
    + apply poly5_int.
  - intros u Hu. cbn beta.
    set (h := 1 - u).
    set (K0 := k + l * (u * x1) + m * (u * x1 * (u * y1))).
    set (K1 := l * x2 + m * (u * x1 * y2 + x2 * (u * y1))). set (K2 := m * (x2 * y2)).
    set (L0 := l * x3 + m * (u * x1 * y3 + x3 * (u * y1))). set (L1 := m * (x2 * y3 + x3 * y2)).
    set (N0 := m * (x3 * y3)).
    apply is_RInt_ext with
      (poly5 (K0 * h + L0 * h ^ 2 / 2 + N0 * h ^ 3 / 3)
             (K1 * h - K0 + (L1 * h ^ 2 - 2 * h * L0) / 2 - N0 * h ^ 2)
             (K2 * h - K1 + (L0 - 2 * h * L1) / 2 + N0 * h)
             (- K2 + L1 / 2 - N0 / 3) 0 0).
    + intros v _. req. unfold poly5, K0, K1, K2, L0, L1, N0, P, Q, h. field.
    + apply poly5_int.
  - cbn beta.
    set (S0 := l * (x2 + x3)). set (S1 := m * (x1 * y3 + x3 * y1 + x1 * y2 + x2 * y1)).
    set (T := m * (x3 * y3) / 12 + m * (x2 * y3 + x3 * y2) / 24 + m * (x2 * y2) / 12).
    apply is_RInt_ext with
      (poly5 (k / 2 + S0 / 6 + T)
             ((- 2 * k + l * x1) / 2 + (- 3 * S0 + S1) / 6 - 4 * T)
             ((k - 2 * (l * x1) + m * (x1 * y1)) / 2 + (3 * S0 - 3 * S1) / 6 + 6 * T)
             ((l * x1 - 2 * (m * (x1 * y1))) / 2 + (- S0 + 3 * S1) / 6 - 4 * T)
             (m * (x1 * y1) / 2 - S1 / 6 + T) 0).
    + intros u _. req. unfold poly5, S0, S1, T, P, Q. field.
    + match goal with |- is_RInt (poly5 ?c0 ?c1 ?c2 ?c3 ?c4 ?c5) _ _ ?w =>
        pose proof (poly5_int c0 c1 c2 c3 c4 c5 0 1) as H;
        match type of H with is_RInt _ _ _ ?v => replace w with v; auto end end.
      unfold tet2, S0, S1, T. field.
Qed.

(** Extensionality. *)
Lemma tetra_ext : forall f g I J, (forall u v w, f u v w = g u v w) -> I = J ->
  is_unit_tetra_integral f I -> is_unit_tetra_integral g J.
Proof.
  intros f g I J H -> (p & q & A & B & C). exists p, q. split; [|auto].
  intros. apply (is_RInt_ext (fun w => f u v w)); auto. 
Qed.
Lemma triangle_ext : forall f g I J, (forall u v, f u v = g u v) -> I = J ->
  is_unit_triangle_integral f I -> is_unit_triangle_integral g J.
Proof.
  intros f g I J H -> (p & A & B). exists p. split; [|auto].
  intros. apply (is_RInt_ext (fun v => f u v)); auto. 
Qed.
