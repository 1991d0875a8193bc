(** Linearity of integrals over signed tetrahedra. *)
From Coq Require Import Reals List Lra.
From Coquelicot Require Import Coquelicot.
From Verif Require Import M_base P_base S_integral P_integral S_geometry.
Import ListNotations.
Open Scope R_scope.

Lemma tetra_linear : forall f g k I J, is_unit_tetra_integral f I -> is_unit_tetra_integral g J ->
  is_unit_tetra_integral (fun u v w => f u v w + k * g u v w) (I + k * J).
Proof.
  intros f g k I J (p & q & A & B & C) (p' & q' & A' & B' & C').
  exists (fun u v => p u v + k * p' u v), (fun u => q u + k * q' u). split; [|split].
  - intros u v U V W. apply (is_RInt_plus (fun w => f u v w) (fun w => k * g u v w)); [apply A; auto|].
    apply (is_RInt_scal (fun w => g u v w) 0 (1 - u - v) k (p' u v)). apply A'; auto.
  - intros u U. apply (is_RInt_plus (fun v => p u v) (fun v => k * p' u v)); [apply B; auto|].
    apply (is_RInt_scal (fun v => p' u v) 0 (1 - u) k (q' u)). apply B'; auto.
  - apply (is_RInt_plus q (fun u => k * q' u)); auto. apply (is_RInt_scal q' 0 1 k J); auto.
Qed.
Lemma cones_linear : forall phi psi k ts I J, is_triangles_integral (is_cone_integral phi) ts I -> is_triangles_integral (is_cone_integral psi) ts J ->
  is_triangles_integral (is_cone_integral (fun v => phi v + k * psi v)) ts (I + k * J).
Proof.
  intros phi psi k ts I J (v & F & <-) (w & G & <-).
  cut (exists s, Forall2 (fun t x => let '(a, b, c) := t in is_cone_integral (fun v => phi v + k * psi v) a b c x) ts s /\ Rsum s = Rsum v + k * Rsum w).
  { intros (s & S & E). exists s. auto. }
  revert w G. induction F as [|[[a b] c] x ts v H F IH]; intros w G; inversion G as [|? y ? w' H' G']; subst.
  - exists []. split; [constructor|]. cbn. ring.
  - destruct (IH _ G') as (s & S & E). exists ((x + k * y) :: s). split.
    + constructor; auto. unfold is_cone_integral in *. eapply tetra_ext; [| |apply (tetra_linear _ _ k _ _ H H')]; auto. intros. cbv beta. ring.
    + unfold Rsum in *. cbn [fold_right]. rewrite E. ring.
Qed.
Lemma cones_ext : forall phi psi ts I J, (forall v, phi v = psi v) -> I = J ->
  is_triangles_integral (is_cone_integral phi) ts I -> is_triangles_integral (is_cone_integral psi) ts J.
Proof.
  intros phi psi ts I J E <- (v & F & S). exists v. split; auto. clear S. induction F as [|[[a b] c] x ts v H F IH]; constructor; auto.
  unfold is_cone_integral in *. eapply tetra_ext; [| |exact H]; auto. intros. cbv beta. rewrite E. auto.
Qed.
Lemma cones_unique : forall phi ts I J, is_triangles_integral (is_cone_integral phi) ts I -> is_triangles_integral (is_cone_integral phi) ts J -> I = J.
Proof.
  intros phi ts I J (v & F & <-) (w & G & <-). revert w G. induction F as [|[[a b] c] x ts v H F IH]; intros w G; inversion G as [|? y ? w' H' G']; subst; auto.
  unfold Rsum. cbn [fold_right]. f_equal; [eapply cone_unique; eauto|apply IH; auto].
Qed.
