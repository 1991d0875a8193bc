(** Linearity of integrals over the waterplane. *)
From Coq Require Import Reals List Lra.
From Coquelicot Require Import Coquelicot.
From Verif Require Import M_base P_base S_integral P_integral S_geometry S_hydro.
Import ListNotations.
Open Scope R_scope.

(** ** Linearity *)
Lemma triangle_linear : forall f g k I J, is_unit_triangle_integral f I -> is_unit_triangle_integral g J ->
  is_unit_triangle_integral (fun u v => f u v + k * g u v) (I + k * J).
Proof.
  intros f g k I J (p & A & B) (q & C & D). exists (fun u => p u + k * q u). split.
  - intros u Hu. apply (is_RInt_plus (fun v => f u v) (fun v => k * g u v)); [apply A; auto|].
    apply (is_RInt_scal (fun v => g u v) 0 (1 - u) k (q u)). apply C; auto.
  - apply (is_RInt_plus p (fun u => k * q u)); auto. apply (is_RInt_scal q 0 1 k J); auto.
Qed.
Lemma flat_linear : forall phi psi k ts I J, is_flat_integral phi ts I -> is_flat_integral psi ts J ->
  is_flat_integral (fun v => phi v + k * psi v) ts (I + k * J).
Proof.
  intros phi psi k ts I J (v & F & <-) (w & G & <-).
  cut (forall ts v, Forall2 (fun t x => let '(a, b, c) := t in is_unit_triangle_integral (fun u v => phi (triangle_point a b c u v) * vz (triangle_normal a b c)) x) ts v ->
       forall w, Forall2 (fun t x => let '(a, b, c) := t in is_unit_triangle_integral (fun u v => psi (triangle_point a b c u v) * vz (triangle_normal a b c)) x) ts w ->
       exists s, Forall2 (fun t x => let '(a, b, c) := t in is_unit_triangle_integral (fun u v => (phi (triangle_point a b c u v) + k * psi (triangle_point a b c u v)) * vz (triangle_normal a b c)) x) ts s /\
         Rsum s = Rsum v + k * Rsum w).
  { intros H. destruct (H ts v F w G) as (s & S & E). exists s. split; auto. }
  clear. intros ts v F. induction F as [|[[a b] c] x ts v H F IH]; intros w G; inversion G as [|? y ? w' H' G']; subst.
  - exists []. split; [constructor|]. cbn. ring.
  - destruct (IH _ G') as (s & S & E). exists ((x + k * y) :: s). split.
    + constructor; auto. eapply triangle_ext; [| |apply (triangle_linear _ _ k _ _ H H')]; auto. intros. cbv beta. ring.
    + unfold Rsum in *. cbn [fold_right]. rewrite E. ring.
Qed.
Lemma flat_ext : forall phi psi ts I, (forall v, phi v = psi v) -> is_flat_integral phi ts I -> is_flat_integral psi ts I.
Proof.
  intros phi psi ts I E (v & F & S). exists v. split; auto. clear S. induction F as [|[[a b] c] x ts v H F IH]; constructor; auto.
  eapply triangle_ext; [| |exact H]; auto. intros. cbv beta. rewrite E. auto.
Qed.
