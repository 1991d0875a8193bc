(** Pressure on the immersed surface, and its closure by the waterplane. *)
From Coq Require Import Reals List Arith Bool Lia Lra Psatz Permutation.
From Verif Require Import M_base P_base M_mesh S_mesh P_mesh S_integral P_integral S_geometry M_geometry P_geometry P_volume P_quantities
  M_plane S_connectivity S_clipper P_waterline M_hydro S_hydro P_hydro P_wetted.
Import ListNotations.
Open Scope R_scope.

Lemma flux_sum : forall phi f ts,
  (forall a b c, is_unit_triangle_integral (fun u v => phi (triangle_point a b c u v) (triangle_normal a b c)) (f a b c)) ->
  is_flux phi ts (Rsum (map (fun t => let '(a, b, c) := t in f a b c) ts)).
Proof.
  intros phi f ts H. unfold is_flux, is_triangles_integral.
  exists (map (fun t => let '(a, b, c) := t in f a b c) ts). split; auto.
  induction ts as [|[[i j] l] ts IH]; cbn [map]; constructor; auto.
Qed.
(** Integral of the height times a linear function times a component of the normal. *)
Definition press (g p : vec -> R) (n : vec -> R) (a b c : vec) : R :=
  let N := n (triangle_normal a b c) in tri3 N N N (g a) (g b) (g c) (p a) (p b) (p c).
Definition component (p : vec -> R) : Prop := p = vx \/ p = vy \/ p = vz.
Lemma press1_int : forall n a b c, component n ->
  is_unit_triangle_integral (fun u v => vz (triangle_point a b c u v) * n (triangle_normal a b c)) (press vz (fun _ => 1) n a b c).
Proof.
  intros n a b c _. unfold press. cbv zeta.
  eapply triangle_ext; [| |apply (tri3_int (n (triangle_normal a b c)) (n (triangle_normal a b c)) (n (triangle_normal a b c)) (vz a) (vz b) (vz c) 1 1 1)]; auto.
  intros u v. cbv beta. generalize (n (triangle_normal a b c)). intros N. unfold triangle_point. vunfold. ring.
Qed.
Lemma press2_int : forall p n a b c, component p -> 
  is_unit_triangle_integral (fun u v => vz (triangle_point a b c u v) * (p (triangle_point a b c u v) * n (triangle_normal a b c))) (press vz p n a b c).
Proof.
  intros p n a b c P. unfold press. cbv zeta.
  eapply triangle_ext; [| |apply (tri3_int (n (triangle_normal a b c)) (n (triangle_normal a b c)) (n (triangle_normal a b c)) (vz a) (vz b) (vz c) (p a) (p b) (p c))]; auto.
  intros u v. cbv beta. generalize (n (triangle_normal a b c)). intros N. destruct P as [-> | [-> | ->]]; unfold triangle_point; vunfold; ring.
Qed.

Lemma press0_int : forall n a b c, component n ->
  is_unit_triangle_integral (fun u v => n (triangle_normal a b c)) (press (fun _ => 1) (fun _ => 1) n a b c).
Proof.
  intros n a b c _. unfold press. cbv zeta.
  eapply triangle_ext; [| |apply (tri3_int (n (triangle_normal a b c)) (n (triangle_normal a b c)) (n (triangle_normal a b c)) 1 1 1 1 1 1)]; auto.
  intros u v. cbv beta. generalize (n (triangle_normal a b c)). intros. ring.
Qed.

Section Wetted.
  Variables (m : mesh) (W : list (vec * vec)).
  Hypothesis WT : wetted m W.
  Notation total f := (surface_sum f (verts m) (faces m)).
  Ltac ps := unfold press, tri3, triangle_normal, cone1, tetra; cbv zeta; vunfold.

  Lemma total_zero : total (fun _ _ _ => 0) = 0.
  Proof. unfold surface_sum. induction (mesh_triangles (faces m)) as [|[[i j] l] ts IH]; auto. unfold Rsum in *. cbn [map fold_right]. rewrite IH. ring. Qed.
  Lemma wetted_zero : forall f, (forall a b, f vzero a b = - f vzero b a) -> (forall a b, vz a = 0 -> vz b = 0 -> f vzero a b = 0) ->
    (forall a b c, f a b c = f vzero a b + f vzero b c + f vzero c a) -> total f = 0.
  Proof. intros f A Z E. rewrite (wetted_sum m W f (fun _ _ _ => 0) (fun a b => f vzero a b) WT A Z); [apply total_zero|]. intros. rewrite E. ring. Qed.
  Lemma wetted_div : forall f g, (forall a b, f vzero a b = - f vzero b a) -> (forall a b, vz a = 0 -> vz b = 0 -> f vzero a b = 0) ->
    (forall a b c, f a b c = g a b c + (f vzero a b + f vzero b c + f vzero c a)) -> total f = total g.
  Proof. intros f g A Z E. apply (wetted_sum m W f g (fun a b => f vzero a b) WT A Z E). Qed.
  Ltac go := first [intros a b; ps; field | intros a b Ha Hb; ps; rewrite ?Ha, ?Hb; field | intros a b c; ps; field].

  Lemma force_x : total (press vz (fun _ => 1) vx) = 0. Proof. apply wetted_zero; go. Qed.
  Lemma force_y : total (press vz (fun _ => 1) vy) = 0. Proof. apply wetted_zero; go. Qed.
  Lemma force_z : total (press vz (fun _ => 1) vz) = signed_volume vzero m. Proof. apply wetted_div; go. Qed.
  Lemma moment_yz : total (press vz vy vz) = total (cone1 vy). Proof. apply wetted_div; go. Qed.
  Lemma moment_zy : total (press vz vz vy) = 0. Proof. apply wetted_zero; go. Qed.
  Lemma moment_zx : total (press vz vz vx) = 0. Proof. apply wetted_zero; go. Qed.
  Lemma moment_xz : total (press vz vx vz) = total (cone1 vx). Proof. apply wetted_div; go. Qed.
  Lemma moment_zz : total (fun a b c => / 2 * press vz vz vz a b c) = total (cone1 vz). Proof. apply wetted_div; go. Qed.
  Lemma moment_xy : total (press vz vx vy) = 0. Proof. apply wetted_zero; go. Qed.
  Lemma moment_yx : total (press vz vy vx) = 0. Proof. apply wetted_zero; go. Qed.

  (** The lid closes the surface. *)
  Lemma lid_volume : forall ts o, fills ts W -> at_sea_level ts ->
    signed_volume o m + triangles_volume o ts = signed_volume vzero m.
  Proof.
    intros ts o F L. set (psi := fun a b => - / 6 * dot o (cross a b)).
    assert (A : forall a b, psi a b = - psi b a) by (intros; unfold psi; vunfold; ring).
    assert (T : forall a b c, tetra o a b c = tetra vzero a b c + (psi a b + psi b c + psi c a)) by (intros; unfold psi, tetra; vunfold; field).
    unfold signed_volume at 1. rewrite (surface_sum_ext (tetra o) (fun a b c => tetra vzero a b c + (psi a b + psi b c + psi c a))) by auto.
    rewrite surface_sum_add, (wt_border _ _ WT psi A), <- (F psi A).
    replace (triangles_volume o ts) with (run psi (flat_map (fun t => let '(a, b, c) := t in around [a; b; c]) ts)); [unfold signed_volume; ring|].
    unfold triangles_volume. clear - L T. induction L as [|[[a b] c] ts (HA & HB & HC) L IH]; auto. cbn [flat_map map]. rewrite run_app, IH.
    unfold Rsum. cbn [fold_right]. f_equal. rewrite T. unfold run, around. cbn [combine tl app map fst snd]. unfold Rsum. cbn [fold_right].
    assert (Z : tetra vzero a b c = 0) by (unfold tetra; vunfold; rewrite HA, HB, HC; field). rewrite Z. ring.
  Qed.
  (** The waterplane covers the immersed surface. *)
  Lemma projected_area : total (press (fun _ => 1) (fun _ => 1) vz) = - run (fun a b => / 2 * (vx a * vy b - vy a * vx b)) W.
  Proof. rewrite <- (wt_border _ _ WT) by (intros; field). apply surface_sum_ext. intros a b c. ps. field. Qed.
End Wetted.
