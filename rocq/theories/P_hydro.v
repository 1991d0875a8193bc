(** Waterplane sums: exactness of the moments, extents, and what compute_hydrostatics returns. *)
From Coq Require Import Reals List Arith Bool Lia Lra Psatz Permutation.
From Verif Require Import M_base P_base M_merge M_mesh S_mesh P_mesh S_integral P_integral S_geometry M_geometry P_geometry P_quantities
  S_connectivity M_plane M_inertia M_clipper S_clipper P_curves P_waterline M_hydro S_hydro.
Import ListNotations.
Open Scope R_scope.

(** ** Sides *)
Section Moments.
  Variables (ox oy : R).
  Let X (v : vec) := vx v - ox.
  Let Y (v : vec) := vy v - oy.
  Definition side0 (a b : vec) : R := (Y b - Y a) * (X a + X b).
  Definition side1 (a b : vec) : R := (Y b - Y a) * ((X a + X b) * (X a + X b) - X a * X b).
  Definition side2 (a b : vec) : R := (X b - X a) * ((Y a + Y b) * (Y a + Y b) - Y a * Y b).
  Definition side3 (a b : vec) : R := (Y b - Y a) * ((Y a + Y b) * (X a + X b) * (X a + X b) + Y a * X a * X a + Y b * X b * X b).
  Definition side4 (a b : vec) : R := (Y b - Y a) * (X a * X a + X b * X b) * (X a + X b).
  Definition side5 (a b : vec) : R := (X b - X a) * (Y a * Y a + Y b * Y b) * (Y a + Y b).
  Definition shifted (v : vec) : R * R := (X v, Y v).

  Fixpoint steps (a : vec) (l : list vec) : list (vec * vec) :=
    match l with [] => [] | b :: l' => (a, b) :: steps b l' end.
  Definition plus_sums (s : sums) (l : list (vec * vec)) : sums :=
    mkSums (g0 s + run side0 l) (g1 s + run side1 l) (g2 s + run side2 l)
           (g3 s + run side3 l) (g4 s + run side4 l) (g5 s + run side5 l).
  Lemma plus_sums_nil : forall s, plus_sums s [] = s.
  Proof. intros []. unfold plus_sums, run. cbn. f_equal; ring. Qed.
  Lemma plus_sums_app : forall s l l', plus_sums (plus_sums s l) l' = plus_sums s (l ++ l').
  Proof. intros. unfold plus_sums. cbn. rewrite !run_app. f_equal; ring. Qed.
  Lemma walk_steps : forall l s a, walk s (shifted a) (map shifted l) = plus_sums s (steps a l).
  Proof.
    induction l as [|b l IH]; intros s a; cbn [map walk steps]; [rewrite plus_sums_nil; auto|].
    rewrite IH. change ((a, b) :: steps b l) with ([(a, b)] ++ steps b l). rewrite <- plus_sums_app. f_equal.
    unfold plus_sums, add_side, shifted, run. cbn. f_equal; unfold side0, side1, side2, side3, side4, side5; ring.
  Qed.
End Moments.

Lemma steps_sides : forall vs b i, polygon_sides vs (i :: b) = steps (point vs i) (map (point vs) b).
Proof.
  intros vs. induction b as [|j b IH]; intros i; auto. unfold polygon_sides in *. cbn [pairs map steps]. rewrite <- IH. reflexivity.
Qed.
Lemma mapM_get : forall vs b pts, mapM (get vs) b = Ok pts -> pts = map (point vs) b /\ Forall (fun i => (i < length vs)%nat) b.
Proof.
  intros vs. induction b as [|i b IH]; intros pts H; cbn in H; [injection H as <-; auto|].
  unfold bind in H. destruct (get vs i) as [v|] eqn:E; [|discriminate]. destruct (mapM (get vs) b) as [ps|] eqn:M; [|discriminate].
  injection H as <-. destruct (IH _ eq_refl) as [-> F]. unfold get in E. destruct (nth_error vs i) as [w|] eqn:N; [|discriminate].
  injection E as <-. assert (P : point vs i = w) by (apply nth_error_nth; auto). cbn. rewrite P. split; auto. constructor; auto. apply nth_error_Some. congruence.
Qed.
Lemma mapM_get_ok : forall vs b, Forall (fun i => (i < length vs)%nat) b -> mapM (get vs) b = Ok (map (point vs) b).
Proof. intros vs b F. apply mapM_total. intros i I. rewrite Forall_forall in F. apply get_point; auto. Qed.

(** ** Extents *)
Definition has_extent (X Y : nat -> R) (b : list nat) (e : extent) : Prop :=
  is_min (e_xmin e) (map X b) /\ is_max (e_xmax e) (map X b) /\ is_min (e_ymin e) (map Y b) /\ is_max (e_ymax e) (map Y b).
Definition at_x (ox : R) (vs : list vec) (i : nat) : R := vx (point vs i) - ox.
Definition at_y (oy : R) (vs : list vec) (i : nat) : R := vy (point vs i) - oy.

Definition origin_of (at_cog : bool) (b : vec) : R * R := if at_cog then (vx b, vy b) else (0, 0).
Lemma polyverts_shifted : forall at_cog b v, polyverts at_cog b v = shifted (fst (origin_of at_cog b)) (snd (origin_of at_cog b)) v.
Proof. intros [|] b v; unfold polyverts, shifted, origin_of; cbn; f_equal; ring. Qed.

Lemma add_polygon_ok : forall vs at_cog b s poly, poly <> [] -> Forall (fun i => (i < length vs)%nat) poly ->
  let (ox, oy) := origin_of at_cog b in
  exists e, add_polygon vs at_cog b s poly = Ok (plus_sums ox oy s (polygon_sides vs poly), e) /\ has_extent (at_x ox vs) (at_y oy vs) poly e.
Proof.
  intros vs at_cog b s poly N F. destruct (origin_of at_cog b) as [ox oy] eqn:O. unfold add_polygon. rewrite mapM_get_ok by auto.
  unfold bind at 1. destruct poly as [|i poly]; [congruence|]. cbn [map].
  assert (P : forall v, polyverts at_cog b v = shifted ox oy v) by (intros; rewrite polyverts_shifted, O; auto).
  assert (EX : fst (polyverts at_cog b (point vs i)) :: map fst (map (polyverts at_cog b) (map (point vs) poly)) = map (at_x ox vs) (i :: poly)).
  { cbn [map]. rewrite P. unfold shifted at 1, at_x at 1. cbn [fst]. f_equal. rewrite !map_map. apply map_ext. intros. rewrite P. reflexivity. }
  assert (EY : snd (polyverts at_cog b (point vs i)) :: map snd (map (polyverts at_cog b) (map (point vs) poly)) = map (at_y oy vs) (i :: poly)).
  { cbn [map]. rewrite P. unfold shifted at 1, at_y at 1. cbn [snd]. f_equal. rewrite !map_map. apply map_ext. intros. rewrite P. reflexivity. }
  rewrite EX, EY.
  destruct (arr_min_spec (map (at_x ox vs) (i :: poly))) as (x0 & -> & X0); [discriminate|].
  destruct (arr_max_spec (map (at_x ox vs) (i :: poly))) as (x1 & -> & X1); [discriminate|].
  destruct (arr_min_spec (map (at_y oy vs) (i :: poly))) as (y0 & -> & Y0); [discriminate|].
  destruct (arr_max_spec (map (at_y oy vs) (i :: poly))) as (y1 & -> & Y1); [discriminate|].
  cbn [bind]. exists (mkExtent x0 x1 y0 y1). split; [|split; [|split; [|split]]; auto].
  do 2 f_equal. rewrite P, steps_sides, <- walk_steps. f_equal. apply map_ext. auto.
Qed.
Lemma add_polygon_inv : forall vs at_cog b s poly r, add_polygon vs at_cog b s poly = Ok r ->
  poly <> [] /\ Forall (fun i => (i < length vs)%nat) poly.
Proof.
  intros vs at_cog b s poly r H. unfold add_polygon in H. unfold bind at 1 in H. destruct (mapM (get vs) poly) as [pts|] eqn:M; [|discriminate].
  destruct (mapM_get _ _ _ M) as [-> F]. split; auto. intros ->. discriminate.
Qed.

Lemma add_polygons_ok : forall vs at_cog b polys s, Forall (fun p => p <> [] /\ Forall (fun i => (i < length vs)%nat) p) polys ->
  let (ox, oy) := origin_of at_cog b in
  exists es, add_polygons vs at_cog b s polys = Ok (plus_sums ox oy s (flat_map (polygon_sides vs) polys), es) /\
    Forall2 (has_extent (at_x ox vs) (at_y oy vs)) polys es.
Proof.
  intros vs at_cog b. induction polys as [|p polys IH]; intros s F; destruct (origin_of at_cog b) as [ox oy] eqn:O.
  - exists []. cbn. rewrite plus_sums_nil. auto.
  - inversion F as [|? ? [N V] F']; subst. pose proof (add_polygon_ok vs at_cog b s p N V) as H. rewrite O in H. destruct H as (e & E & HE).
    cbn [add_polygons]. rewrite E. cbn [bind]. destruct (IH (plus_sums ox oy s (polygon_sides vs p)) F') as (es & E2 & HS).
    rewrite E2. cbn [bind]. exists (e :: es). split; [|constructor; auto]. rewrite plus_sums_app. reflexivity.
Qed.
Lemma add_polygons_inv : forall vs at_cog b polys s r, add_polygons vs at_cog b s polys = Ok r ->
  Forall (fun p => p <> [] /\ Forall (fun i => (i < length vs)%nat) p) polys.
Proof.
  intros vs at_cog b. induction polys as [|p polys IH]; intros s r H; auto. cbn in H.
  apply bind_ok in H as ([s' e] & H1 & H2). apply bind_ok in H2 as ([s'' es] & H2 & _). constructor; eauto using add_polygon_inv.
Qed.

Lemma min_of_mins : forall (f : nat -> R) (g : extent -> R) ps es x, Forall2 (fun p e => is_min (g e) (map f p)) ps es ->
  is_min x (map g es) -> is_min x (map f (concat ps)).
Proof.
  intros f g ps es x F [I L]. split.
  - clear L. induction F as [|p e ps es H F IH]; [contradiction|]. cbn [concat]. rewrite map_app. apply in_or_app.
    destruct I as [<-|I]; [left; apply H|right; auto].
  - clear I. induction F as [|p e ps es H F IH]; [contradiction|]. cbn [concat]. rewrite map_app. intros y J. apply in_app_or in J as [J|J].
    + apply H in J. assert (x <= g e) by (apply L; left; auto). lra.
    + apply IH; auto. intros z Z. apply L. right; auto.
Qed.
Lemma max_of_maxs : forall (f : nat -> R) (g : extent -> R) ps es x, Forall2 (fun p e => is_max (g e) (map f p)) ps es ->
  is_max x (map g es) -> is_max x (map f (concat ps)).
Proof.
  intros f g ps es x F [I L]. split.
  - clear L. induction F as [|p e ps es H F IH]; [contradiction|]. cbn [concat]. rewrite map_app. apply in_or_app.
    destruct I as [<-|I]; [left; apply H|right; auto].
  - clear I. induction F as [|p e ps es H F IH]; [contradiction|]. cbn [concat]. rewrite map_app. intros y J. apply in_app_or in J as [J|J].
    + apply H in J. assert (g e <= x) by (apply L; left; auto). lra.
    + apply IH; auto. intros z Z. apply L. right; auto.
Qed.

(** ** Exactness *)
Definition flat_sum (f : vec -> vec -> vec -> R) (ts : list (vec * vec * vec)) : R :=
  Rsum (map (fun t => let '(a, b, c) := t in f a b c) ts).
Lemma flat_integral_sum : forall phi f ts,
  (forall a b c, is_unit_triangle_integral (fun u v => phi (triangle_point a b c u v) * vz (triangle_normal a b c)) (f a b c)) ->
  is_flat_integral phi ts (flat_sum f ts).
Proof.
  intros phi f ts H. exists (map (fun t => let '(a, b, c) := t in f a b c) ts). split; auto.
  induction ts as [|[[a b] c] ts IH]; cbn [map]; constructor; [apply H|apply IH].
Qed.
Lemma around_sum : forall psi (f : vec -> vec -> vec -> R) ts,
  (forall a b c, f a b c = psi a b + psi b c + psi c a) ->
  flat_sum f ts = run psi (flat_map (fun t => let '(a, b, c) := t in around [a; b; c]) ts).
Proof.
  intros psi f ts H. unfold flat_sum. induction ts as [|[[a b] c] ts IH]; auto. cbn [map flat_map]. rewrite run_app, <- IH.
  unfold Rsum. cbn [fold_right]. f_equal. rewrite H. unfold run, around. cbn. ring.
Qed.
(** A region is integrated by its border. *)
Lemma filled_integral : forall phi psi ts sides, (forall a b, psi a b = - psi b a) ->
  (forall a b c, is_unit_triangle_integral (fun u v => phi (triangle_point a b c u v) * vz (triangle_normal a b c)) (psi a b + psi b c + psi c a)) ->
  fills ts sides -> is_flat_integral phi ts (run psi sides).
Proof.
  intros phi psi ts sides A E F. rewrite <- (F psi A). rewrite <- (around_sum psi (fun a b c => psi a b + psi b c + psi c a)) by auto.
  apply flat_integral_sum. auto.
Qed.
Lemma run_scale : forall k psi l, run (fun a b => k * psi a b) l = k * run psi l.
Proof. intros. unfold run. rewrite <- Rsum_map_scale. auto. Qed.

Section Exact.
  Variables (ox oy : R) (ts : list (vec * vec * vec)) (sides : list (vec * vec)).
  Hypothesis F : fills ts sides.
  Let J a b c := vz (triangle_normal a b c).
  Lemma exact0 : is_flat_integral (fun _ => 1) ts (run (side0 ox oy) sides / 2).
  Proof.
    replace (run (side0 ox oy) sides / 2) with (run (fun a b => / 2 * side0 ox oy a b) sides) by (rewrite run_scale; field).
    apply filled_integral; auto; [intros; unfold side0; field|]. intros a b c.
    eapply triangle_ext; [| |apply (tri3_int (J a b c) (J a b c) (J a b c) 1 1 1 1 1 1)].
    - intros u v. cbv beta. fold (J a b c). ring.
    - unfold J, side0, tri3, triangle_normal. vunfold. field.
  Qed.
  Lemma exact1 : is_flat_integral (fun v => vx v - ox) ts (run (side1 ox oy) sides / 6).
  Proof.
    replace (run (side1 ox oy) sides / 6) with (run (fun a b => / 6 * side1 ox oy a b) sides) by (rewrite run_scale; field).
    apply filled_integral; auto; [intros; unfold side1; field|]. intros a b c.
    eapply triangle_ext; [| |apply (tri3_int (J a b c) (J a b c) (J a b c) (vx a - ox) (vx b - ox) (vx c - ox) 1 1 1)].
    - intros u v. cbv beta. fold (J a b c). unfold triangle_point. vunfold. ring.
    - unfold J, side1, tri3, triangle_normal. vunfold. field.
  Qed.
  Lemma exact2 : is_flat_integral (fun v => vy v - oy) ts (run (side2 ox oy) sides / -6).
  Proof.
    replace (run (side2 ox oy) sides / -6) with (run (fun a b => / -6 * side2 ox oy a b) sides) by (rewrite run_scale; field).
    apply filled_integral; auto; [intros; unfold side2; field|]. intros a b c.
    eapply triangle_ext; [| |apply (tri3_int (J a b c) (J a b c) (J a b c) (vy a - oy) (vy b - oy) (vy c - oy) 1 1 1)].
    - intros u v. cbv beta. fold (J a b c). unfold triangle_point. vunfold. ring.
    - unfold J, side2, tri3, triangle_normal. vunfold. field.
  Qed.
  Lemma exact4 : is_flat_integral (fun v => (vx v - ox) * (vx v - ox)) ts (run (side4 ox oy) sides / 12).
  Proof.
    replace (run (side4 ox oy) sides / 12) with (run (fun a b => / 12 * side4 ox oy a b) sides) by (rewrite run_scale; field).
    apply filled_integral; auto; [intros; unfold side4; field|]. intros a b c.
    eapply triangle_ext; [| |apply (tri3_int (J a b c) (J a b c) (J a b c) (vx a - ox) (vx b - ox) (vx c - ox) (vx a - ox) (vx b - ox) (vx c - ox))].
    - intros u v. cbv beta. fold (J a b c). unfold triangle_point. vunfold. ring.
    - unfold J, side4, tri3, triangle_normal. vunfold. field.
  Qed.
  Lemma exact5 : is_flat_integral (fun v => (vy v - oy) * (vy v - oy)) ts (run (side5 ox oy) sides / -12).
  Proof.
    replace (run (side5 ox oy) sides / -12) with (run (fun a b => / -12 * side5 ox oy a b) sides) by (rewrite run_scale; field).
    apply filled_integral; auto; [intros; unfold side5; field|]. intros a b c.
    eapply triangle_ext; [| |apply (tri3_int (J a b c) (J a b c) (J a b c) (vy a - oy) (vy b - oy) (vy c - oy) (vy a - oy) (vy b - oy) (vy c - oy))].
    - intros u v. cbv beta. fold (J a b c). unfold triangle_point. vunfold. ring.
    - unfold J, side5, tri3, triangle_normal. vunfold. field.
  Qed.
  (** What is missing in the integral of the product. *)
  Definition missing (a b : vec) : R :=
    (vy b - vy a) * ((vy a - oy) * (vx a - ox) * (vx a - ox) + (vy b - oy) * (vx b - ox) * (vx b - ox)).
  Lemma exact3 : is_flat_integral (fun v => (vx v - ox) * (vy v - oy)) ts (run (side3 ox oy) sides / 24 + run missing sides / 24).
  Proof.
    replace (run (side3 ox oy) sides / 24 + run missing sides / 24) with (run (fun a b => / 24 * (side3 ox oy a b + missing a b)) sides).
    2: { rewrite run_scale. unfold run. rewrite Rsum_map_add. field. }
    apply filled_integral; auto; [intros; unfold side3, missing; field|]. intros a b c.
    eapply triangle_ext; [| |apply (tri3_int (J a b c) (J a b c) (J a b c) (vx a - ox) (vx b - ox) (vx c - ox) (vy a - oy) (vy b - oy) (vy c - oy))].
    - intros u v. cbv beta. fold (J a b c). unfold triangle_point. vunfold. ring.
    - unfold J, side3, missing, tri3, triangle_normal. vunfold. field.
  Qed.
End Exact.

Lemma flat_unique : forall phi ts I J, is_flat_integral phi ts I -> is_flat_integral phi ts J -> I = J.
Proof.
  intros phi ts I J (v & F & <-) (w & G & <-). revert w G. induction F as [|[[a b] c] x ts v H F IH]; intros w G; inversion G as [|? y ? w' H' G']; subst; auto.
  unfold Rsum. cbn [fold_right]. f_equal; [eapply unit_triangle_unique; eauto|apply IH; auto].
Qed.

(** The fan of a closed polygon fills it. *)
Lemma last_default : forall (l : list vec) a b, l <> [] -> last l a = last l b.
Proof. induction l as [|x l IH]; intros a b N; [congruence|]. destruct l as [|y l]; auto. cbn [last]. apply IH. discriminate. Qed.
Lemma last_next : forall (l : list vec) a b, last (b :: l) a = last l b.
Proof. intros [|c l] a b; auto. change (last (b :: c :: l) a) with (last (c :: l) a). apply last_default. discriminate. Qed.
Lemma steps_telescope : forall (g : vec -> R) l a, run (fun x y => g y - g x) (steps a l) = g (last l a) - g a.
Proof.
  intros g. induction l as [|b l IH]; intros a; [unfold run; cbn; ring|]. cbn [steps].
  change ((a, b) :: steps b l) with ([(a, b)] ++ steps b l). rewrite run_app, IH, last_next. unfold run. cbn [map Rsum fold_right fst snd]. ring.
Qed.
Lemma last_map_point : forall vs b i, last (map (point vs) b) (point vs i) = point vs (last b i).
Proof. intros vs. induction b as [|j [|k b] IH]; intros i; auto. cbn [map last] in *. apply IH. Qed.
Lemma polygon_telescope : forall (g : vec -> R) vs b, closed_polygon b -> run (fun x y => g y - g x) (polygon_sides vs b) = 0.
Proof.
  intros g vs b [L E]. destruct b as [|i b]; [cbn in L; lia|]. rewrite steps_sides, steps_telescope, last_map_point.
  destruct b as [|j b]; [cbn in L; lia|]. cbn [hd] in E.
  assert (X : last (j :: b) i = i).
  { rewrite E at 2. change (last (i :: j :: b) 0%nat) with (last (j :: b) 0%nat). clear. revert i j. induction b as [|k b IH]; intros i j; auto. cbn [last] in *. apply IH. }
  rewrite X. ring.
Qed.
Lemma fan_fills : forall o vs polys, Forall closed_polygon polys ->
  fills (fan o (flat_map (polygon_sides vs) polys)) (flat_map (polygon_sides vs) polys).
Proof.
  intros o vs polys F psi A.
  rewrite <- (around_sum psi (fun a b c => psi a b + psi b c + psi c a)) by auto. unfold flat_sum, fan. rewrite map_map.
  set (sides := flat_map (polygon_sides vs) polys).
  replace (Rsum (map (fun x : vec * vec => psi o (fst x) + psi (fst x) (snd x) + psi (snd x) o) sides))
    with (run psi sides + run (fun a b => -1 * (psi o b - psi o a)) sides).
  - rewrite run_scale. replace (run (fun a b => psi o b - psi o a) sides) with 0; [ring|].
    unfold sides. clear sides. induction F as [|p polys C F IH]; auto. cbn [flat_map]. rewrite run_app, <- IH, (polygon_telescope (psi o)); auto. ring.
  - unfold run. rewrite <- Rsum_map_add. apply Rsum_map_ext. intros [a b] _. cbn [fst snd]. rewrite (A b o). ring.
Qed.
