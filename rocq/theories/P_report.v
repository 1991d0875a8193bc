(** What compute_hydrostatics reports for meshes whose immersed part is known exactly. *)
From Coq Require Import Reals List Arith Bool Lia Lra Psatz Permutation.
From Verif Require Import M_base P_base S_merge M_merge P_merge M_rotations S_rotations M_mesh S_mesh P_mesh S_integral P_integral S_geometry M_geometry P_geometry P_volume P_quantities
  S_connectivity P_connectivity M_plane M_inertia M_clipper S_clipper P_cut P_curves P_waterline P_sharp M_hydro S_hydro P_hydro P_flat P_hydro2 P_wetted P_archimedes P_contour P_cones P_immersed.
Import ListNotations.
Open Scope R_scope.

Lemma run_perm : forall psi l l', Permutation l l' -> run psi l = run psi l'.
Proof. intros psi l l' P. unfold run, Rsum. induction P; cbn [map fold_right]; lra. Qed.
Lemma inertia_total : forall rho m, valid m -> flat_mesh m -> exists body, eval_plain_mesh_inertias rho m = Ok body.
Proof.
  intros rho m V F. pose proof (volume_exact m V F) as EV. unfold volume in EV. unfold eval_plain_mesh_inertias.
  rewrite faces_integrals_ok, faces_properties_ok in * by auto. cbn [bind] in *. unfold plain_inertia_with.
  rewrite EV. cbn [bind]. eauto.
Qed.
Lemma sides_in : forall (l l' : list (vec * vec)), (forall psi, run psi l = run psi l') -> forall s, In s l -> In s l'.
Proof.
  intros l l' H s I. specialize (H (fun a b => if vec_eq_dec a (fst s) then if vec_eq_dec b (snd s) then 1 else 0 else 0)).
  set (psi := fun a b => if vec_eq_dec a (fst s) then if vec_eq_dec b (snd s) then 1 else 0 else 0) in *.
  assert (P : forall a b, 0 <= psi a b) by (intros; unfold psi; destruct (vec_eq_dec a (fst s)), (vec_eq_dec b (snd s)); lra).
  assert (A : forall l, 0 <= run psi l).
  { clear -P. unfold run, Rsum. induction l as [|e l IH]; cbn [map fold_right]; [lra|]. specialize (P (fst e) (snd e)). lra. }
  assert (ONE : forall e, run psi [e] = psi (fst e) (snd e)) by (intros; unfold run, Rsum; cbn [map fold_right]; ring).
  assert (L : 1 <= run psi l).
  { clear H. induction l as [|e l IH]; [destruct I|]. change (e :: l) with ([e] ++ l). rewrite run_app, ONE. specialize (A l).
    destruct I as [->|I].
    - assert (psi (fst s) (snd s) = 1); [|lra]. unfold psi. destruct (vec_eq_dec (fst s) (fst s)), (vec_eq_dec (snd s) (snd s)); congruence.
    - specialize (IH I). specialize (P (fst e) (snd e)). lra. }
  rewrite H in L. clear - L ONE. induction l' as [|e l IH]; [cbn in L; lra|]. change (e :: l) with ([e] ++ l) in L. rewrite run_app, ONE in L.
  unfold psi at 1 in L. destruct (vec_eq_dec (fst e) (fst s)) as [E|E]; [destruct (vec_eq_dec (snd e) (snd s)) as [E'|E']|].
  - left. destruct e, s. cbn in *. congruence.
  - right. apply IH. lra.
  - right. apply IH. lra.
Qed.

(** The vertices of a closed polygon are the ends of its sides. *)
Lemma polygon_points : forall vs b i, closed_polygon b -> In i b -> In (point vs i) (map fst (polygon_sides vs b)).
Proof.
  intros vs b i [L E] I.
  assert (X : forall b d, (exists e, In e (pairs b) /\ i = fst e) \/ i = last b d \/ ~ In i b).
  { clear. induction b as [|x b IH]; intros d; [simpl; auto|]. destruct b as [|y b]; [simpl; destruct (Nat.eq_dec i x); subst; auto; right; right; intros [H|[]]; congruence|].
    destruct (Nat.eq_dec i x) as [->|N]; [left; exists (x, y); simpl; auto|].
    destruct (IH d) as [(e & H & H')|[H|H]]; [left; exists e; split; auto; right; exact H|right; left; exact H|right; right; intros [K|K]; congruence]. }
  assert (Y : exists e, In e (pairs b) /\ i = fst e).
  { destruct (X b 0%nat) as [H|[H|H]]; [auto| |contradiction]. rewrite <- E in H. destruct b as [|x [|y b]]; [cbn in L; lia|cbn in L; lia|].
    exists (x, y). split; [simpl; auto|]. cbn in H. auto. }
  destruct Y as (e & J & ->). unfold polygon_sides. rewrite map_map. apply in_map_iff. exists e. auto.
Qed.
Lemma polygon_points_back : forall vs b x, In x (map fst (polygon_sides vs b)) -> exists i, In i b /\ x = point vs i.
Proof.
  intros vs b x I. unfold polygon_sides in I. rewrite map_map in I. apply in_map_iff in I as ([i j] & <- & J). exists i. split; auto.
  revert J. clear. revert i j. induction b as [|a b IH]; intros i j J; [destruct J|]. destruct b as [|c b]; [destruct J|].
  destruct J as [J|J]; [injection J as <- _; simpl; auto|right; eapply IH; eauto].
Qed.

Lemma shift_area : forall vs ps ox oy, Forall closed_polygon ps ->
  run (side0 ox oy) (flat_map (polygon_sides vs) ps) = run (side0 0 0) (flat_map (polygon_sides vs) ps).
Proof.
  intros vs ps ox oy CP. set (sides := flat_map (polygon_sides vs) ps).
  assert (T : forall g, run (fun x y => g y - g x) sides = 0).
  { intros g. unfold sides. induction CP as [|p ps C CP IH]; auto. cbn [flat_map]. rewrite run_app, IH, polygon_telescope by auto. ring. }
  replace (run (side0 ox oy) sides) with (run (side0 0 0) sides + run (fun a b => (-2 * ox) * (vy b - vy a)) sides).
  - rewrite run_scale, T. ring.
  - unfold run. rewrite <- Rsum_map_add. apply Rsum_map_ext. intros [a b] _. cbn [fst snd]. unfold side0. ring.
Qed.

Section Report.
  Variables (argsort : list R -> list nat) (m : mesh) (cog : vec) (rho grav : R) (rot : mat) (z : R) (at_cog : bool) (lpp : option R) (ap : bool).
  Hypothesis SA : sorting argsort.
  Let M := placed_mesh rot z m.
  Let T := immersed_triangles sea_level close M.
  Let W := waterline sea_level close M.
  Let sumT (g : vec -> vec -> vec -> R) := Rsum (map (fun t => let '(a, b, c) := t in g a b c) T).
  Hypothesis FW : floats_well M.

  Section Result.
    Variable h : hydro.
    Hypothesis RO : is_rotation rot.
    Hypothesis EV : compute_hydrostatics argsort m cog rho grav rot z at_cog lpp ap = Ok h.
    Let B := placed rot z (h_buoyancy_center h).
    Let G := placed rot z cog.

    Record reported (k : clipper) (body : rigid) (minx maxx miny maxy : R) (box : bbox) : Prop := {
      rp_run : hydro_run argsort m cog rho grav rot z at_cog lpp ap h k body minx maxx miny maxy box;
      rp_vol : sumT (tetra vzero) <> 0;
      rp_body : body = rigid_new (rho * sumT (tetra vzero))
        (V3 (sumT (cone1 vx) / sumT (tetra vzero)) (sumT (cone1 vy) / sumT (tetra vzero)) (sumT (cone1 vz) / sumT (tetra vzero)))
        (rho * (sumT (cone2 vy vy) + sumT (cone2 vz vz))) (rho * (sumT (cone2 vx vx) + sumT (cone2 vz vz)))
        (rho * (sumT (cone2 vx vx) + sumT (cone2 vy vy)))
        (rho * sumT (cone2 vy vz)) (rho * sumT (cone2 vz vx)) (rho * sumT (cone2 vx vy)) (Some vzero)
    }.
    Lemma report : exists k body minx maxx miny maxy box, reported k body minx maxx miny maxy box.
    Proof.
      destruct (hydro_inv _ _ _ _ _ _ _ _ _ _ _ EV) as (k & body & minx & maxx & miny & maxy & box & HR).
      exists k, body, minx, maxx, miny, maxy, box. pose proof HR as HR'. destruct HR. destruct (clip_wetted argsort SA M k FW hr_clip) as (WT & FL & _).
      pose proof (hr_proper (wt_valid _ _ WT)) as P.
      assert (V0 : sumT (tetra vzero) <> 0).
      { unfold sumT, T. rewrite <- (clip_volume argsort SA M FW k hr_clip). intros E. apply hr_vol.
        rewrite (inertia_mass rho (clipped k) body (wt_valid _ _ WT) (FL P) hr_body), E. field. auto. }
      constructor; auto. pose proof (body_sums argsort SA M FW k hr_clip rho P V0) as E. rewrite hr_body in E. injection E as ->. reflexivity.
    Qed.
    Lemma volume_report : h_disp_volume h = sumT (tetra vzero) /\ h_disp_mass h = rho * h_disp_volume h /\ h_disp_volume h <> 0 /\ rho <> 0 /\ grav <> 0.
    Proof.
      destruct report as (k & body & minx & maxx & miny & maxy & box & [HR V0 EB]).
      destruct (run_fields _ _ _ _ _ _ _ _ _ _ _ _ _ _ _ _ _ _ RO HR) as (_ & A & C & _ & _ & _ & _ & _ & D & _ & R0 & G0).
      rewrite A, C, EB in *. cbn [rb_mass rigid_new] in *. repeat split; auto; field; auto.
    Qed.
    Lemma center_report : h_disp_volume h * vx B = sumT (cone1 vx) /\ h_disp_volume h * vy B = sumT (cone1 vy) /\ h_disp_volume h * vz B = sumT (cone1 vz).
    Proof.
      destruct report as (k & body & minx & maxx & miny & maxy & box & [HR V0 EB]).
      destruct volume_report as (-> & _). unfold B. rewrite (run_buoyancy _ _ _ _ _ _ _ _ _ _ _ _ _ _ _ _ _ _ RO HR), EB.
      cbn [rb_cog rigid_new vx vy vz]. repeat split; field; auto.
    Qed.
    Lemma inertia_report :
      h_Ixx h = rho * (sumT (cone2 vy vy) + sumT (cone2 vz vz)) + h_disp_mass h * (vy G * vy G + vz G * vz G) /\
      h_Iyy h = rho * (sumT (cone2 vx vx) + sumT (cone2 vz vz)) + h_disp_mass h * (vx G * vx G + vz G * vz G) /\
      h_Izz h = rho * (sumT (cone2 vx vx) + sumT (cone2 vy vy)) + h_disp_mass h * (vx G * vx G + vy G * vy G) /\
      h_Ixy h = rho * sumT (cone2 vx vy) + h_disp_mass h * (vx G * vy G) /\
      h_Ixz h = rho * sumT (cone2 vz vx) + h_disp_mass h * (vx G * vz G) /\
      h_Iyz h = rho * sumT (cone2 vy vz) + h_disp_mass h * (vy G * vz G).
    Proof.
      destruct report as (k & body & minx & maxx & miny & maxy & box & [HR V0 EB]). destruct volume_report as (A & -> & _). rewrite A.
      pose proof (run_inertia _ _ _ _ _ _ _ _ _ _ _ _ _ _ _ _ _ _ HR) as (-> & -> & -> & -> & -> & ->). rewrite EB.
      fold G. unfold rb_xx, rb_yy, rb_zz, rb_xy, rb_xz, rb_yz, shift_at_cog, set_cog, huygens, rigid_new, outer.
      cbn [rb_mat rb_mass rb_cog rb_point]. vunfold. repeat split; ring.
    Qed.
    Lemma wet_report : forall u, (forall f, In f (faces M) -> unit (u f) /\ turns_along (u f) (outline (verts M) f)) ->
      h_wet_surface_area h = Rsum (map (fun f => fan_area (u f) (immersed_fan sea_level close (outline (verts M) f))) (faces M)).
    Proof.
      intros u U. destruct report as (k & body & minx & maxx & miny & maxy & box & [HR V0 EB]). destruct HR. destruct hr_wet as (props & FP & ->).
      eapply wet_area; eauto.
    Qed.
    (** The waterplane: anything that fills the waterline. *)
    Lemma plane_sides : forall k body minx maxx miny maxy box, hydro_run argsort m cog rho grav rot z at_cog lpp ap h k body minx maxx miny maxy box ->
      forall psi, run psi (flat_map (polygon_sides (verts (clipped_crown k))) (polygons k)) = run psi W.
    Proof. intros. destruct H. apply (clip_polygons argsort SA M k FW hr_clip). Qed.
    Lemma plane_points : forall k body minx maxx miny maxy box, hydro_run argsort m cog rho grav rot z at_cog lpp ap h k body minx maxx miny maxy box ->
      forall x, In x (map (point (verts (clipped_crown k))) (concat (polygons k))) <-> In x (map fst W).
    Proof.
      intros k body minx maxx miny maxy box HR x. pose proof (plane_sides _ _ _ _ _ _ _ HR) as PS. destruct HR. clear - PS hr_closed.
      set (vs := verts (clipped_crown k)) in *.
      assert (E : In x (map (point vs) (concat (polygons k))) <-> In x (map fst (flat_map (polygon_sides vs) (polygons k)))).
      { clear PS. induction hr_closed as [|b bs C CB IH]; [tauto|]. cbn [concat flat_map]. rewrite !map_app, !in_app_iff, IH.
        assert (In x (map (point vs) b) <-> In x (map fst (polygon_sides vs b))); [|tauto]. split; intros H.
        - apply in_map_iff in H as (i & <- & I). apply polygon_points; auto.
        - apply polygon_points_back in H as (i & I & ->). apply in_map; auto. }
      rewrite E. split; intros H; apply in_map_iff in H as (s & <- & I); apply in_map; [eapply sides_in; [|exact I]; auto|].
      eapply sides_in; [|exact I]. intros. symmetry. apply PS.
    Qed.
  End Result.

  (** ** When there is a result *)
  Lemma polygons_empty : forall k, mesh_clipper argsort water vicinity_tol true M = Ok k -> (polygons k = [] <-> W = []).
  Proof.
    intros k CL. destruct (clip_polygons argsort SA M k FW CL) as (_ & CP & _ & PS). fold W in PS.
    pose proof (PS (fun _ _ => 1)) as E. unfold run in E.
    assert (L : forall l : list (vec * vec), Rsum (map (fun _ => 1) l) = INR (length l)).
    { induction l as [|e l IH]; auto. unfold Rsum in *. cbn [map fold_right length]. rewrite S_INR, IH. ring. }
    rewrite !L in E. apply INR_eq in E. split; intros H; rewrite H in E.
    - destruct W; [auto|discriminate].
    - destruct (polygons k) as [|b bs]; auto. exfalso. cbn [flat_map] in E. rewrite app_length in E. inversion CP as [|? ? [C _] _]; subst.
      destruct b as [|x [|y b]]; cbn in C; try lia. cbn in E. lia.
  Qed.
  Lemma outcomes : strict_mesh M -> let A := run (side0 0 0) W in let V := sumT (tetra vzero) in
    let out := compute_hydrostatics argsort m cog rho grav rot z at_cog lpp ap in
    (rho = 0 \/ V = 0 -> out = Raise NotANumber) /\
    (rho <> 0 -> V <> 0 -> W = [] -> out = Raise ValueError) /\
    (rho <> 0 -> V <> 0 -> W <> [] -> grav = 0 \/ A = 0 -> out = Raise NotANumber) /\
    (rho <> 0 -> V <> 0 -> grav <> 0 -> A <> 0 -> exists h, out = Ok h).
  Proof.
    intros SM. cbv zeta. destruct (floats_clip argsort SA M FW) as (k & CL). destruct (clip_wetted argsort SA M k FW CL) as (WT & FL & PR).
    specialize (PR SM). specialize (FL PR). pose proof (wt_valid _ _ WT) as VC.
    destruct (clip_polygons argsort SA M k FW CL) as (_ & CP & VP & PS). fold W in PS. pose proof (polygons_empty k CL) as PE.
    pose proof (faces_properties_ok (clipped k) VC) as FP. destruct (inertia_total rho (clipped k) VC FL) as (body & EB).
    pose proof (inertia_mass rho (clipped k) body VC FL EB) as EM. assert (EV : signed_volume vzero (clipped k) = sumT (tetra vzero)) by exact (clip_volume argsort SA M FW k CL).
    rewrite EV in EM.
    split; [|split; [|split]].
    - intros H. unfold compute_hydrostatics. cbv zeta. rewrite placed_mesh_eq. fold M. rewrite CL. cbn [bind]. rewrite FP. cbn [bind].
      rewrite (proj2 (no_normal_spec _ VC) PR), EB. cbn [bind]. destruct (Reqb rho 0) eqn:R0; auto. apply Reqb_false in R0. destruct H as [H|H]; [contradiction|].
      rewrite (proj2 (Reqb_true _ 0)); auto. rewrite EM, H. field; auto.
    - intros R0 V0 E. unfold compute_hydrostatics. cbv zeta. rewrite placed_mesh_eq. fold M. rewrite CL. cbn [bind]. rewrite FP. cbn [bind].
      rewrite (proj2 (no_normal_spec _ VC) PR), EB. cbn [bind]. rewrite (proj2 (Reqb_false rho 0) R0). rewrite (proj2 (Reqb_false _ 0)).
      2: { rewrite EM. replace (rho * sumT (tetra vzero) / rho) with (sumT (tetra vzero)) by (field; auto). auto. }
      apply PE in E. rewrite E. reflexivity.
    - intros R0 V0 N H. unfold compute_hydrostatics. cbv zeta. rewrite placed_mesh_eq. fold M. rewrite CL. cbn [bind]. rewrite FP. cbn [bind].
      rewrite (proj2 (no_normal_spec _ VC) PR), EB. cbn [bind]. rewrite (proj2 (Reqb_false rho 0) R0). rewrite (proj2 (Reqb_false _ 0)).
      2: { rewrite EM. replace (rho * sumT (tetra vzero) / rho) with (sumT (tetra vzero)) by (field; auto). auto. }
      assert (V' : Forall (fun p => p <> [] /\ Forall (fun i => (i < length (verts (clipped_crown k)))%nat) p) (polygons k)).
      { rewrite Forall_forall in *. intros p I. split; auto. destruct (CP p I) as [L _]. intros ->. cbn in L. lia. }
      pose proof (add_polygons_ok _ at_cog (rb_cog body) _ no_sums V') as E.
      destruct (origin_of at_cog (rb_cog body)) as [ox oy] eqn:O. destruct E as (es & E & X). rewrite E. cbn [bind].
      assert (NS : es <> []) by (intros ->; inversion X; apply N, PE; auto).
      destruct (arr_min_spec (map e_xmin es)) as (a1 & -> & _); [destruct es; [congruence|discriminate]|].
      destruct (arr_max_spec (map e_xmax es)) as (a2 & -> & _); [destruct es; [congruence|discriminate]|].
      destruct (arr_min_spec (map e_ymin es)) as (a3 & -> & _); [destruct es; [congruence|discriminate]|].
      destruct (arr_max_spec (map e_ymax es)) as (a4 & -> & _); [destruct es; [congruence|discriminate]|]. cbn [bind].
      cbn [scale_sums g0 g1 g2 g3 g4 g5 plus_sums no_sums]. rewrite !Rplus_0_l.
      match goal with |- context [Reqb ?x 0] => assert (Z : x = 0); [|rewrite (proj2 (Reqb_true _ 0) Z); reflexivity] end.
      destruct H as [->|H]; [ring|]. rewrite shift_area by auto. rewrite PS, H. field.
    - intros R0 V0 G0 A0. apply (hydro_ok argsort m cog rho grav rot z at_cog lpp ap k body (map (props_of (verts (clipped k))) (faces (clipped k)))); auto.
      + rewrite EM. apply Rmult_integral_contrapositive; auto.
      + intros E. apply PE in E. apply A0. rewrite E. reflexivity.
      + rewrite PS. auto.
  Qed.
End Report.

(** ** Linear combinations of fluxes *)
Lemma flux_linear : forall phi psi k ts I J, is_flux phi ts I -> is_flux psi ts J -> is_flux (fun x n => phi x n + k * psi x n) ts (I + k * J).
Proof.
  intros phi psi k ts I J (v & F & <-) (w & G & <-).
  cut (exists s, Forall2 (fun t x => let '(a, b, c) := t in is_unit_triangle_integral (fun u v => phi (triangle_point a b c u v) (triangle_normal a b c) + k * psi (triangle_point a b c u v) (triangle_normal a b c)) x) ts s /\ Rsum s = Rsum v + k * Rsum w).
  { intros (s & S & E). exists s. split; auto. }
  revert w G. induction F as [|[[a b] c] x ts v H F IH]; intros w G; inversion G as [|? y ? w' H' G']; subst.
  - exists []. split; [constructor|]. cbn. ring.
  - destruct (IH _ G') as (s & S & E). exists ((x + k * y) :: s). split.
    + constructor; auto. apply (triangle_linear _ _ k _ _ H H').
    + unfold Rsum in *. cbn [fold_right]. rewrite E. ring.
Qed.
Lemma flux_ext : forall phi psi ts I J, (forall x n, phi x n = psi x n) -> I = J -> is_flux phi ts I -> is_flux psi ts J.
Proof.
  intros phi psi ts I J E <- (v & F & S). exists v. split; auto. clear S. induction F as [|[[a b] c] x ts v H F IH]; constructor; auto.
  eapply triangle_ext; [| |exact H]; auto. intros. cbv beta. rewrite E. auto.
Qed.
Lemma flux_scale : forall k phi ts I, is_flux phi ts I -> is_flux (fun x n => k * phi x n) ts (k * I).
Proof. intros k phi ts I H. eapply flux_ext; [| |apply (flux_linear _ _ (k - 1) _ _ _ H H)]; [intros; cbv beta; ring|ring]. Qed.

Section Forces.
  Variables (argsort : list R -> list nat) (M : mesh).
  Hypothesis SA : sorting argsort.
  Hypothesis FW : floats_well M.
  Let T := immersed_triangles sea_level close M.
  Let sumT (g : vec -> vec -> vec -> R) := Rsum (map (fun t => let '(a, b, c) := t in g a b c) T).
  Let V := sumT (tetra vzero).
  Let F (q : vec -> R) (I : R) := is_flux (fun x n => vz x * q n) T I.
  Let D (p q : vec -> R) (I : R) := is_flux (fun x n => vz x * (p x * q n)) T I.
  Lemma force_flux : forall q, component q -> is_flux (fun x n => vz x * q n) T (sumT (press vz (fun _ => 1) q)).
  Proof. intros q Q. apply (flux_sum (fun x n => vz x * q n)). intros. apply press1_int; auto. Qed.
  Lemma moment_flux : forall p q, component p -> is_flux (fun x n => vz x * (p x * q n)) T (sumT (press vz p q)).
  Proof. intros p q P. apply (flux_sum (fun x n => vz x * (p x * q n))). intros. apply press2_int; auto. Qed.
  Lemma buoyancy_force : F vx 0 /\ F vy 0 /\ F vz V.
  Proof.
    destruct (floats_clip argsort SA M FW) as (k & CL). destruct (sea_force argsort SA M FW k CL) as (A & B & C). unfold F.
    split; [|split]; (eapply flux_ext; [reflexivity| |apply force_flux; unfold component; auto]); auto.
  Qed.
  Lemma buoyancy_moment : D vy vz (sumT (cone1 vy)) /\ D vx vz (sumT (cone1 vx)) /\ D vz vy 0 /\ D vz vx 0 /\ D vx vy 0 /\ D vy vx 0.
  Proof.
    destruct (floats_clip argsort SA M FW) as (k & CL). destruct (sea_moment argsort SA M FW k CL) as (A1 & A2 & A3 & A4 & A5 & A6). unfold D.
    repeat match goal with |- _ /\ _ => split end; (eapply flux_ext; [reflexivity| |apply moment_flux; unfold component; auto]); auto.
  Qed.
  (** Moments about any point. *)
  Lemma moment_about : forall k q,
    is_flux (fun x n => (vy x - vy q) * (k * vz x * vz n) - (vz x - vz q) * (k * vz x * vy n)) T (k * (sumT (cone1 vy) - vy q * V)) /\
    is_flux (fun x n => (vz x - vz q) * (k * vz x * vx n) - (vx x - vx q) * (k * vz x * vz n)) T (k * (vx q * V - sumT (cone1 vx))) /\
    is_flux (fun x n => (vx x - vx q) * (k * vz x * vy n) - (vy x - vy q) * (k * vz x * vx n)) T 0.
  Proof.
    intros k q. destruct buoyancy_force as (FX & FY & FZ). destruct buoyancy_moment as (A1 & A2 & A3 & A4 & A5 & A6). unfold F, D in *.
    split; [|split].
    - eapply flux_ext; [| |exact (flux_scale k _ _ _ (flux_linear _ _ (vz q) _ _ _ (flux_linear _ _ (- vy q) _ _ _ (flux_linear _ _ (-1) _ _ _ A1 A3) FZ) FY))]; [intros; cbv beta; ring|ring].
    - eapply flux_ext; [| |exact (flux_scale k _ _ _ (flux_linear _ _ (vx q) _ _ _ (flux_linear _ _ (- vz q) _ _ _ (flux_linear _ _ (-1) _ _ _ A4 A2) FX) FZ))]; [intros; cbv beta; ring|ring].
    - eapply flux_ext; [| |exact (flux_scale k _ _ _ (flux_linear _ _ (vy q) _ _ _ (flux_linear _ _ (- vx q) _ _ _ (flux_linear _ _ (-1) _ _ _ A5 A6) FY) FX))]; [intros; cbv beta; ring|ring].
  Qed.
  Lemma normal_flux : is_flux (fun _ n => vz n) T (- run (fun a b => / 2 * (vx a * vy b - vy a * vx b)) (waterline sea_level close M)).
  Proof.
    destruct (floats_clip argsort SA M FW) as (k & CL). rewrite <- (sea_projection argsort SA M FW k CL).
    apply (flux_sum (fun x n => vz n)). intros. apply press0_int; unfold component; auto.
  Qed.
End Forces.
