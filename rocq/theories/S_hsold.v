(** Specification of the bodies of hydrostatics_old.py: the loads they carry, rigid motions, and what their data must be. *)
From Coq Require Import Reals List Arith ZArith Bool.
From Verif Require Import M_base M_rotations S_rotations M_mesh M_clipper M_hydro S_hydro M_hsold.
Import ListNotations.
Open Scope R_scope.

(** ** Loads *)
Record load := mkLoad { l_point : vec; l_value : vec; l_follows : bool }.
Definition load_of (w : world) (i : nat) : load := let f := object w i in mkLoad (array w (f_point f)) (f_value f) (f_relative f).
Definition loads (u : hull) : list load := map (load_of (u_world u)) (u_forces u).
(** Carried along by a rigid motion: the direction turns only when it follows the body. *)
Definition carried (q : mat) (t : vec) (l : load) : load :=
  mkLoad (vadd (mvec q (l_point l)) t) (if l_follows l then mvec q (l_value l) else l_value l) (l_follows l).
(** The vertical force, and the moments of the force about the axes Ox and Oy *)
Definition moment (l : load) : vec := cross (l_point l) (l_value l).
Definition vertical_load (l : load) : vec := V3 (vz (l_value l)) (vx (moment l)) (vy (moment l)).
Definition total (l : list load) : vec := fold_right vadd vzero (map vertical_load l).

(** No array and no force is shared. *)
Definition point_refs (w : world) (l : list nat) : list nat := map (fun i => f_point (object w i)) l.
Definition own_loads (w : world) (l : list nat) : Prop :=
  Forall (fun i => (i < length (objects w))%nat) l /\ NoDup l /\
  Forall (fun r => (r < length (arrays w))%nat) (point_refs w l) /\ NoDup (point_refs w l).
Definition apart (u : hull) : Prop :=
  own_loads (u_world u) (u_forces u) /\ (u_cog u < length (arrays (u_world u)))%nat /\ ~ In (u_cog u) (point_refs (u_world u) (u_forces u)).

(** ** Motions *)
(** The mesh, the center of gravity and the loads have moved together. *)
Record moved (q : mat) (t : vec) (u u' : hull) : Prop := {
  mv_mesh : u_mesh u' = mkMesh (map (fun v => vadd (mvec q v) t) (verts (u_mesh u))) (faces (u_mesh u));
  mv_cog : gravity_center u' = vadd (mvec q (gravity_center u)) t;
  mv_loads : loads u' = map (carried q t) (loads u) }.
(** What motions do not change *)
Record same_body (u u' : hull) : Prop := {
  sb_init : u_init_mesh u' = u_init_mesh u;
  sb_water : u_rho u' = u_rho u /\ u_gravity u' = u_gravity u /\ u_rhog u' = u_rhog u;
  sb_mass : u_mass u' = u_mass u /\ u_mg u' = u_mg u;
  sb_solver : u_solver u' = u_solver u }.

(** ** Data *)
(** The newer module reports the forward perpendicular with the abscissa of the buoyancy center added, and both report the
    inertia of the water about the origin plus the terms of a transport, here from the origin to the buoyancy center, there to the
    center of gravity. *)
Definition transported (d : data) (h : hydro) : Prop :=
  let b := d_buoyancy d in let g := h_cog h in let w := d_mass d in
  d_Ixx d = h_Ixx h + w * (vy b * vy b + vz b * vz b - vy g * vy g - vz g * vz g) /\
  d_Iyy d = h_Iyy h + w * (vx b * vx b + vz b * vz b - vx g * vx g - vz g * vz g) /\
  d_Izz d = h_Izz h + w * (vx b * vx b + vy b * vy b - vx g * vx g - vy g * vy g) /\
  d_Ixy d = h_Ixy h + w * (vx b * vy b - vx g * vy g) /\
  d_Ixz d = h_Ixz h + w * (vx b * vz b - vx g * vz g) /\
  d_Iyz d = h_Iyz h + w * (vy b * vz b - vy g * vz g).
(** The data agree with those of the module hydrostatics for the same mesh. *)
Record agree (d : data) (h : hydro) : Prop := {
  ag_wet : d_wet_surface_area d = h_wet_surface_area h;
  ag_volume : d_volume d = h_disp_volume h;
  ag_mass : d_mass d = h_disp_mass h;
  ag_buoyancy : d_buoyancy d = h_buoyancy_center h;
  ag_flotation : d_flotation d = h_waterplane_center h;
  ag_area : d_waterplane_area d = h_waterplane_area h;
  ag_radii : d_transversal_radius d = h_transversal_metacentric_radius h /\ d_longitudinal_radius d = h_longitudinal_metacentric_radius h;
  ag_heights : d_gm_x d = h_transversal_metacentric_height h /\ d_gm_y d = h_longitudinal_metacentric_height h;
  ag_stiffness : d_stiffness d = h_stiffness_matrix h;
  ag_waterline : d_lwl d = h_length_at_waterline h /\ d_breadth d = h_breadth_at_waterline h;
  ag_submerged : d_los d = h_length_overall_submerged h /\ d_bos d = h_breadth_overall_submerged h /\ d_draught d = h_draught h;
  ag_perpendicular : h_forward_perpendicular h = d_fp d + vx (d_buoyancy d);
  ag_inertia : transported d h }.
Section Current.
  Variable argsort : list R -> list nat.
  Definition at_rest_in (m : mesh) (cog : vec) (rho grav : R) : res hydro := compute_hydrostatics argsort m cog rho grav mid 0 false None false.
  (** The data are those of the present mesh, center of gravity, water and mass. *)
  Definition up_to_date (u : hull) : Prop :=
    (exists h, at_rest_in (u_mesh u) (gravity_center u) (u_rho u) (u_gravity u) = Ok h /\ agree (u_data u) h) /\
    u_rhog u = u_rho u * u_gravity u /\ u_mg u = u_mass u * u_gravity u.
  (** The clipper that is kept is that of the present mesh. *)
  Definition fresh_clipper (u : hull) : Prop := forall k, u_clipper u = Some k -> clip_mesh argsort (u_mesh u) = Ok k.
End Current.

(** ** Balance *)
(** Weight, buoyancy and loads: the vertical force and the moments about Ox and Oy *)
Definition unbalance (u : hull) : vec :=
  vadd (total (loads u))
    (vadd (vertical_load (mkLoad (d_buoyancy (u_data u)) (V3 0 0 (u_rhog u * d_volume (u_data u))) false))
          (vertical_load (mkLoad (gravity_center u) (V3 0 0 (- u_mg u)) false))).
Definition within (tol x s : R) : Prop := s <> 0 /\ Rabs x < tol * Rabs s.
Definition in_balance (tol : R) (u : hull) : Prop := let r := unbalance u in
  within tol (vx r) (u_mg u) /\ within tol (vy r) (u_mg u * d_breadth (u_data u)) /\ within tol (vz r) (u_mg u * d_lwl (u_data u)).
Definition stable (u : hull) : Prop := 0 < d_gm_x (u_data u) /\ 0 < d_gm_y (u_data u).

(** The verdict of a code of equilibrate, for the body where the search ended *)
Definition verdict (code : nat) (u : hull) : Prop :=
  let tol := p_reltol (u_solver u) in let stop := p_stop_at_unstable (u_solver u) in
  (code = 1%nat /\ in_balance tol u /\ stable u) \/ (code = 2%nat /\ stop = true /\ in_balance tol u /\ ~ stable u) \/
  (code = 0%nat /\ (~ in_balance tol u \/ (stop = false /\ in_balance tol u /\ ~ stable u))).

(** ** Search in height *)
(** The vertical force left at the height [z], for loads whose vertical part is [f] *)
Section Lift.
  Variables (eval : R -> res hydro) (rhog mg f reltol bound : R).
  Definition excess (hs : hydro) : R := rhog * h_disp_volume hs - mg + f.
  Definition lifted (hs : hydro) : Prop := within reltol (excess hs) mg.
  Definition lift_step (z z' : R) : Prop := exists hs, eval z = Ok hs /\ ~ lifted hs /\ z' = z + clamp bound (excess hs / (rhog * h_waterplane_area hs)).
End Lift.
(** Hydrostatics of a body raised by [z] *)
Definition raised_hydro (argsort : list R -> list nat) (u : hull) (z : R) : res hydro :=
  at_rest_in argsort (placed_mesh mid z (u_mesh u)) (placed mid z (gravity_center u)) (u_rho u) (u_gravity u).
Definition lift_search (argsort : list R -> list nat) (u : hull) : R -> R -> Prop :=
  lift_step (raised_hydro argsort u) (u_rhog u) (u_mg u) (vx (total (loads u))) (p_reltol (u_solver u)) (p_z_relax (u_solver u)).

(** ** Parameters of the solver *)
Record in_range (p : solver) : Prop := {
  ir_reltol : 0 < p_reltol p < 1; ir_theta : 0 < p_theta_relax p < 10; ir_z : 0 < p_z_relax p < 1; ir_iterations : (1 <= p_itermax p)%nat }.

(** ** Calls on a body *)
Inductive call :=
| CGravity (g : R) | CWater (r : R) | CMass (t : R) | CCenter (v : vec) | CZg (z : R) | CDisplacement (t : R) | CReset
| CForce (point value : vec) (relative : bool)
| CReltol (x : R) | CThetaRelax (x : R) | CZRelax (x : R) | CMaxIterations (n : Z) | CMaxRestart (n : Z) | CAllowUnstable (b : bool).
Section Calls.
  Variable argsort : list R -> list nat.
  (** A force is made from a point of its own and added. *)
  Definition add_new_force (point value : vec) (relative : bool) : method unit := fun u =>
    let (w, r) := alloc point (u_world u) in
    let (w, i) := new_force r value relative w in
    add_force i (with_world w u).
  Definition perform (c : call) : method unit :=
    match c with
    | CGravity g => set_gravity argsort g | CWater r => set_rho_water argsort r | CMass t => set_mass t
    | CCenter v => set_gravity_center argsort v | CZg z => set_zg argsort z
    | CDisplacement t => run _ <- set_displacement argsort t; return_ tt
    | CReset => reset argsort | CForce p v b => add_new_force p v b
    | CReltol x => set_reltol x | CThetaRelax x => set_theta_relax x | CZRelax x => set_z_relax x
    | CMaxIterations n => set_max_iterations n | CMaxRestart n => set_max_restart n | CAllowUnstable b => set_allow_unstable b
    end.
  Inductive history : hull -> hull -> Prop :=
  | history_none : forall u, history u u
  | history_call : forall u u' u'' c, history u u' -> perform c u' = (Ok tt, u'') -> history u u''.
  (** The calls are all of a kind. *)
  Inductive history_with (kind : call -> Prop) : hull -> hull -> Prop :=
  | with_none : forall u, history_with kind u u
  | with_call : forall u u' u'' c, history_with kind u u' -> kind c -> perform c u' = (Ok tt, u'') -> history_with kind u u''.
  (** The value that a call asks for is allowed; what it makes of the parameters *)
  Definition allowed (c : call) : Prop :=
    match c with
    | CReltol x | CZRelax x => 0 < x < 1 | CThetaRelax x => 0 < x < 10 | CMaxIterations n => (1 <= n)%Z | CMaxRestart n => (0 <= n)%Z | _ => True
    end.
  Definition asked (c : call) (p : solver) : solver :=
    let '(mkSolver r i n t z b) := p in
    match c with
    | CReltol x => mkSolver x i n t z b | CMaxIterations k => mkSolver r (Z.to_nat k) n t z b | CMaxRestart k => mkSolver r i (Z.to_nat k) t z b
    | CThetaRelax x => mkSolver r i n x z b | CZRelax x => mkSolver r i n t x b | CAllowUnstable b => mkSolver r i n t z b
    | _ => p
    end.
  Definition of_solver (c : call) : Prop :=
    match c with CReltol _ | CThetaRelax _ | CZRelax _ | CMaxIterations _ | CMaxRestart _ | CAllowUnstable _ => True | _ => False end.
End Calls.
