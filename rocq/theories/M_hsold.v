(** Model of meshmagick/hydrostatics_old.py: the classes Force and Hydrostatics, but the report (lines 1193-1290) and the
    viewer. Python objects that can be shared are kept in two stores: arrays of three floats (points of application, centers
    of gravity), which some statements change in place, and forces. Simplifications: printing is dropped; names of forces are
    dropped; meshes are plain, as the motions used here keep their caches right (C24); the center of buoyancy is not shared
    with the force of line 744; a method that raises leaves the object as it is then, which is returned too. *)
From Coq Require Import Reals List Arith ZArith Bool.
From Verif Require Import M_base M_rotations M_plane M_merge M_mesh M_inertia M_geometry M_clipper M_hydro.
Import ListNotations.
Open Scope R_scope.

(** ** Forces *)
(** hydrostatics_old.py:44-52: [f_point] is the place of the array of the point in the store. The vector [f_value] is never
    changed in place. *)
Record force := mkForce { f_point : nat; f_value : vec; f_relative : bool }.
Record world := mkWorld { arrays : list vec; objects : list force }.
Definition array (w : world) (r : nat) : vec := nth r (arrays w) vzero.
Definition object (w : world) (i : nat) : force := nth i (objects w) (mkForce 0 vzero false).
Definition store (r : nat) (v : vec) (w : world) : world := mkWorld (set_nth (arrays w) r v) (objects w).
Definition alloc (v : vec) (w : world) : world * nat := (mkWorld (arrays w ++ [v]) (objects w), length (arrays w)).

(** hydrostatics_old.py:44-52 Force.__init__ with an array that exists already; np.asarray does not copy it. The list or tuple
    of another caller is an array of its own. *)
Definition new_force (point : nat) (value : vec) (relative : bool) (w : world) : world * nat :=
  (mkWorld (arrays w) (objects w ++ [mkForce point value relative]), length (objects w)).

(** hydrostatics_old.py:58-72 Force.update: the array of the point is changed in place, then replaced. *)
Definition raise_by (dz : R) (v : vec) : vec := V3 (vx v) (vy v) (vz v + dz).
Definition update_force (dz : R) (rot : mat) (w : world) (i : nat) : world :=
  let f := object w i in
  let p := raise_by dz (array w (f_point f)) in
  let (w, r) := alloc (mvec rot p) (store (f_point f) p w) in
  mkWorld (arrays w) (set_nth (objects w) i (mkForce r (if f_relative f then mvec rot (f_value f) else f_value f) (f_relative f))).

(** hydrostatics_old.py:74-87 Force.update_xy *)
Definition update_force_xy (dx dy : R) (w : world) (i : nat) : world :=
  let r := f_point (object w i) in
  let p := array w r in
  store r (V3 (vx p + dx) (vy p + dy) (vz p)) w.

(** hydrostatics_old.py:89-102 Force.hs_force *)
Definition hs_force (w : world) (i : nat) : vec :=
  let f := object w i in
  let m := cross (array w (f_point f)) (f_value f) in
  V3 (vz (f_value f)) (vx m) (vy m).

(** ** Hydrostatics *)
(** hydrostatics_old.py:157-162 *)
Record solver := mkSolver { p_reltol : R; p_itermax : nat; p_max_restart : nat; p_theta_relax : R; p_z_relax : R; p_stop_at_unstable : bool }.
Definition default_solver : solver := mkSolver (1 / 10000) 1000 10 2 (1 / 10) false.

(** hydrostatics_old.py:678-703, hs_data without the clipper *)
Record data := mkData {
  d_wet_surface_area : R; d_volume : R; d_mass : R; d_buoyancy : vec; d_flotation : vec; d_waterplane_area : R;
  d_transversal_radius : R; d_longitudinal_radius : R; d_gm_x : R; d_gm_y : R; d_stiffness : mat;
  d_lwl : R; d_los : R; d_bos : R; d_draught : R; d_fp : R; d_breadth : R;
  d_Ixx : R; d_Iyy : R; d_Izz : R; d_Ixy : R; d_Ixz : R; d_Iyz : R }.

(** hydrostatics_old.py:570-703: the data for a clipped mesh. Lines 574-577 save the mesh and raise Exception when a face is
    too small. *)
Definition properties (k : clipper) (rho rhog zg : R) : res data :=
  let cmesh := clipped k in
  do props <- faces_properties cmesh;
  if existsb (fun p => Rltb (Rabs (fp_area p)) (1 / 10000000000)) props then Raise PlainException else
  let wet := Rsum (map fp_area props) in
  do inertia <- eval_plain_mesh_inertias rho cmesh;
  let b := rb_cog inertia in
  let vol := rb_mass inertia / rho in
  do (s, es) <- add_polygons (verts (clipped_crown k)) false b no_sums (polygons k);
  do minx <- arr_min (map e_xmin es); do maxx <- arr_max (map e_xmax es);
  do miny <- arr_min (map e_ymin es); do maxy <- arr_max (map e_ymax es);
  let sg := scale_sums s in
  let area := g0 sg in
  let s33 := rhog * area in
  let s34 := rhog * g2 sg in
  let s35 := - rhog * g1 sg in
  let s45 := - rhog * g3 sg in
  let rt := g5 sg / vol in
  let rl := g4 sg / vol in
  let a := zg - vz b in
  let gm_x := rt - a in
  let gm_y := rl - a in
  let s44 := rhog * vol * gm_x in
  let s55 := rhog * vol * gm_y in
  let stiffness := M3 (zero_tiny s33) (zero_tiny s34) (zero_tiny s35)
                      (zero_tiny s34) (zero_tiny s44) (zero_tiny s45)
                      (zero_tiny s35) (zero_tiny s45) (zero_tiny s55) in
  do box <- axis_aligned_bbox cmesh;
  if existsb (no_normal (verts cmesh)) (faces cmesh) || Reqb rho 0 || Reqb vol 0 || Reqb s33 0 then Raise NotANumber else
  let body := shift_at_cog inertia in
  Ok (mkData wet vol (rho * vol) b (V3 (- s35 / s33) (s34 / s33) 0) area rt rl gm_x gm_y stiffness
        (maxx - minx) (xmax box - xmin box) (ymax box - ymin box) (Rabs (zmin box)) maxx (maxy - miny)
        (rb_xx body) (rb_yy body) (rb_zz body) (rb_xy body) (rb_xz body) (rb_yz body)).

(** The attributes, hydrostatics_old.py:139-181. [u_cog] and [u_backup] are the places of the arrays _gravity_center and
    backup['gravity_center']; [u_clipper] is hs_data['clipper'], if any. *)
Record hull := mkHull {
  u_world : world; u_init_mesh : mesh; u_mesh : mesh; u_cog : nat; u_backup : nat;
  u_rho : R; u_gravity : R; u_rhog : R; u_mass : R; u_mg : R;
  u_solver : solver; u_clipper : option clipper; u_data : data; u_rotation : mat; u_forces : list nat }.

Definition with_world w u := mkHull w (u_init_mesh u) (u_mesh u) (u_cog u) (u_backup u) (u_rho u) (u_gravity u) (u_rhog u) (u_mass u) (u_mg u) (u_solver u) (u_clipper u) (u_data u) (u_rotation u) (u_forces u).
Definition with_mesh m u := mkHull (u_world u) (u_init_mesh u) m (u_cog u) (u_backup u) (u_rho u) (u_gravity u) (u_rhog u) (u_mass u) (u_mg u) (u_solver u) (u_clipper u) (u_data u) (u_rotation u) (u_forces u).
Definition with_cog r u := mkHull (u_world u) (u_init_mesh u) (u_mesh u) r (u_backup u) (u_rho u) (u_gravity u) (u_rhog u) (u_mass u) (u_mg u) (u_solver u) (u_clipper u) (u_data u) (u_rotation u) (u_forces u).
Definition with_backup r u := mkHull (u_world u) (u_init_mesh u) (u_mesh u) (u_cog u) r (u_rho u) (u_gravity u) (u_rhog u) (u_mass u) (u_mg u) (u_solver u) (u_clipper u) (u_data u) (u_rotation u) (u_forces u).
Definition with_water rho g rhog u := mkHull (u_world u) (u_init_mesh u) (u_mesh u) (u_cog u) (u_backup u) rho g rhog (u_mass u) (u_mg u) (u_solver u) (u_clipper u) (u_data u) (u_rotation u) (u_forces u).
Definition with_mass m mg u := mkHull (u_world u) (u_init_mesh u) (u_mesh u) (u_cog u) (u_backup u) (u_rho u) (u_gravity u) (u_rhog u) m mg (u_solver u) (u_clipper u) (u_data u) (u_rotation u) (u_forces u).
Definition with_solver p u := mkHull (u_world u) (u_init_mesh u) (u_mesh u) (u_cog u) (u_backup u) (u_rho u) (u_gravity u) (u_rhog u) (u_mass u) (u_mg u) p (u_clipper u) (u_data u) (u_rotation u) (u_forces u).
Definition with_clipper k u := mkHull (u_world u) (u_init_mesh u) (u_mesh u) (u_cog u) (u_backup u) (u_rho u) (u_gravity u) (u_rhog u) (u_mass u) (u_mg u) (u_solver u) k (u_data u) (u_rotation u) (u_forces u).
Definition with_data d u := mkHull (u_world u) (u_init_mesh u) (u_mesh u) (u_cog u) (u_backup u) (u_rho u) (u_gravity u) (u_rhog u) (u_mass u) (u_mg u) (u_solver u) (u_clipper u) d (u_rotation u) (u_forces u).
Definition with_rotation r u := mkHull (u_world u) (u_init_mesh u) (u_mesh u) (u_cog u) (u_backup u) (u_rho u) (u_gravity u) (u_rhog u) (u_mass u) (u_mg u) (u_solver u) (u_clipper u) (u_data u) r (u_forces u).
Definition with_forces l u := mkHull (u_world u) (u_init_mesh u) (u_mesh u) (u_cog u) (u_backup u) (u_rho u) (u_gravity u) (u_rhog u) (u_mass u) (u_mg u) (u_solver u) (u_clipper u) (u_data u) (u_rotation u) l.

(** A method: its result, and the object afterwards *)
Definition method (A : Type) := hull -> res A * hull.
Definition return_ {A} (a : A) : method A := fun u => (Ok a, u).
Definition raise_ {A} (e : exn) : method A := fun u => (Raise e, u).
Definition modify (f : hull -> hull) : method unit := fun u => (Ok tt, f u).
Definition read {A} (f : hull -> A) : method A := fun u => (Ok (f u), u).
Definition seq_ {A B} (m : method A) (f : A -> method B) : method B :=
  fun u => match m u with (Ok a, u') => f a u' | (Raise e, u') => (Raise e, u') end.
Notation "'run' x <- m ; f" := (seq_ m (fun x => f)) (at level 200, x pattern, m at level 100, f at level 200).

(** hydrostatics_old.py:250-279: gravity_center and zg *)
Definition gravity_center (u : hull) : vec := array (u_world u) (u_cog u).
Definition zg (u : hull) : R := vz (gravity_center u).
(** hydrostatics_old.py:221-224: mass, in tons *)
Definition mass (u : hull) : R := u_mass u / 1000.
Definition write_cog (v : vec) (u : hull) : hull := with_world (store (u_cog u) v (u_world u)) u.
Definition replace_cog (v : vec) (u : hull) : hull := let (w, r) := alloc v (u_world u) in with_cog r (with_world w u).

(** hydrostatics_old.py:758-765 _scale, and 767-791 residual *)
Definition scale_of (u : hull) : vec := V3 (u_mg u) (u_mg u * d_breadth (u_data u)) (u_mg u * d_lwl (u_data u)).
Definition residual (u : hull) : vec :=
  let rhogv := u_rhog u * d_volume (u_data u) in
  let mg := u_mg u in
  let b := d_buoyancy (u_data u) in
  let g := gravity_center u in
  fold_left (fun r i => vadd r (hs_force (u_world u) i)) (u_forces u)
    (V3 (rhogv - mg) (rhogv * vy b - mg * vy g) (- rhogv * vx b + mg * vx g)).
(** hydrostatics_old.py:379-396 is_at_equilibrium, and the same test at line 1134 *)
Definition is_at_equilibrium (u : hull) : bool :=
  let r := residual u in let sc := scale_of u in let tol := p_reltol (u_solver u) in
  ratio_below (vx r) (vx sc) tol && ratio_below (vy r) (vy sc) tol && ratio_below (vz r) (vz sc) tol.
(** hydrostatics_old.py:352-377 *)
Definition is_stable_in_roll (u : hull) : bool := Rltb 0 (d_gm_x (u_data u)).
Definition is_stable_in_pitch (u : hull) : bool := Rltb 0 (d_gm_y (u_data u)).
Definition isstable (u : hull) : bool := is_stable_in_pitch u && is_stable_in_roll u.

(** hydrostatics_old.py:727-744. The point of the weight is the array of the center of gravity itself. *)
Definition get_gravity_force (u : hull) : force := mkForce (u_cog u) (V3 0 0 (- (u_mass u * u_gravity u))) false.
Definition buoyancy_value (u : hull) : vec := V3 0 0 (u_rho u * u_gravity u * d_volume (u_data u)).

Section Old.
  Variable argsort : list R -> list nat.

  (** hydrostatics_old.py:561-567: MeshClipper(self.mesh, assert_closed_boundaries=True) *)
  Definition clip_mesh (m : mesh) : res clipper := mesh_clipper argsort water vicinity_tol true m.

  (** hydrostatics_old.py:543-703 _reinit_clipper and _update_hydrostatic_properties *)
  Definition reinit_clipper : method unit := modify (with_clipper None).
  Definition the_clipper : method clipper := fun u =>
    match u_clipper u with
    | Some k => (Ok k, u)
    | None => match clip_mesh (u_mesh u) with Ok k => (Ok k, with_clipper (Some k) u) | Raise e => (Raise e, u) end
    end.
  Definition update_properties : method unit :=
    run k <- the_clipper;
    fun u => match properties k (u_rho u) (u_rhog u) (zg u) with
             | Ok d => (Ok tt, with_data d u)
             | Raise e => (Raise e, u)
             end.

  (** hydrostatics_old.py:235-248: a comparison with a NaN is False. *)
  Definition is_sinking : method bool := fun u =>
    if existsb (no_normal (verts (u_mesh u))) (faces (u_mesh u)) then (Ok false, u) else
    match volume (u_mesh u) with
    | Ok v => (Ok (Rltb (u_rho u * v) (u_mass u)), u)
    | Raise e => (Raise e, u)
    end.
  (** hydrostatics_old.py:226-233, setter of mass: _mass is changed even when the value is refused. *)
  Definition set_mass (tons : R) : method unit :=
    run _ <- modify (fun u => with_mass (tons * 1000) (tons * 1000 * u_gravity u) u);
    run b <- is_sinking;
    if b then raise_ ValueError else return_ tt.

  (** hydrostatics_old.py:139-181 __init__: a list or tuple, or an array that is copied, for [cog]. A mass that is given is
      first multiplied by 1000 here, and again in the setter. *)
  Definition no_data : data := mkData 0 0 0 vzero vzero 0 0 0 0 0 mid 0 0 0 0 0 0 0 0 0 0 0 0.
  Definition hydrostatics (w : world) (m : mesh) (cog : vec) (tons : option R) (rho grav : R) : res hull :=
    let (w, backup) := alloc cog w in
    let (w, r) := alloc cog w in
    let u := mkHull w m m r backup rho grav (rho * grav) 0 0 default_solver None no_data mid [] in
    match update_properties u with
    | (Raise e, _) => Raise e
    | (Ok _, u) =>
        match match tons with Some t => if Reqb t 0 then None else Some t | None => None end with
        | Some t =>
            match set_mass (t * 1000) u with
            | (Ok _, u) => Ok (with_mass (u_mass u) (u_mass u * u_gravity u) u)
            | (Raise e, _) => Raise e
            end
        | None => Ok (with_mass (d_mass (u_data u)) (d_mass (u_data u) * u_gravity u) u)
        end
    end.

  (** hydrostatics_old.py:201-219, setters of gravity and rho_water *)
  Definition set_gravity (g : R) : method unit :=
    run _ <- modify (fun u => with_mass (u_mass u) (u_mass u * g) (with_water (u_rho u) g (u_rho u * g) u));
    update_properties.
  Definition set_rho_water (r : R) : method unit :=
    run _ <- modify (fun u => with_water r (u_gravity u) (r * u_gravity u) u);
    update_properties.
  (** hydrostatics_old.py:260-267, setter of gravity_center, for an array of floats and for another sequence. Both attributes
      are the same array. *)
  Definition set_gravity_array (r : nat) : method unit :=
    run _ <- modify (fun u => with_cog r (with_backup r u));
    update_properties.
  Definition set_gravity_center (v : vec) : method unit :=
    fun u => let (w, r) := alloc v (u_world u) in set_gravity_array r (with_world w u).
  (** hydrostatics_old.py:274-278, setter of zg *)
  Definition set_zg (z : R) : method unit :=
    run _ <- modify (fun u => let g := gravity_center u in write_cog (V3 (vx g) (vy g) z) u);
    update_properties.
  (** hydrostatics_old.py:340-350 reset *)
  Definition reset : method unit :=
    run _ <- modify (fun u => replace_cog (array (u_world u) (u_backup u)) (with_mesh (u_init_mesh u) u));
    run _ <- reinit_clipper;
    run _ <- update_properties;
    modify (with_rotation mid).
  (** hydrostatics_old.py:746-756 add_force *)
  Definition add_force (i : nat) : method unit := modify (fun u => with_forces (u_forces u ++ [i]) u).

  (** hydrostatics_old.py:473-541, setters of the solver parameters; a NaN or a text is not modelled. *)
  Definition set_solver (ok : bool) (f : solver -> solver) : method unit :=
    if ok then modify (fun u => with_solver (f (u_solver u)) u) else raise_ AssertionError.
  Definition between (a b x : R) : bool := Rltb a x && Rltb x b.
  Definition set_reltol (x : R) := set_solver (between 0 1 x)
    (fun p => mkSolver x (p_itermax p) (p_max_restart p) (p_theta_relax p) (p_z_relax p) (p_stop_at_unstable p)).
  Definition set_theta_relax (x : R) := set_solver (between 0 10 x)
    (fun p => mkSolver (p_reltol p) (p_itermax p) (p_max_restart p) x (p_z_relax p) (p_stop_at_unstable p)).
  Definition set_z_relax (x : R) := set_solver (between 0 1 x)
    (fun p => mkSolver (p_reltol p) (p_itermax p) (p_max_restart p) (p_theta_relax p) x (p_stop_at_unstable p)).
  Definition set_max_iterations (n : Z) := set_solver (0 <? n)%Z
    (fun p => mkSolver (p_reltol p) (Z.to_nat n) (p_max_restart p) (p_theta_relax p) (p_z_relax p) (p_stop_at_unstable p)).
  Definition set_max_restart (n : Z) := set_solver (0 <=? n)%Z
    (fun p => mkSolver (p_reltol p) (p_itermax p) (Z.to_nat n) (p_theta_relax p) (p_z_relax p) (p_stop_at_unstable p)).
  Definition set_allow_unstable (b : bool) := set_solver true
    (fun p => mkSolver (p_reltol p) (p_itermax p) (p_max_restart p) (p_theta_relax p) (p_z_relax p) b).

  (** hydrostatics_old.py:827-833: the mesh, the center of gravity and the forces go up by [dz]. *)
  Definition update_forces (dz : R) (rot : mat) (u : hull) : hull :=
    with_world (fold_left (update_force dz rot) (u_forces u) (u_world u)) u.
  Definition heave (dz : R) (u : hull) : hull := write_cog (raise_by dz (gravity_center u)) (with_mesh (translate_z dz (u_mesh u)) u).

  (** hydrostatics_old.py:820-848, with [n] iterations left *)
  Fixpoint displace (n : nat) (dz z_correction : R) : method R :=
    match n with
    | O => return_ z_correction
    | S n' =>
        run _ <- modify (fun u => update_forces dz mid (heave dz u));
        let z_correction := z_correction + dz in
        run _ <- reinit_clipper;
        run _ <- update_properties;
        fun u =>
          let fz := vx (residual u) in
          if ratio_below fz (u_mg u) (p_reltol (u_solver u)) then (Ok z_correction, u)
          else displace n' (relax (p_z_relax (u_solver u)) (fz / (u_rhog u * d_waterplane_area (u_data u)))) z_correction u
    end.
  (** hydrostatics_old.py:793-850 set_displacement *)
  Definition set_displacement (tons : R) : method R :=
    run _ <- set_mass tons;
    fun u => displace (p_itermax (u_solver u)) 0 0 u.

  (** hydrostatics_old.py:1099-1102 and 1119-1121: the mesh and the center of gravity turn. *)
  Definition turn (rot : mat) (u : hull) : hull :=
    with_rotation (mmul rot (u_rotation u)) (replace_cog (mvec rot (gravity_center u)) (with_mesh (rotate_matrix rot (u_mesh u)) u)).

  (** hydrostatics_old.py:1075-1172. [rnd n] is the result of np.random.rand(2) at the restart number [n]; [fuel] bounds the
      passes of the loop. *)
  Variable rnd : nat -> R * R.
  Definition restart (n : nat) : method unit :=
    let rot := cardan_to_rotmat (fst (rnd n) * PI) (snd (rnd n) * PI) 0 in
    run _ <- modify (turn rot);
    run _ <- reinit_clipper;
    run _ <- update_properties;
    modify (update_forces 0 rot).
  Definition move (dz tx ty : R) : method unit :=
    let rot := cardan_to_rotmat tx ty 0 in
    run _ <- modify (fun u => update_forces dz rot (turn rot (heave dz u)));
    run _ <- reinit_clipper;
    update_properties.
  Fixpoint search (fuel iter nb : nat) (unstable : bool) (dz tx ty : R) : method nat :=
    match fuel with
    | O => raise_ OutOfFuel
    | S fuel' =>
        run go <- (fun u =>
          if unstable || (iter =? (nb + 1) * (p_itermax (u_solver u) - 1))%nat then
            if (nb <? p_max_restart (u_solver u) - 1)%nat
            then (run _ <- restart (S nb); return_ (Some (S nb, 0, 0, 0))) u
            else (Ok None, u)
          else (Ok (Some (nb, dz, tx, ty)), u));
        match go with
        | None => return_ 0%nat
        | Some (nb, dz, tx, ty) =>
            run _ <- move dz tx ty;
            fun u =>
              if is_at_equilibrium u then
                if isstable u then (Ok 1%nat, u)
                else if p_stop_at_unstable (u_solver u) then (Ok 2%nat, u)
                else search fuel' (S iter) nb true dz tx ty u
              else
                match solve3 (d_stiffness (u_data u)) (residual u) with
                | Raise e => (Raise e, u)
                | Ok d =>
                    let theta := radians (p_theta_relax (u_solver u)) in
                    search fuel' (S iter) nb false (relax (p_z_relax (u_solver u)) (vx d)) (relax theta (vy d)) (relax theta (vz d)) u
                end
        end
    end.

  (** hydrostatics_old.py:1174-1181: the center of gravity is brought above the origin. The clipper and the other data stay as
      they are. *)
  Definition with_buoyancy (b : vec) (d : data) : data :=
    mkData (d_wet_surface_area d) (d_volume d) (d_mass d) b (d_flotation d) (d_waterplane_area d) (d_transversal_radius d)
      (d_longitudinal_radius d) (d_gm_x d) (d_gm_y d) (d_stiffness d) (d_lwl d) (d_los d) (d_bos d) (d_draught d) (d_fp d) (d_breadth d)
      (d_Ixx d) (d_Iyy d) (d_Izz d) (d_Ixy d) (d_Ixz d) (d_Iyz d).
  Definition recenter (u : hull) : hull :=
    let g := gravity_center u in
    let u := with_mesh (translate (V3 (- vx g) (- vy g) 0) (u_mesh u)) u in
    let b := d_buoyancy (u_data u) in
    let u := with_data (with_buoyancy (V3 (vx b - vx g) (vy b - vy g) (vz b)) (u_data u)) u in
    let u := with_world (fold_left (fun w i => let g := array w (u_cog u) in update_force_xy (- vx g) (- vy g) w i) (u_forces u) (u_world u)) u in
    write_cog (V3 0 0 (zg u)) u.
  (** hydrostatics_old.py:1027-1191 equilibrate. The mass setter is given back the mass. *)
  Definition equilibrate (init_disp : bool) (fuel : nat) : method nat :=
    run _ <- (if init_disp then (fun u => (run _ <- set_displacement (mass u); return_ tt) u) else return_ tt);
    run code <- search fuel 0 0 false 0 0 0;
    run _ <- modify recenter;
    return_ code.
End Old.
