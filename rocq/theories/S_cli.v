(** Specification of the command line: planes, and the order of operations on plain meshes. *)
From Coq Require Import Ascii String Reals List Arith NArith ZArith QArith Qreals Bool.
From Verif Require Import M_base M_merge M_rotations M_plane M_mesh M_inertia M_geometry M_connectivity M_clipper M_hydro
  M_text S_text M_mmio M_formats M_cli S_cache S_hydro.
Import ListNotations.
Local Open Scope R_scope.

(** ** Planes *)
(** A text that float() takes, and its value *)
Definition number (dbl : N -> Z -> N * positive) (w : text) (x : R) : Prop := exists q, to_float dbl w = Ok q /\ x = Q2R (value q).
Definition no_number (dbl : N -> Z -> N * positive) (w : text) : Prop := forall x, ~ number dbl w x.
(** The standard planes go through the origin. *)
Definition standard_planes : list (text * vec) :=
  [(s "Oxy", V3 0 0 1); (s "Oxz", V3 0 1 0); (s "Oyz", V3 1 0 0);
   (s "/Oxy", V3 0 0 (-1)); (s "/Oxz", V3 0 (-1) 0); (s "/Oyz", V3 (-1) 0 0)]%string.
(** Four texts for a normal and a scalar *)
Definition four (dbl : N -> Z -> N * positive) (ws : list text) (n : vec) (c : R) : Prop :=
  exists wx wy wz wc, ws = [wx; wy; wz; wc] /\ number dbl wx (vx n) /\ number dbl wy (vy n) /\ number dbl wz (vz n) /\ number dbl wc c.
(** The plane has the direction of [n], that need not be a unit vector, and the scalar [c]. *)
Definition drawn (p : plane) (n : vec) (c : R) : Prop := n <> vzero /\ p_normal p = vscale (/ norm n) n /\ p_scalar p = c.

(** ** Operations *)
(** One operation after the other, until one fails *)
Fixpoint in_order (l : list (mesh -> res mesh)) (m : mesh) : res mesh :=
  match l with [] => Ok m | f :: l' => do m <- f m; in_order l' m end.
Definition optional {A} (o : option A) (f : A -> mesh -> res mesh) : list (mesh -> res mesh) :=
  match o with Some a => [f a] | None => [] end.
Definition many {A} (o : option (list A)) (f : A -> mesh -> res mesh) : list (mesh -> res mesh) :=
  match o with Some l => map f l | None => [] end.
Definition only (b : bool) (f : mesh -> res mesh) : list (mesh -> res mesh) := if b then [f] else [].
Definition always {A} (f : A -> mesh -> mesh) (a : A) (m : mesh) : res mesh := Ok (f a m).

Section Order.
  Variable dbl : N -> Z -> N * positive.
  Variable argsort : list R -> list nat.
  Variable order : list nat -> list nat.

  Definition motions (o : options) : list (mesh -> res mesh) :=
    optional (o_translate o) (always translate) ++ optional (o_tx o) (always translate_x) ++
    optional (o_ty o) (always translate_y) ++ optional (o_tz o) (always translate_z) ++
    optional (o_rotate o) (fun a m => Ok (rotate (radians (vx a)) (radians (vy a)) (radians (vz a)) m)) ++
    optional (o_rx o) (fun a m => Ok (rotate_x (radians a) m)) ++ optional (o_ry o) (fun a m => Ok (rotate_y (radians a) m)) ++
    optional (o_rz o) (fun a m => Ok (rotate_z (radians a) m)) ++
    optional (o_scale o) scale ++ optional (o_sx o) scalex ++ optional (o_sy o) scaley ++ optional (o_sz o) scalez.
  Definition operations (planes : list plane) (o : options) : list (mesh -> res mesh) :=
    optional (o_mirror o) (fun ws m => do p <- choose_plane dbl planes ws; Ok (mirror p m)) ++
    many (o_sym o) (fun ws m => do p <- choose_plane dbl planes (or_default (s "Oxz") ws); symmetrize argsort p m) ++
    only (o_heal_mesh o) (heal_mesh argsort order) ++ only (o_heal_normals o && negb (o_heal_mesh o)) (heal_normals order) ++
    motions o ++
    only (o_flip o) (fun m => Ok (flip_normals m)) ++ only (o_triangulate o) triangulate_quadrangles ++
    many (o_clip o) (fun ws m => do p <- choose_plane dbl planes (or_default (s "Oxy") ws);
                                 do k <- mesh_clipper argsort p (1 / 1000) false m; Ok (clipped k)).

  (** The mesh of a file, with triangles healed *)
  Variable other_load : fmt -> text -> res (array num * array Z).
  Definition read_healed (d : disk) (name k : text) : res mesh :=
    do vf <- load_mesh dbl other_load d name k; do m <- mesh_of vf; Ok (heal_triangles m).
  Definition read (d : disk) (o : options) : res mesh :=
    do k <- input_format o;
    do m <- read_healed d (o_infile o) k;
    match o_concat o with None => Ok m | Some name => do m2 <- read_healed d name k; add argsort m m2 end.
  (** The mesh in the position found for the hydrostatics *)
  Definition positioned (o : options) (m : mesh) : res (mesh * option hydro) :=
    if o_hydrostatics o then do (h, z, rot) <- hydrostatics dbl argsort o m; Ok (translate_z z (rotate_matrix rot m), Some h) else Ok (m, None).
End Order.

(** Where the options for translations, rotations and scalings take a point *)
Definition or_zero (o : option R) : R := match o with Some x => x | None => 0 end.
Definition or_one (o : option R) : R := match o with Some x => x | None => 1 end.
Definition shifted (o : options) (v : vec) : vec :=
  vadd (vadd v (match o_translate o with Some t => t | None => vzero end)) (V3 (or_zero (o_tx o)) (or_zero (o_ty o)) (or_zero (o_tz o))).
Definition turned_by (o : options) : mat :=
  let about a b c := cardan_to_rotmat (radians a) (radians b) (radians c) in
  mmul (about 0 0 (or_zero (o_rz o))) (mmul (about 0 (or_zero (o_ry o)) 0) (mmul (about (or_zero (o_rx o)) 0 0)
    (match o_rotate o with Some a => about (vx a) (vy a) (vz a) | None => mid end))).
Definition sized (o : options) (v : vec) : vec :=
  let a := or_one (o_scale o) in V3 (a * or_one (o_sx o) * vx v) (a * or_one (o_sy o) * vy v) (a * or_one (o_sz o) * vz v).
Definition moved_to (o : options) (v : vec) : vec := sized o (mvec (turned_by o) (shifted o v)).
(** Scales must be positive. *)
Definition positive_scales (o : options) : Prop :=
  0 < or_one (o_scale o) /\ 0 < or_one (o_sx o) /\ 0 < or_one (o_sy o) /\ 0 < or_one (o_sz o).

(** Options that ask for nothing but a conversion *)
Definition no_operation (o : options) : Prop :=
  o_concat o = None /\ o_merge o = None /\ o_planes o = None /\ o_mirror o = None /\ o_sym o = None /\ o_heal_mesh o = false /\
  o_heal_normals o = false /\ o_flip o = false /\ o_triangulate o = false /\ o_clip o = None /\ o_hydrostatics o = false.
Definition no_motion (o : options) : Prop :=
  o_translate o = None /\ o_tx o = None /\ o_ty o = None /\ o_tz o = None /\ o_rotate o = None /\ o_rx o = None /\ o_ry o = None /\
  o_rz o = None /\ o_scale o = None /\ o_sx o = None /\ o_sy o = None /\ o_sz o = None.
