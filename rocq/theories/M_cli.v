(** The command line (meshmagick/cli.py, function main), after the parsing of the arguments by argparse. *)
From Coq Require Import Ascii String Reals List Arith NArith ZArith QArith Qreals Bool.
From Verif Require Import M_base M_merge M_rotations M_plane M_mesh M_inertia M_geometry M_connectivity M_cache M_clipper M_hydro
  M_text M_mmio M_formats.
Import ListNotations.
Local Open Scope R_scope.

(** Attributes of [args]. Options that only print (quality, list_medium, plain_inertia, shell_inertia, info, show, quiet), the
    lids (which need gmsh) and the unused ones (project_name, lpp, orig_at_ap) are left out. The texts of [o_merge], of the
    planes and of [o_cog] are converted by main itself. *)
Record options := mkOptions {
  o_infile : text; o_outfile : option text; o_ifmt : option text; o_ofmt : option text;
  o_concat : option text; o_merge : option text;
  o_planes : option (list (list text)); o_mirror : option (list text); o_sym : option (list (list text));
  o_heal_mesh : bool; o_heal_normals : bool;
  o_translate : option vec; o_tx : option R; o_ty : option R; o_tz : option R;
  o_rotate : option vec; o_rx : option R; o_ry : option R; o_rz : option R;
  o_scale : option R; o_sx : option R; o_sy : option R; o_sz : option R;
  o_flip : bool; o_triangulate : bool; o_clip : option (list (list text));
  o_hydrostatics : bool; o_disp : option R; o_cog : option (text * text * text); o_zcog : option R;
  o_rho : R; o_grav : R; o_report : option text }.

(** The number that a double is *)
Definition real (x : num) : R := Q2R ((if neg x then Z.opp else fun z => z) (Z.of_N (top x)) # bot x).

(** ** Meshes from arrays *)
(** A row of three numbers, of four indices. Negative indices, that numpy takes from the end, are not modelled. *)
Definition row3 (r : list num) : res vec :=
  match r with [x; y; z] => Ok (V3 (real x) (real y) (real z)) | _ => Raise AssertionError end.
Definition index (z : Z) : res nat := if (z <? 0)%Z then Raise NotImplementedError else Ok (Z.to_nat z).
Definition row4 (r : list Z) : res face :=
  match r with
  | [a; b; c; d] => do a <- index a; do b <- index b; do c <- index c; do d <- index d; Ok (F4 a b c d)
  | _ => Raise AssertionError
  end.
(** mesh.py:405-421 Mesh.__init__: shape[1] of an array of one dimension raises IndexError *)
Definition mesh_of (vf : array num * array Z) : res mesh :=
  match vf with
  | (Arr2 rows, Arr2 fs) => do vs <- mapM row3 rows; do fs <- mapM row4 fs; Ok (mkMesh vs fs)
  | (Arr2 rows, Arr1 _) => do vs <- mapM row3 rows; Raise IndexError
  | (Arr1 _, _) => Raise IndexError
  end.

(** ** Planes *)
(** cli.py:481-486 plane_str_list *)
Definition plane_keys : list (text * vec) :=
  [(s "Oxy", V3 0 0 1); (s "Oxz", V3 0 1 0); (s "Oyz", V3 1 0 0);
   (s "/Oxy", V3 0 0 (-1)); (s "/Oxz", V3 0 (-1) 0); (s "/Oyz", V3 (-1) 0 0)].
(** Plane() *)
Definition default_plane : plane := plane_new (V3 0 0 1) 0.
(** The normal is divided by its length: NaN for a zero vector. *)
Definition a_normal (v : vec) : res vec := if Req_EM_T (norm v) 0 then Raise NotANumber else Ok v.

Section Cli.
  Variable dbl : N -> Z -> N * positive.
  Definition to_real (w : text) : res R := do x <- to_float dbl w; Ok (real x).
  Definition to_vec (a b c : text) : res vec := do x <- to_real a; do y <- to_real b; do z <- to_real c; Ok (V3 x y z).

  (** cli.py:507-524, one --plane. Any exception of the first branch becomes AssertionError; a zero normal raises none. *)
  Definition define_plane (ws : list text) : res plane :=
    match ws with
    | [a; b; c; d] =>
        match to_vec a b c with
        | Raise _ => Raise AssertionError
        | Ok v => match to_real d with
                  | Raise _ => Raise AssertionError
                  | Ok x => do v <- a_normal v; Ok (plane_new v x)
                  end
        end
    | [k] => match lookup k plane_keys with
             | Some v => Ok (set_c (set_normal default_plane v) 0)
             | None => Raise AssertionError
             end
    | _ => Raise AssertionError
    end.

  (** cli.py:539-561, 584-611 and 719-745: the plane of --mirror, --symmetrize and --clip-by-plane. int() takes signs
      and spaces; only signs are in the model. *)
  Definition by_key (k : text) : res plane :=
    match lookup k plane_keys with Some v => Ok (set_normal default_plane v) | None => Raise KeyError end.
  Definition choose_plane (planes : list plane) (ws : list text) : res plane :=
    match ws with
    | [w] =>
        match planes with
        | [] => by_key w
        | _ :: _ =>
            match to_int w with
            | Ok i => if (0 <=? i)%Z && (i <? Z.of_nat (length planes))%Z then get planes (Z.to_nat i) else Raise AssertionError
            | Raise _ => by_key w
            end
        end
    | [a; b; c; d] => do v <- to_vec a b c; do v <- a_normal v; do x <- to_real d; Ok (set_c (set_normal default_plane v) x)
    | _ => Raise ValueError
    end.
  (** The words given, or a default one *)
  Definition or_default (k : text) (ws : list text) : list text := match ws with [] => [k] | _ => ws end.

  (** ** Reading *)
  Variable other_load : fmt -> text -> res (array num * array Z).
  Variable argsort : list R -> list nat.
  Variable order : list nat -> list nat.

  (** cli.py:426-434: the input format *)
  Definition input_format (o : options) : res text :=
    match o_ifmt o with
    | Some f => Ok f
    | None => match lower (skipn 1 (snd (splitext (o_infile o)))) with [] => Raise IOError | f => Ok f end
    end.
  (** cli.py:437-450 and 457-472: a mesh from a file, with healed triangles *)
  Definition load_healed (d : disk) (name k : text) : res cmesh :=
    do vf <- load_mesh dbl other_load d name k;
    do m <- mesh_of vf;
    Ok (c_heal_triangles (fresh m)).
  (** cli.py:424-473 *)
  Definition loaded (d : disk) (o : options) : res cmesh :=
    do k <- input_format o;
    do m <- load_healed d (o_infile o) k;
    match o_concat o with
    | None => Ok m
    | Some name => do m2 <- load_healed d name k; do r <- add argsort (cm m) (cm m2); Ok (fresh r)
    end.

  (** ** Operations *)
  Definition call_if {A} (c : option A) (f : A -> call) : list call := match c with Some a => [f a] | None => [] end.
  Definition call_when (b : bool) (c : call) : list call := if b then [c] else [].
  (** cli.py:476-478 *)
  Definition merging (o : options) : res (list call) :=
    match o_merge o with None => Ok [] | Some w => do tol <- to_real w; Ok [Merge tol] end.
  (** cli.py:492-530 *)
  Definition planes_of (o : options) : res (list plane) := mapM define_plane (match o_planes o with None => [] | Some l => l end).
  (** cli.py:533-570 *)
  Definition mirroring (planes : list plane) (o : options) : res (list call) :=
    match o_mirror o with None => Ok [] | Some ws => do p <- choose_plane planes ws; Ok [Mirror p] end.
  (** cli.py:621-713 *)
  Definition degrees (a : R) : R := radians a.
  Definition healing (o : options) : list call :=
    call_when (o_heal_mesh o) HealMesh ++ call_when (o_heal_normals o && negb (o_heal_mesh o)) HealNormals.
  Definition moving (o : options) : list call :=
    call_if (o_translate o) Translate ++ call_if (o_tx o) TranslateX ++ call_if (o_ty o) TranslateY ++ call_if (o_tz o) TranslateZ ++
    call_if (o_rotate o) (fun a => Rotate (degrees (vx a)) (degrees (vy a)) (degrees (vz a))) ++
    call_if (o_rx o) (fun a => Rotate (degrees a) 0 0) ++ call_if (o_ry o) (fun a => Rotate 0 (degrees a) 0) ++
    call_if (o_rz o) (fun a => Rotate 0 0 (degrees a)) ++
    call_if (o_scale o) Scale ++ call_if (o_sx o) ScaleX ++ call_if (o_sy o) ScaleY ++ call_if (o_sz o) ScaleZ.
  Definition turning (o : options) : list call := call_when (o_flip o) FlipNormals ++ call_when (o_triangulate o) Triangulate.

  Definition perform (h : list call) (m : cmesh) : res cmesh := do (m, _) <- run argsort order h m; Ok m.
  (** cli.py:573-617: one symmetry after the other *)
  Fixpoint symmetries (planes : list plane) (l : list (list text)) (m : cmesh) : res cmesh :=
    match l with
    | [] => Ok m
    | ws :: l' =>
        do p <- choose_plane planes (or_default (s "Oxz") ws);
        do m <- perform [Symmetrize p] m;
        symmetries planes l' m
    end.
  (** mesh_clipper.py:27-39: default arguments of MeshClipper *)
  Definition clip_tol : R := vicinity_tol.
  (** cli.py:705-757: one clipping after the other *)
  Fixpoint clippings (planes : list plane) (l : list (list text)) (m : cmesh) : res cmesh :=
    match l with
    | [] => Ok m
    | ws :: l' =>
        do p <- choose_plane planes (or_default (s "Oxy") ws);
        do k <- mesh_clipper argsort p clip_tol false (cm m);
        clippings planes l' (fresh (clipped k))
    end.

  (** cli.py:871-942: the data of the report, and the mesh in the position found. [reltol] is 1e-6; the options lpp and
      orig_at_ap are not passed on. *)
  Definition cli_reltol : R := 1 / 1000000.
  Definition hydrostatics (o : options) (m : mesh) : res (hydro * R * mat) :=
    let rho := o_rho o in
    let grav := o_grav o in
    let evaluate cog z rot at_cog := compute_hydrostatics argsort m cog rho grav rot z at_cog None false in
    match o_cog o with
    | None =>
        match o_disp o, o_zcog o with
        | _, None => Raise RuntimeError
        | None, Some zcog =>
            do h <- evaluate vzero 0 mid false;
            do h <- evaluate (V3 (vx (h_buoyancy_center h)) (vy (h_buoyancy_center h)) zcog) 0 mid true;
            Ok (h, 0, mid)
        | Some disp, Some zcog =>
            do z <- displacement_equilibrium argsort m disp rho grav vzero cli_reltol;
            do h <- evaluate vzero z mid false;
            do h <- evaluate (V3 (vx (h_buoyancy_center h)) (vy (h_buoyancy_center h)) zcog) z mid true;
            Ok (h, z, mid)
        end
    | Some (a, b, c) =>
        do cog <- to_vec a b c;
        do disp <- match o_disp o with
                   | Some disp => Ok disp
                   | None => do h <- evaluate vzero 0 mid false; Ok (h_disp_mass h / 1000)
                   end;
        do (z, rot) <- full_equilibrium argsort m cog disp rho grav cli_reltol;
        do h <- evaluate cog z rot true;
        Ok (h, z, rot)
    end.

  (** cli.py:424-942: the mesh that is written, and the data of the report *)
  Definition processed (d : disk) (o : options) : res (mesh * option hydro) :=
    do m <- loaded d o;
    do c <- merging o; do m <- perform c m;
    do planes <- planes_of o;
    do c <- mirroring planes o; do m <- perform c m;
    do m <- match o_sym o with None => Ok m | Some l => symmetries planes l m end;
    do m <- perform (healing o) m;
    do m <- perform (moving o) m;
    do m <- perform (turning o) m;
    do m <- match o_clip o with None => Ok m | Some l => clippings planes l m end;
    if o_hydrostatics o then
      do (h, z, rot) <- hydrostatics o (cm m);
      do m <- perform [RotateMatrix rot; TranslateZ z] m;
      Ok (cm m, Some h)
    else Ok (cm m, None).

  (** ** Writing *)
  (** cli.py:967-998: the name and the format of the file to write, if any *)
  Definition output (o : options) : option (text * text) :=
    match o_outfile o, o_ofmt o with
    | None, None => None
    | None, Some f => Some (fst (splitext (o_infile o)) ++ s "." ++ f, f)
    | Some name, Some f => Some (name, f)
    | Some name, None => Some (name, lower (skipn 1 (snd (splitext name))))
    end.

  Variable other_write : fmt -> list vertex -> list face -> res text.
  Variable date : text.
  Variable normal_text : vertex -> vertex -> vertex -> text.
  Variable unfinished : fmt -> list vertex -> list face -> text.
  (** The double for a real number, and the text of a report *)
  Variable double : R -> num.
  Variable report : hydro -> text.
  Definition numbers (v : vec) : vertex := (double (vx v), double (vy v), double (vz v)).

  Definition main (o : options) (d : disk) : res unit * disk :=
    match processed d o with
    | Raise e => (Raise e, d)
    | Ok (m, h) =>
        let d := match h, o_report o with Some h, Some name => put name (report h) d | _, _ => d end in
        match output o with
        | None => (Ok tt, d)
        | Some (name, k) => write_mesh other_write date normal_text unfinished name (map numbers (verts m)) (faces m) k d
        end
    end.
End Cli.
