(** Model of meshmagick/MMviewer.py: what the viewer shows, the keys, the file that is saved; Mesh.show (mesh.py) and Hydrostatics.show
    (hydrostatics_old.py).

    Simplifications: the renderer of VTK is the list of the things drawn, each with the identity of its actor; cameras, windows, mouse, text and
    the keys that VTK handles itself (w, s, r, f) are left out. The version of VTK is above 5. An exception in the function called at a key press ends
    that call, and what was done before stays done. *)
From Coq Require Import Reals List Arith Bool String.
From Verif Require Import M_base M_mesh M_vtk.
Import ListNotations.
Local Open Scope nat_scope.

(** A color: red, green, blue. *)
Definition rgb := vec.
(** The color of actors when none is given: white (VTK) *)
Definition white : rgb := V3 1 1 1.
(** What an actor draws *)
Inductive drawn :=
| Text (corner : nat)                                       (** a vtkCornerAnnotation *)
| Object (d : dataset) (c : rgb) (wire : bool)
| Arrows (d : dataset)                                      (** the normals of a dataset *)
| CubeAxes (d : dataset)                                    (** graduated axes around a dataset *)
| Rectangle (origin point1 point2 : vec) (c : rgb)          (** a vtkPlaneSource *)
| Arrow (at_ value : vec) (c : rgb).

(** The attribute [normals]: a list of actors (MMviewer.py:85), or a boolean once normals_on or normals_off was called *)
Inductive normals_attr := NList (l : list nat) | NBool (b : bool).

Record viewer := mkViewer {
  v_props : list (nat * drawn);                             (** the renderer *)
  v_next : nat;                                             (** the identity of the next actor *)
  v_normals : normals_attr; v_axes : list nat; v_oxy : option nat; v_planes : option (list nat);
  v_polydatas : list dataset;
  v_saved : option dataset;                                 (** the file mmviewer_save.vtp *)
  v_shot : option (list drawn);                             (** the file screenshot.png: what the window shows *)
  v_open : bool }.

(** MMviewer.py:21-91 __init__ *)
Definition new_viewer : viewer := mkViewer [(0, Text 3); (1, Text 1)] 2 (NList []) [] None None [] None None true.

(** renderer.AddActor, AddViewProp of a new object *)
Definition draw (d : drawn) (v : viewer) : viewer :=
  mkViewer (v_props v ++ [(v_next v, d)]) (S (v_next v)) (v_normals v) (v_axes v) (v_oxy v) (v_planes v) (v_polydatas v) (v_saved v) (v_shot v) (v_open v).
(** renderer.RemoveActor *)
Definition remove (a : nat) (v : viewer) : viewer :=
  mkViewer (filter (fun p => negb (fst p =? a)) (v_props v)) (v_next v) (v_normals v) (v_axes v) (v_oxy v) (v_planes v) (v_polydatas v) (v_saved v) (v_shot v) (v_open v).
Definition remove_all (l : list nat) (v : viewer) : viewer := fold_left (fun v a => remove a v) l v.
Definition with_normals (n : normals_attr) (v : viewer) : viewer :=
  mkViewer (v_props v) (v_next v) n (v_axes v) (v_oxy v) (v_planes v) (v_polydatas v) (v_saved v) (v_shot v) (v_open v).
Definition with_axes (l : list nat) (v : viewer) : viewer :=
  mkViewer (v_props v) (v_next v) (v_normals v) l (v_oxy v) (v_planes v) (v_polydatas v) (v_saved v) (v_shot v) (v_open v).
Definition with_oxy (o : option nat) (v : viewer) : viewer :=
  mkViewer (v_props v) (v_next v) (v_normals v) (v_axes v) o (v_planes v) (v_polydatas v) (v_saved v) (v_shot v) (v_open v).
Definition with_planes (o : option (list nat)) (v : viewer) : viewer :=
  mkViewer (v_props v) (v_next v) (v_normals v) (v_axes v) (v_oxy v) o (v_polydatas v) (v_saved v) (v_shot v) (v_open v).
Definition with_polydata (d : dataset) (v : viewer) : viewer :=
  mkViewer (v_props v) (v_next v) (v_normals v) (v_axes v) (v_oxy v) (v_planes v) (v_polydatas v ++ [d]) (v_saved v) (v_shot v) (v_open v).
Definition with_saved (d : dataset) (v : viewer) : viewer :=
  mkViewer (v_props v) (v_next v) (v_normals v) (v_axes v) (v_oxy v) (v_planes v) (v_polydatas v) (Some d) (v_shot v) (v_open v).
Definition with_shot (v : viewer) : viewer :=
  mkViewer (v_props v) (v_next v) (v_normals v) (v_axes v) (v_oxy v) (v_planes v) (v_polydatas v) (v_saved v) (Some (map snd (v_props v))) (v_open v).
Definition closed_window (v : viewer) : viewer :=
  mkViewer (v_props v) (v_next v) (v_normals v) (v_axes v) (v_oxy v) (v_planes v) (v_polydatas v) (v_saved v) (v_shot v) false.

(** What a call leaves: the viewer and the exception that it raised, if any *)
Definition outcome : Type := viewer * option exn.
Definition done (v : viewer) : outcome := (v, None).

(** MMviewer.py:93-101 *)
Definition normals_on (v : viewer) : outcome := done (with_normals (NBool true) v).
Definition normals_off (v : viewer) : outcome := done (with_normals (NBool false) v).

(** vtkPolyData.GetBounds, one coordinate: 1 and -1 if there is no point (VTK) *)
Definition range (q : vec -> R) (ps : list vec) : R * R :=
  match ps with
  | [] => (1, -1)%R
  | p :: ps => (fold_left (fun m x => Rmin m (q x)) ps (q p), fold_left (fun m x => Rmax m (q x)) ps (q p))
  end.
(** 0.1 * (xmax - xmin) *)
Definition margin (r : R * R) : R := (0.1 * (snd r - fst r))%R.
(** MMviewer.py:106-115, 141-152 *)
Definition oxy_rectangle (ps : list vec) (c : rgb) : drawn :=
  let x := range vx ps in let y := range vy ps in let dx := margin x in let dy := margin y in
  Rectangle (V3 (fst x - dx) (snd y + dy) 0) (V3 (fst x - dx) (fst y - dy) 0) (V3 (snd x + dx) (snd y + dy) 0) c.
(** MMviewer.py:154-158 *)
Definition oxz_rectangle (ps : list vec) (c : rgb) : drawn :=
  let x := range vx ps in let z := range vz ps in let dx := margin x in let dz := margin z in
  Rectangle (V3 (fst x - dx) 0 (snd z + dz)) (V3 (fst x - dx) 0 (fst z - dz)) (V3 (snd x + dx) 0 (snd z + dz)) c.
(** MMviewer.py:160-164 *)
Definition oyz_rectangle (ps : list vec) (c : rgb) : drawn :=
  let y := range vy ps in let z := range vz ps in let dy := margin y in let dz := margin z in
  Rectangle (V3 0 (fst y - dy) (snd z + dz)) (V3 0 (fst y - dy) (fst z - dz)) (V3 0 (snd y + dy) (snd z + dz)) c.

(** MMviewer.py:103-135 plane_on *)
Definition plane_on (v : viewer) : outcome :=
  match v_polydatas v with
  | [] => (v, Some IndexError)
  | pd :: _ => done (with_oxy (Some (v_next v)) (draw (oxy_rectangle (points pd) (V3 0 (102 / 255) (204 / 255))) v))
  end.
(** MMviewer.py:137-204 axes_planes_on. Line 193 sets the color of the second plane again, and the third one keeps its default. *)
Definition axes_planes_on (v : viewer) : outcome :=
  match v_polydatas v with
  | [] => (v, Some IndexError)
  | pd :: _ =>
    let ps := points pd in
    let a := v_next v in let v := draw (oxy_rectangle ps (V3 0 0 255)) v in
    let b := v_next v in let v := draw (oxz_rectangle ps (V3 255 0 0)) v in
    let c := v_next v in let v := draw (oyz_rectangle ps white) v in
    done (with_planes (Some [a; b; c]) v)
  end.
(** MMviewer.py:355-394 add_polydata *)
Definition add_polydata (d : dataset) (c : rgb) (representation : string) (v : viewer) : outcome :=
  if String.eqb representation "surface" || String.eqb representation "wireframe"
  then done (draw (Object d c (String.eqb representation "wireframe")) (with_polydata d v))
  else (v, Some AssertionError).
(** MMviewer.py:206-236 add_point, of a position with three coordinates; points of VTK are in single precision *)
Definition add_point (p : vec) (c : rgb) (v : viewer) : outcome := add_polydata (Dataset [single_vec p] [[0]]) c "surface" v.
(** MMviewer.py:238-274 add_line *)
Definition add_line (p q : vec) (c : rgb) (v : viewer) : outcome := add_polydata (Dataset [single_vec p; single_vec q] [[0; 1]]) c "surface" v.
(** MMviewer.py:276-330 add_vector; the vector is in a vtkFloatArray, in single precision. A division by zero (a warning of numpy, NaN or infinite
    arrows) is not followed. *)
Definition add_vector (p value : vec) (scale : R) (c : rgb) (v : viewer) : outcome :=
  if Reqb scale 0 then (v, Some NotANumber)
  else done (draw (Arrow (single_vec p) (single_vec (V3 (vx value / scale) (vy value / scale) (vz value / scale))) c) v).
(** MMviewer.py:396-444 show_normals: the loop over the objects *)
Fixpoint show_normals_of (ds : list dataset) (v : viewer) : outcome :=
  match ds with
  | [] => done v
  | d :: ds =>
    let a := v_next v in let v := draw (Arrows d) v in
    match v_normals v with
    | NList l => show_normals_of ds (with_normals (NList (l ++ [a])) v)
    | NBool _ => (v, Some AttributeError)
    end
  end.
Definition show_normals (v : viewer) : outcome := show_normals_of (v_polydatas v) v.
(** MMviewer.py:446-468 show_axes *)
Definition show_axes (v : viewer) : outcome :=
  match v_polydatas v with
  | [] => (v, Some IndexError)
  | pd :: _ => done (with_axes (v_axes v ++ [v_next v]) (draw (CubeAxes pd) v))
  end.
(** MMviewer.py:477-482 hide *)
Definition hide (index : nat) (v : viewer) : outcome := done v.
(** MMviewer.py:484-500 save: each call of SetInputData replaces the input of the writer. Without input, VTK reports an error and writes nothing. *)
Definition save (v : viewer) : outcome :=
  done (match fold_left (fun _ d => Some d) (v_polydatas v) None with Some d => with_saved d v | None => v end).

(** MMviewer.py:524-570 on_key_press *)
Definition on_key_press (key : string) (v : viewer) : outcome :=
  if String.eqb key "n" then
    match v_normals v with
    | NBool true => (v, Some TypeError)                     (* for actor in True *)
    | NBool false => show_normals v
    | NList [] => show_normals v
    | NList l => done (with_normals (NList []) (remove_all l v))
    end
  else if String.eqb key "b" then
    match v_axes v with [] => show_axes v | l => done (with_axes [] (remove_all l v)) end
  else if String.eqb key "e" || String.eqb key "q" then done (closed_window v)
  else if String.eqb key "x" then save v
  else if String.eqb key "c" then done (with_shot v)
  else if String.eqb key "h" then
    match v_oxy v with Some a => done (with_oxy None (remove a v)) | None => plane_on v end
  else if String.eqb key "g" then
    match v_planes v with
    | None | Some [] => axes_planes_on v
    | Some l => done (with_planes None (remove_all l v))
    end
  else done v.

(** Calls of the methods *)
Inductive event :=
| Key (key : string)
| AddPolydata (d : dataset) (c : rgb) (representation : string)
| AddPoint (p : vec) (c : rgb)
| AddLine (p q : vec) (c : rgb)
| AddVector (p value : vec) (scale : R) (c : rgb)
| NormalsOn | NormalsOff | ShowNormals | ShowAxes | PlaneOn | AxesPlanesOn | Hide (index : nat) | Save.
Definition step (v : viewer) (e : event) : outcome :=
  match e with
  | Key k => on_key_press k v
  | AddPolydata d c r => add_polydata d c r v
  | AddPoint p c => add_point p c v
  | AddLine p q c => add_line p q c v
  | AddVector p x s c => add_vector p x s c v
  | NormalsOn => normals_on v
  | NormalsOff => normals_off v
  | ShowNormals => show_normals v
  | ShowAxes => show_axes v
  | PlaneOn => plane_on v
  | AxesPlanesOn => axes_planes_on v
  | Hide i => hide i v
  | Save => save v
  end.
(** The viewer after calls in sequence, and the exceptions raised *)
Fixpoint run (es : list event) (v : viewer) : viewer * list exn :=
  match es with
  | [] => (v, [])
  | e :: es => let (v, x) := step v e in let (v, xs) := run es v in (v, match x with Some x => x :: xs | None => xs end)
  end.

(** mesh.py:917-924 Mesh.show and the keys pressed until the window is closed. The default color is yellow. *)
Definition yellow : rgb := V3 1 1 0.
Definition mesh_show (m : mesh) (keys : list string) : viewer * list exn :=
  run (AddPolydata (build_polydata (verts m) (faces m)) yellow "surface" :: map Key keys) new_viewer.
(** hydrostatics_old.py:1301-1352 Hydrostatics.show: the mesh, its centers, the weight, the buoyancy and the additional forces
    (point, value). The legend (1338-1346) is left out. *)
Definition hydrostatics_show (m : mesh) (cog buoyancy : vec) (mass : R) (weight bforce : vec * vec) (forces : list (vec * vec)) (keys : list string) : viewer * list exn :=
  let scale := (mass * 1000)%R in let o := V3 0 0 0 in let red := V3 1 0 0 in let green := V3 0 1 0 in let blue := V3 0 0 1 in
  run (AddPolydata (build_polydata (verts m) (faces m)) yellow "surface" :: AddPoint o (V3 0 0 0) :: AddPoint cog red :: AddLine o cog red ::
       AddPoint buoyancy green :: AddLine o buoyancy green :: AddVector (fst weight) (snd weight) scale red :: AddVector (fst bforce) (snd bforce) scale green ::
       flat_map (fun f => [AddPoint (fst f) blue; AddVector (fst f) (snd f) scale blue]) forces ++ map Key keys) new_viewer.
