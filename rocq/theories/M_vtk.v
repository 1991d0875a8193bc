(** Model of what meshmagick does with the VTK and h5py libraries (meshmagick/mmio.py, meshmagick/mesh.py): the reading of
    datasets, the writing of .vtu and .vtp files, the loading of .stl, .wrl and .med files. *)
From Coq Require Import Reals List Arith Bool ZArith Ascii String.
From Flocq Require Import Core.
From Verif Require Import M_base M_merge M_mesh M_text M_regex.
Import ListNotations.
Local Open Scope nat_scope.

(** The object of the VTK library that is read or written: the coordinates of the points, and the numbers of the points of
    each cell. *)
Record dataset := Dataset { points : list vec; cells : list (list nat) }.

(** vtk.vtkPoints() keeps coordinates in single precision: the nearest number with 24 bits, ties to even. Simplification: the
    infinities that replace numbers over 2^128 are not modelled. *)
Definition single (x : R) : R := round radix2 (FLT_exp (-149) 24) ZnearestE x.
Definition single_vec (v : vec) : vec := V3 (single (vx v)) (single (vy v)) (single (vz v)).

(** mmio.py:612-617, one cell: its numbers are written over a row of four zeros *)
Definition cell_face (c : list nat) : res face :=
  if 4 <? List.length c then Raise IndexError
  else let row := fold_left (fun r x => set_nth r (fst x) (snd x)) (combine (seq 0 (List.length c)) c) [0; 0; 0; 0] in
       let row := if List.length c =? 3 then set_nth row 3 (nth 0 row 0) else row in
       Ok (F4 (nth 0 row 0) (nth 1 row 0) (nth 2 row 0) (nth 3 row 0)).

(** mmio.py:593-619 _dump_vtk. It is what load_VTU (460-491), load_VTP (494-524), load_VTK (527-557) and load_OBJ (560-590)
    return from the dataset that VTK has read. *)
Definition dump_vtk (d : dataset) : res (list vec * list face) :=
  do fs <- mapM cell_face (cells d); Ok (points d, fs).

(** mmio.py:1518-1531, one face of _build_vtkUnstructuredGrid *)
Definition grid_cell (f : face) : list nat :=
  if existsb (Nat.eqb (f3 f)) [f0 f; f1 f; f2 f] then [f0 f; f1 f; f2 f] else [f0 f; f1 f; f2 f; f3 f].

(** mmio.py:1486-1531 _build_vtkUnstructuredGrid. The number of points is the larger dimension of the array (line 1503), which
    has 3 columns; [junk] stands for the memory of the points that are never set. *)
Definition build_grid (junk : nat -> vec) (vs : list vec) (fs : list face) : dataset :=
  let nv := Nat.max (List.length vs) 3 in
  Dataset (map single_vec vs ++ map junk (seq (List.length vs) (nv - List.length vs))) (map grid_cell fs).

(** mmio.py:1547-1558, mesh.py:897-910: one face of a polydata *)
Definition poly_cell (f : face) : list nat :=
  if f0 f =? f3 f then [f0 f; f1 f; f2 f] else [f0 f; f1 f; f2 f; f3 f].

(** mmio.py:1534-1565 _build_vtkPolyData, mesh.py:887-916 Mesh._vtk_polydata *)
Definition build_polydata (vs : list vec) (fs : list face) : dataset := Dataset (map single_vec vs) (map poly_cell fs).

(** mesh.py:2114-2118 Mesh.quick_save: the name of the file ([None] or an empty name: the default) *)
Definition ends_with (e t : text) : bool :=
  (List.length e <=? List.length t) && if list_eq_dec ascii_dec (skipn (List.length t - List.length e) t) e then true else false.
Definition quick_save_name (filename : option text) : text :=
  let name := match filename with None | Some [] => s "quick_save.vtp" | Some n => n end in
  if ends_with (s ".vtp") name then name else name ++ s ".vtp".

(** mmio.py:654-662 the faces of a .stl file. A cell that VTK does not give stays a row of zeros. *)
Definition stl_face (c : option (nat * nat * nat)) : face :=
  match c with Some (a, b, c) => F4 a b c a | None => F4 0 0 0 0 end.

Section STL.
  Variable argsort : list R -> list nat.
  (** mmio.py:622-668 load_STL, from the points and the cells that VTK has read. The tolerance of merge_duplicate_rows is its
      default, 1e-8 (tools.py:6). *)
  Definition load_STL (ps : list vec) (cs : list (option (nat * nat * nat))) : res (list vec * list face) :=
    do m <- merge_duplicate_rows argsort default_atol coords ps;
    let (vs, new_id) := m in
    do fs <- mapM (renumber new_id) (map stl_face cs);
    Ok (vs, fs).
End STL.

(** f.readline() *)
Fixpoint readline (t : text) : text :=
  match t with [] => [] | c :: t => if ascii_dec c newline then [c] else c :: readline t end.

(** mmio.py:1037 *)
Definition wrl_version : re :=
  Seq (Word (s "#VRML")) (Seq (Plus space_re) (Seq (Lit "V") (Group 1 (Seq digit_re (Seq dot_re digit_re))))).

(** mmio.py:1014-1050 load_WRL: [t] is the text of the file and [actors] the datasets of the objects of the scene, as VTK
    imports it. *)
Definition load_WRL (t : text) (actors : list dataset) : res (list vec * list face) :=
  match search wrl_version (readline t) with
  | None => Raise AttributeError
  | Some m =>
      if list_eq_dec ascii_dec (group 1 m) (s "2.0") then
        match actors with [] => Raise AttributeError | d :: _ => dump_vtk d end
      else Raise NotImplementedError
  end.

(** An item of a hierarchical file: a group, or an array of real or integer numbers. *)
Inductive item := Folder | Floats (l : list R) | Ints (l : list Z).

(** a.reshape((n, -1)).T *)
Definition reshape_T {A} (n : nat) (l : list A) : res (list (list A)) :=
  let k := List.length l / n in
  if n * k =? List.length l
  then Ok (map (fun i => flat_map (fun j => match nth_error l (j * k + i) with Some a => [a] | None => [] end) (seq 0 n)) (seq 0 k))
  else Raise ValueError.

(** p in name *)
Fixpoint begins (p t : text) : bool :=
  match p, t with
  | [], _ => true
  | a :: p, b :: t => Ascii.eqb a b && begins p t
  | _, [] => false
  end.
Fixpoint inside (p t : text) : bool := begins p t || match t with [] => false | _ :: t => inside p t end.

(** mmio.py:985-994. What the loop has bound: vertices, triangles and quadrangles. *)
Definition med_state : Type := option (list (list R)) * option (list (list Z)) * option (list (list Z)).
Definition med_floats (i : item) : res (list R) :=
  match i with Folder => Raise TypeError | Floats l => Ok l | Ints l => Ok (map IZR l) end.
(** Simplification: connectivities that are not integer are refused. *)
Definition med_ints (i : item) : res (list Z) :=
  match i with Ints l => Ok l | _ => Raise TypeError end.
Definition med_step (st : med_state) (x : text * item) : res med_state :=
  let '(v, t, q) := st in
  do v <- if inside (s "/NOE/COO") (fst x) then do l <- med_floats (snd x); do rows <- reshape_T 3 l; Ok (Some rows) else Ok v;
  do t <- if inside (s "/MAI/TR3/NOD") (fst x) then do l <- med_ints (snd x); do rows <- reshape_T 3 l; Ok (Some (map (map (fun n => n - 1)%Z) rows)) else Ok t;
  do q <- if inside (s "/MAI/QU4/NOD") (fst x) then do l <- med_ints (snd x); do rows <- reshape_T 4 l; Ok (Some (map (map (fun n => n - 1)%Z) rows)) else Ok q;
  Ok (v, t, q).
Fixpoint med_loop (st : med_state) (l : list (text * item)) : res med_state :=
  match l with [] => Ok st | x :: l => do st <- med_step st x; med_loop st l end.

(** mmio.py:954-1011 load_MED. [file] lists the names and items in the order of h5py's visit. *)
Definition load_MED (file : list (text * item)) : res (list (list R) * list (list Z)) :=
  do st <- med_loop (None, None, None) file;
  let '(v, t, q) := st in
  let triangles := match t with Some rows => map (fun r => r ++ firstn 1 r) rows | None => [] end in
  let quadrangles := match q with Some rows => rows | None => [] end in
  match v with
  | None => Raise NameError
  | Some vs => Ok (vs, triangles ++ quadrangles)
  end.
