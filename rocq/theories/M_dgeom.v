(** Model of the properties of faces and of the volume (meshmagick/mesh.py) in double precision: M_geometry.v with the
    roundings of M_double.v.

    Simplification: written face by face, where the code assigns all triangles, then all quadrangles. *)
From Coq Require Import Reals List Arith Bool.
From Verif Require Import M_base M_merge M_mesh M_inertia M_geometry M_double.
Import ListNotations.
Open Scope R_scope.

(** Sums of arrays, as computed (np.sum, np.linalg.norm along an axis): any function that adds all terms (see [sums]). *)
Definition adds (fsum : list R -> R) : Prop := forall l, l <> [] -> sums l (fsum l).
(** The sum from left to right is one of them. *)
Definition plain_sum (l : list R) : R :=
  match l with [] => 0 | x :: t => fold_left (fun s y => fadd s (fl y)) t (fl x) end.

(** Arithmetic on rows, component by component *)
Definition vadd_double (a b : vec) : vec := V3 (fadd (vx a) (vx b)) (fadd (vy a) (vy b)) (fadd (vz a) (vz b)).
Definition vsub_double (a b : vec) : vec := V3 (fsub (vx a) (vx b)) (fsub (vy a) (vy b)) (fsub (vz a) (vz b)).
Definition vscale_double (k : R) (a : vec) : vec := V3 (fmul k (vx a)) (fmul k (vy a)) (fmul k (vz a)).
Definition vdiv_double (a : vec) (k : R) : vec := V3 (fdiv (vx a) k) (fdiv (vy a) k) (fdiv (vz a) k).
(** np.cross *)
Definition cross_double (a b : vec) : vec :=
  V3 (fsub (fmul (vy a) (vz b)) (fmul (vz a) (vy b))) (fsub (fmul (vz a) (vx b)) (fmul (vx a) (vz b)))
     (fsub (fmul (vx a) (vy b)) (fmul (vy a) (vx b))).
(** np.linalg.norm(..., axis=1), one row *)
Definition norm_double (fsum : list R -> R) (v : vec) : R := fsqrt (fsum [vx v * vx v; vy v * vy v; vz v * vz v]).
(** np.sum(vertices, axis=1), one face *)
Definition sum3_double (fsum : list R -> R) (a b c : vec) : vec :=
  V3 (fsum [vx a; vx b; vx c]) (fsum [vy a; vy b; vy c]) (fsum [vz a; vz b; vz c]).
Definition sum2_double (fsum : list R -> R) (a b : vec) : vec :=
  V3 (fsum [vx a; vx b]) (fsum [vy a; vy b]) (fsum [vz a; vz b]).

(** mesh.py:662-667, triangles *)
Definition triangle_props_double (fsum : list R -> R) (q : corner4) : fprops :=
  let n := cross_double (vsub_double (p1 q) (p0 q)) (vsub_double (p2 q) (p0 q)) in
  let a := norm_double fsum n in
  mkProps (fdiv a 2) (vdiv_double n a) (vdiv_double (sum3_double fsum (p0 q) (p1 q) (p2 q)) 3).
(** mesh.py:674-687, quadrangles *)
Definition quad_props_double (fsum : list R -> R) (q : corner4) : fprops :=
  let n := cross_double (vsub_double (p2 q) (p0 q)) (vsub_double (p3 q) (p1 q)) in
  let a1 := fmul (norm_double fsum (cross_double (vsub_double (p1 q) (p0 q)) (vsub_double (p2 q) (p0 q)))) (1 / 2) in
  let a2 := fmul (norm_double fsum (cross_double (vsub_double (p3 q) (p0 q)) (vsub_double (p2 q) (p0 q)))) (1 / 2) in
  let c1 := vdiv_double (sum3_double fsum (p0 q) (p1 q) (p2 q)) 3 in
  let c2 := vdiv_double (vadd_double (sum2_double fsum (p2 q) (p3 q)) (p0 q)) 3 in
  let a := fadd a1 a2 in
  mkProps a (vdiv_double n (norm_double fsum n)) (vdiv_double (vadd_double (vscale_double a1 c1) (vscale_double a2 c2)) a).
Definition face_props_double (fsum : list R -> R) (vs : list vec) (f : face) : res fprops :=
  do q <- face_corners vs f; Ok (if is_triangle f then triangle_props_double fsum q else quad_props_double fsum q).
(** Each line of an array with its number *)
Definition numbered {A} (l : list A) : list (nat * A) := combine (seq 0 (length l)) l.
(** mesh.py:641-695 _faces_properties. The order of a sum may depend on the face. *)
Definition faces_properties_double (fsum : nat -> list R -> R) (m : mesh) : res (list fprops) :=
  mapM (fun jf => face_props_double (fsum (fst jf)) (verts m) (snd jf)) (numbered (faces m)).

(** faces_areas.sum(), hydrostatics.py:41 and mesh.py:2012 *)
Definition total_area_double (fsum : nat -> list R -> R) (ftotal : list R -> R) (m : mesh) : res R :=
  do props <- faces_properties_double fsum m; Ok (ftotal (map fp_area props)).

(** mesh.py:2073-2089 _compute_triangles_integrals: the first three integrals of a triangle *)
Definition moments_double (fsum : list R -> R) (a b c : vec) : vec :=
  let f1 := vadd_double (vadd_double a b) c in
  let delta := norm_double fsum (cross_double (vsub_double b a) (vsub_double c a)) in
  vdiv_double (vscale_double delta f1) 6.
(** mesh.py:1881-1910 _compute_faces_integrals, the first three of one face *)
Definition face_moments_double (fsum : list R -> R) (vs : list vec) (f : face) : res vec :=
  do q <- face_corners vs f;
  Ok (if is_triangle f then moments_double fsum (p0 q) (p1 q) (p2 q)
      else vadd_double (moments_double fsum (p0 q) (p1 q) (p2 q)) (moments_double fsum (p0 q) (p2 q) (p3 q))).
Definition faces_moments_double (fsum : nat -> list R -> R) (m : mesh) : res (list vec) :=
  mapM (fun jf => face_moments_double (fsum (fst jf)) (verts m) (snd jf)) (numbered (faces m)).

(** mesh.py:1932-1939 _compute_volume: (normals.T * sigma_0_2).sum() / 3. *)
Definition products (n s : vec) : list R := [vx n * vx s; vy n * vy s; vz n * vz s].
Definition volume_double (fsum fsum' : nat -> list R -> R) (ftotal : list R -> R) (m : mesh) : res R :=
  do ints <- faces_moments_double fsum m;
  do props <- faces_properties_double fsum' m;
  Ok (fdiv (ftotal (flat_map (fun ip => products (fp_normal (snd ip)) (fst ip)) (combine ints props))) 3).
