(** Model of meshmagick/tools.py and of parts of meshmagick/mesh.py in double precision: numpy's float64 arithmetic with
    its roundings, where the rest of the model has exact real numbers.

    Simplifications: exponents have no upper bound (no infinity) and zero has no sign. *)
From Coq Require Import Reals List Arith Bool Sorting.Permutation.
From Flocq Require Import Core.
From Verif Require Import M_base M_rotations M_merge M_plane M_mesh.
Import ListNotations.
Open Scope R_scope.

(** The double nearest to a real number, ties to even, with gradual underflow: the result of one operation on doubles
    is the rounding of the exact result (IEEE 754). *)
Definition fl (x : R) : R := round radix2 (FLT_exp (-1074) 53) ZnearestE x.
Definition fadd (x y : R) : R := fl (x + y).
Definition fsub (x y : R) : R := fl (x - y).
Definition fmul (x y : R) : R := fl (x * y).
Definition fdiv (x y : R) : R := fl (x / y).
Definition fsqrt (x : R) : R := fl (sqrt x).

(** Sums in numpy (np.dot, np.sum, np.einsum) of the terms of a list, each term being a product or a double. The order and the grouping
    of the additions are not specified, and a product may be added with a single rounding (fused multiply-add). *)
Inductive sums : list R -> R -> Prop :=
| sums_term x : sums [x] (fl x)
| sums_fused l r x : sums l r -> sums (x :: l) (fl (r + x))
| sums_add l1 r1 l2 r2 : sums l1 r1 -> sums l2 r2 -> sums (l1 ++ l2) (fl (r1 + r2))
| sums_order l l' r : Permutation l l' -> sums l r -> sums l' r.

(** np.dot on vectors, as computed: any function that sums the three products. *)
Definition computes_dot (fdot : vec -> vec -> R) : Prop :=
  forall a b, sums [vx a * vx b; vy a * vy b; vz a * vz b] (fdot a b).
(** The sum from left to right is one of them. *)
Definition plain_dot (a b : vec) : R :=
  fadd (fadd (fmul (vx a) (vx b)) (fmul (vy a) (vy b))) (fmul (vz a) (vz b)).

(** tools.py:6-113 with any test in place of line 66: the functions of M_merge.v, the test being a parameter. *)
Section MergeBy.
  Variable argsort : list R -> list nat.
  Variable far : R -> R -> bool.
  Fixpoint cut_by (key : nat -> R) (vref : R) (l : list nat) : list nat * list (list nat) :=
    match l with
    | [] => ([], [])
    | i :: t =>
        if far (key i) vref then let (g, gs) := cut_by key (key i) t in ([], (i :: g) :: gs)
        else let (g, gs) := cut_by key vref t in (i :: g, gs)
    end.
  Definition refine_level_by (key : nat -> R) (g : list nat) : list (list nat) :=
    if (length g <=? 1)%nat then [g]
    else let s := sort_level argsort key g in
         match s with
         | [] => []
         | i0 :: _ => let (g0, gs) := cut_by key (key i0) s in g0 :: gs
         end.
  Fixpoint refine_by (keys : list (nat -> R)) (nv : nat) (levels : list (list nat)) : option (list (list nat)) :=
    match keys with
    | [] => Some levels
    | k :: ks =>
        let levels' := flat_map (refine_level_by k) levels in
        if (length levels' =? nv)%nat then None else refine_by ks nv levels'
    end.
  Definition merge_rows_by {A} (cols : list (A -> R)) (arr : list A) : res (list A * list nat) :=
    let nv := length arr in
    match refine_by (map (column arr) cols) nv [seq 0 nv] with
    | None => Ok (arr, seq 0 nv)
    | Some levels =>
        do uniq <- mapM (fun g => do i <- get g 0; get arr i) levels;
        Ok (uniq, number 0 levels (seq 0 nv))
    end.
End MergeBy.

(** tools.py:66, np.abs(cur_val - vref) > atol on doubles *)
Definition far_double (atol a b : R) : bool := Rltb atol (Rabs (fsub a b)).
(** tools.py:6-113 on doubles *)
Definition merge_double {A} argsort atol (cols : list (A -> R)) (arr : list A) : res (list A * list nat) :=
  merge_rows_by argsort (far_double atol) cols arr.

(** mesh.py:1512-1558 merge_duplicates on doubles *)
Definition merge_duplicates_double argsort (atol : R) (m : mesh) : res mesh :=
  do (uniq, new_id) <- merge_double argsort atol coords (verts m);
  do fs <- mapM (renumber new_id) (faces m);
  Ok (mkMesh uniq fs).
(** The literal 1e-8 (mesh.py:1512) *)
Definition default_atol_double : R := fl default_atol.
(** mesh.py:1475-1500 __add__ on doubles *)
Definition add_double argsort (m1 m2 : mesh) : res mesh :=
  merge_duplicates_double argsort default_atol_double (add_concat m1 m2).

(** value / np.linalg.norm(value), mesh.py:166,190 *)
Definition normalize_double (fdot : vec -> vec -> R) (v : vec) : vec :=
  let n := fsqrt (fdot v v) in V3 (fdiv (vx v) n) (fdiv (vy v) n) (fdiv (vz v) n).

(** mesh.py:301 get_point_dist_wrt_plane, for one point *)
Definition plane_dist_double (fdot : vec -> vec -> R) (p : plane) (x : vec) : R :=
  fsub (fdot x (p_normal p)) (p_scalar p).

(** mesh.py:1851 and 1876: v - 2 * np.outer(np.dot(v, n) - c, n) *)
Definition reflect_double (fdot : vec -> vec -> R) (p : plane) (v : vec) : vec :=
  let d := plane_dist_double fdot p v in
  let n := p_normal p in
  V3 (fsub (vx v) (fmul 2 (fmul d (vx n)))) (fsub (vy v) (fmul 2 (fmul d (vy n)))) (fsub (vz v) (fmul 2 (fmul d (vz n)))).
(** mesh.py:1868-1879 mirror *)
Definition mirror_double fdot (p : plane) (m : mesh) : mesh :=
  flip_normals (mkMesh (map (reflect_double fdot p) (verts m)) (faces m)).
(** mesh.py:1844-1866 symmetrize *)
Definition symmetrize_double argsort fdot (p : plane) (m : mesh) : res mesh :=
  merge_duplicates_double argsort default_atol_double
    (mkMesh (verts m ++ map (reflect_double fdot p) (verts m))
            (faces m ++ map (fun f => flip_face (shift_face (length (verts m)) f)) (faces m))).

(** mesh.py:330-353 get_edge_intersection: as [M_plane.get_edge_intersection], with the roundings. *)
Definition get_edge_intersection_double (fdot : vec -> vec -> R) (p : plane) (a b : vec) : res (option vec) :=
  let an := fdot a (p_normal p) in
  let bn := fdot b (p_normal p) in
  let den := fsub an bn in
  let num := fsub an (p_scalar p) in
  if Req_EM_T den 0 then
    if Req_EM_T num 0 then Ok None else Raise RuntimeError
  else
    let t := fdiv num den in
    if Rlt_dec t 0 then Raise RuntimeError
    else if Rlt_dec 1 t then Raise RuntimeError
    else
      let s := fsub 1 t in
      let mix x y := fadd (fmul s x) (fmul t y) in
      Ok (Some (V3 (mix (vx a) (vx b)) (mix (vy a) (vy b)) (mix (vz a) (vz b)))).

(** mesh.py:1356-1382 translate, the vertices *)
Definition translate_double (t : vec) (m : mesh) : mesh :=
  mkMesh (map (fun v => V3 (fadd (vx v) (vx t)) (fadd (vy v) (vy t)) (fadd (vz v) (vz t))) (verts m)) (faces m).
(** mesh.py:1384-1402 scale, the vertices *)
Definition scale_double (a : R) (m : mesh) : res mesh :=
  if Rltb 0 a then Ok (mkMesh (map (fun v => V3 (fmul (vx v) a) (fmul (vy v) a) (fmul (vz v) a)) (verts m)) (faces m))
  else Raise AssertionError.
