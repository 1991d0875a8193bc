(** Specification vocabulary for the clipping of a mesh by a plane. *)
From Coq Require Import Reals List Permutation.
From Verif Require Import M_base M_plane M_mesh S_mesh S_geometry S_plane S_connectivity.
Import ListNotations.
Open Scope R_scope.

(** Signed height of a point above the plane n.x = c (a length when n is a unit vector). *)
Definition height (p : plane) (x : vec) : R := dot (p_normal p) x - p_scalar p.
Definition is_above (p : plane) (tol : R) (x : vec) : Prop := tol < height p x.
Definition is_below (p : plane) (tol : R) (x : vec) : Prop := height p x < - tol.
Definition is_near (p : plane) (tol : R) (x : vec) : Prop := - tol < height p x < tol.
(** Not exactly at the tolerance. *)
Definition sorted_out (p : plane) (tol : R) (x : vec) : Prop := Rabs (height p x) <> tol.

(** [x] is a weighted mean of the points [ps], with non negative weights. *)
Definition hull (ps : list vec) (x : vec) : Prop :=
  exists ws, length ws = length ps /\ Forall (fun w => 0 <= w) ws /\ Rsum ws = 1 /\
    x = vsum (map (fun wp => vscale (fst wp) (snd wp)) (combine ws ps)).

(** The three or four corners of a face. *)
Definition outline (vs : list vec) (f : face) : list vec :=
  if Nat.eq_dec (f0 f) (f3 f) then [point vs (f0 f); point vs (f1 f); point vs (f2 f)]
  else [point vs (f0 f); point vs (f1 f); point vs (f2 f); point vs (f3 f)].
(** Triangles, and quadrangles that are planar and convex. *)
Definition convex_outline (ps : list vec) : Prop :=
  match ps with
  | [a; b; c] => True
  | [a; b; c; d] => convex_planar a b c d
  | _ => False
  end.

(** The same corners in the same cyclic order. *)
Definition turned {A} (l l' : list A) : Prop := exists k, l' = skipn k l ++ firstn k l.

(** One corner above, one below, and the two others, which follow each other, within tolerance. *)
Definition pinched (p : plane) (tol : R) (ps : list vec) : Prop :=
  exists a b c d, turned ps [a; b; c; d] /\ is_near p tol a /\ is_near p tol b /\
    (is_above p tol c /\ is_below p tol d \/ is_below p tol c /\ is_above p tol d).
(** A quadrangle with exactly three corners within tolerance. *)
Definition three_near (p : plane) (tol : R) (ps : list vec) : Prop :=
  exists a b c d, turned ps [a; b; c; d] /\ is_near p tol a /\ is_near p tol b /\ is_near p tol c /\ ~ is_near p tol d.

(** The normals at the corners all have the direction of [u]. *)
Definition along (u v : vec) : Prop := exists k, 0 <= k /\ v = vscale k u.
Definition turns_along (u : vec) (ps : list vec) : Prop :=
  match ps with
  | [a; b; c] => along u (triangle_normal a b c)
  | [a; b; c; d] => along u (triangle_normal a b c) /\ along u (triangle_normal b c d) /\
                    along u (triangle_normal c d a) /\ along u (triangle_normal d a b)
  | _ => False
  end.

(** Strictly: no corner is flat. *)
Definition ahead (u v : vec) : Prop := exists k, 0 < k /\ v = vscale k u.
Definition turns_strictly (u : vec) (ps : list vec) : Prop :=
  match ps with
  | [a; b; c] => ahead u (triangle_normal a b c)
  | [a; b; c; d] => ahead u (triangle_normal a b c) /\ ahead u (triangle_normal b c d) /\
                    ahead u (triangle_normal c d a) /\ ahead u (triangle_normal d a b)
  | _ => False
  end.

(** The faces of corners [outs] are what is left of the face of corners [src]. *)
Record kept_part (p : plane) (tol : R) (src : list vec) (outs : list (list vec)) : Prop := {
  kept_quads : forall o, In o outs -> length o = 4%nat;
  (* nothing is added, and nothing is left above the tolerance *)
  kept_inside : forall o x, In o outs -> hull o x -> hull src x /\ height p x <= tol;
  (* all that is lower than the tolerance is kept *)
  kept_below : forall x, hull src x -> height p x < - tol -> exists o, In o outs /\ hull o x;
  (* without corners within tolerance, exactly the part under the plane is kept *)
  kept_exact : (forall c, In c src -> ~ is_near p tol c) ->
    (forall o x, In o outs -> hull o x -> height p x <= 0) /\
    (forall x, hull src x -> height p x < 0 -> exists o, In o outs /\ hull o x);
  (* same orientation *)
  kept_oriented : forall u a b c d, turns_along u src -> In [a; b; c; d] outs ->
    along u (triangle_normal a b c) /\ along u (triangle_normal a c d);
  (* no degenerate piece *)
  kept_strict : forall u a b c d, turns_strictly u src -> In [a; b; c; d] outs -> ahead u (triangle_normal a b c)
}.

(** No corner of a face is exactly at the tolerance. *)
Definition settled (p : plane) (tol : R) (m : mesh) : Prop :=
  Forall (fun f => Forall (sorted_out p tol) (outline (verts m) f)) (faces m).
(** Some face has a corner below and a corner that is not. *)
Definition straddling (p : plane) (tol : R) (m : mesh) : Prop := exists f, In f (faces m) /\
  (exists x, In x (outline (verts m) f) /\ is_below p tol x) /\ (exists y, In y (outline (verts m) f) /\ ~ is_below p tol y).
(** [outs] is what is left of face number [id]. *)
Definition left_of (p : plane) (tol : R) (m : mesh) (id : nat) (outs : list (list vec)) : Prop :=
  exists f, nth_error (faces m) id = Some f /\ kept_part p tol (outline (verts m) f) outs.
(** The four corners of the face are the points [o], moved by at most [t] along each axis. *)
Definition near_face (t : R) (vs : list vec) (o : list vec) (f : face) : Prop :=
  exists ps, corners vs f ps /\ Forall2 (near_point t) o ps.
(** Displacements allowed when merging vertices, first in the crown and then in the whole mesh. *)
Definition clip_move : R := 1 / 100000 + 1 / 100000000.

(** ** Intersection curves *)

(** Sides around a face given by its corners. *)
Definition around (ps : list vec) : list (vec * vec) :=
  match ps with
  | [] => []
  | a :: _ => combine ps (tl ps ++ [a])
  end.
(** Sum of a function of directed segments. *)
Definition run (phi : vec -> vec -> R) (l : list (vec * vec)) : R := Rsum (map (fun e => phi (fst e) (snd e)) l).
(** Each segment is run along as often in both directions: all the functions that change sign with the direction cancel. *)
Definition cancels (l : list (vec * vec)) : Prop :=
  forall phi, (forall a b, phi a b = - phi b a) -> run phi l = 0.
Definition at_waterline (p : plane) (tol : R) (x : vec) : Prop := height p x = 0 \/ is_near p tol x.

(** Lines made of the directed edges [edges], [inv] being the edges reversed. *)
Record ordered (inv edges : list (nat * nat)) (closed open : list (list nat)) : Prop := {
  or_closed : Forall (fun b => (2 <= length b)%nat /\ hd 0%nat b = last b 0%nat /\ incl (pairs b) edges) closed;
  or_open : Forall (fun b => (2 <= length b)%nat /\ hd 0%nat b <> last b 0%nat /\
                             forall u v, In (u, v) (pairs b) -> In (u, v) edges \/ In (v, u) inv) open;
  (* every edge is used once: each start of an edge is a vertex of a line other than its last one *)
  or_starts : Permutation (map fst edges) (flat_map (@removelast nat) (closed ++ open));
  or_edges : (forall a b x, In (a, b) inv -> In (b, x) edges -> x = a) -> Permutation edges (flat_map pairs (closed ++ open))
}.
(** The edge of the mesh joins the ends of the segment, moved by at most [t] along each axis. *)
Definition near_edge (t : R) (vs : list vec) (s : vec * vec) (e : nat * nat) : Prop :=
  exists x y, nth_error vs (fst e) = Some x /\ nth_error vs (snd e) = Some y /\ near_point t (fst s) x /\ near_point t (snd s) y.

(** ** The waterline *)

(** Where a side that crosses the plane meets it. *)
Definition meet (p : plane) (a b : vec) : vec :=
  let t := height p a / (height p a - height p b) in vadd (vscale (1 - t) a) (vscale t b).
Definition below_dec (p : plane) (tol : R) (x : vec) : {is_below p tol x} + {~ is_below p tol x} := Rlt_dec _ _.
Definition above_dec (p : plane) (tol : R) (x : vec) : {is_above p tol x} + {~ is_above p tol x} := Rlt_dec _ _.
(** Where a side leaves the lower part, going from its first end to the second: at the second end if this one is within
    tolerance, where it crosses the plane otherwise. *)
Definition leaving (p : plane) (tol : R) (s : vec * vec) : list vec :=
  if below_dec p tol (fst s) then
    if below_dec p tol (snd s) then [] else [if above_dec p tol (snd s) then meet p (fst s) (snd s) else snd s]
  else [].
Definition entering (p : plane) (tol : R) (s : vec * vec) : list vec := leaving p tol (snd s, fst s).
(** The segment of the waterline on a face: from where the outline enters the lower part to where it leaves it. None when
    the face only touches the plane with one corner. *)
Definition touching (p : plane) (tol : R) (ps : list vec) : bool :=
  match filter (fun x => if below_dec p tol x then false else true) ps with
  | [x] => if above_dec p tol x then false else true
  | _ => false
  end.
Definition face_waterline (p : plane) (tol : R) (ps : list vec) : list (vec * vec) :=
  if touching p tol ps then []
  else match flat_map (entering p tol) (around ps), flat_map (leaving p tol) (around ps) with
       | [e], [l] => [(e, l)]
       | _, _ => []
       end.
Definition waterline (p : plane) (tol : R) (m : mesh) : list (vec * vec) :=
  flat_map (fun f => face_waterline p tol (outline (verts m) f)) (faces m).
(** Vertices, and points where a side crosses the plane. *)
Definition cut_point (p : plane) (tol : R) (m : mesh) (x : vec) : Prop :=
  In x (verts m) \/
  exists f a b, In f (faces m) /\ In (a, b) (around (outline (verts m) f)) /\
    (is_below p tol a /\ is_above p tol b \/ is_above p tol a /\ is_below p tol b) /\ x = meet p a b.
(** Points closer than [t] are equal. *)
Definition spread (t : R) (Q : vec -> Prop) : Prop := forall x y, Q x -> Q y -> near_point t x y -> x = y.

(** ** Cases in which clipping fails *)

Definition exactly_at (p : plane) (tol : R) (x : vec) : Prop := Rabs (height p x) = tol.
(** A triangle with a corner exactly at the tolerance, or a quadrangle with two. *)
Definition undecided (p : plane) (tol : R) (ps : list vec) : Prop :=
  match ps with
  | [a; b; c] => exists x, In x ps /\ exactly_at p tol x
  | _ => exists i j x y, i <> j /\ nth_error ps i = Some x /\ nth_error ps j = Some y /\ exactly_at p tol x /\ exactly_at p tol y
  end.
(** Opposite corners above, the two others below. *)
Definition alternating (p : plane) (tol : R) (ps : list vec) : Prop :=
  exists a b c d, turned ps [a; b; c; d] /\ is_above p tol a /\ is_below p tol b /\ is_above p tol c /\ is_below p tol d.

(** What is left of a side: the part under the plane, or the whole side when its upper end is within tolerance. *)
Definition immersed_side (p : plane) (tol : R) (s : vec * vec) : list (vec * vec) :=
  let (a, b) := s in
  if below_dec p tol a then
    if below_dec p tol b then [(a, b)] else if above_dec p tol b then [(a, meet p a b)] else [(a, b)]
  else if below_dec p tol b then
    if above_dec p tol a then [(meet p a b, b)] else [(a, b)]
  else [].
(** The border of the pieces [outs] of the face: the immersed parts of its sides, and the segment of the waterline run
    along backwards. Sides between two pieces are run along in both directions. *)
Definition bordered (p : plane) (tol : R) (m : mesh) (id : nat) (outs : list (list vec)) : Prop :=
  exists f, nth_error (faces m) id = Some f /\ forall phi, (forall a b, phi a b = - phi b a) ->
    run phi (flat_map around outs) + run phi (face_waterline p tol (outline (verts m) f)) =
    run phi (flat_map (immersed_side p tol) (around (outline (verts m) f))).
(** The closed border of the immersed part of a face, and the triangles that join the first corner of the face to it. *)
Definition immersed_border (p : plane) (tol : R) (ps : list vec) : list (vec * vec) :=
  flat_map (immersed_side p tol) (around ps) ++ map (fun s => (snd s, fst s)) (face_waterline p tol ps).
Definition immersed_fan (p : plane) (tol : R) (ps : list vec) : list (vec * vec * vec) :=
  map (fun s => (hd vzero ps, fst s, snd s)) (immersed_border p tol ps).
Definition immersed_triangles (p : plane) (tol : R) (m : mesh) : list (vec * vec * vec) :=
  flat_map (fun f => immersed_fan p tol (outline (verts m) f)) (faces m).
