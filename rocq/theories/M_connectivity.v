(** Model of the connectivity of class Mesh and of the functions that use it (meshmagick/mesh.py).

    Sets are lists without repetition. The order in which Python iterates over a set is unspecified: it is given by an
    oracle [order], any function that permutes its argument. Dictionaries with keys 0..n-1 are lists; an insertion
    ordered dictionary is an association list, last inserted last. *)
From Coq Require Import Reals List Arith Bool.
From Verif Require Import M_base M_merge M_plane M_mesh M_geometry.
Import ListNotations.
Open Scope nat_scope.

(** mesh.py:938-941 face_w, also get_face (827-844) *)
Definition face_w (f : face) : list nat := if is_triangle f then [f0 f; f1 f; f2 f] else entries f.

Definition mem (x : nat) (l : list nat) : bool := existsb (Nat.eqb x) l.
(** set.add, set.remove (KeyError when absent), intersection *)
Definition set_add (x : nat) (l : list nat) : list nat := if mem x l then l else l ++ [x].
Definition set_remove (x : nat) (l : list nat) : res (list nat) :=
  if mem x l then Ok (filter (fun y => negb (x =? y)) l) else Raise KeyError.
Definition inter (l m : list nat) : list nat := filter (fun x => mem x m) l.

(** d[k] on a dictionary with keys 0..n-1, and its update *)
Definition dget {A} (d : list A) (k : nat) : res A :=
  match nth_error d k with Some a => Ok a | None => Raise KeyError end.
Definition dadd (d : list (list nat)) (k x : nat) : res (list (list nat)) :=
  do s <- dget d k; Ok (set_nth d k (set_add x s)).

(** (face_w[index - 1], face_w[index]) for each index; face_w[-1] is the last one *)
Definition steps (l : list nat) : list (nat * nat) := combine (last l 0 :: removelast l) l.

(** mesh.py:942-945, body of the inner loop *)
Definition add_step (iface : nat) (st : list (list nat) * list (list nat)) (e : nat * nat) :
  res (list (list nat) * list (list nat)) :=
  let '(vv, vf) := st in let '(p, c) := e in
  do vf <- dadd vf c iface;
  do vv <- dadd vv p c;
  do vv <- dadd vv c p;
  Ok (vv, vf).

Fixpoint foldM {A B} (f : B -> A -> res B) (l : list A) (b : B) : res B :=
  match l with
  | [] => Ok b
  | a :: t => do b <- f b a; foldM f t b
  end.

(** enumerate *)
Definition enumerate {A} (l : list A) : list (nat * A) := combine (seq 0 (length l)) l.

(** mesh.py:934-945 *)
Definition vertex_tables (nv : nat) (fs : list face) : res (list (list nat) * list (list nat)) :=
  foldM (fun st (e : nat * face) => foldM (add_step (fst e)) (steps (face_w (snd e))) st)
        (enumerate fs) (repeat [] nv, repeat [] nv).

(** Insertion ordered dictionary: d[k] = v, d.pop(k), d.popitem() *)
Fixpoint od_set (d : list (nat * nat)) (k v : nat) : list (nat * nat) :=
  match d with
  | [] => [(k, v)]
  | (k', v') :: t => if k =? k' then (k, v) :: t else (k', v') :: od_set t k v
  end.
Fixpoint od_get (d : list (nat * nat)) (k : nat) : option nat :=
  match d with
  | [] => None
  | (k', v) :: t => if k =? k' then Some v else od_get t k
  end.
Definition od_del (d : list (nat * nat)) (k : nat) : list (nat * nat) := filter (fun e => negb (k =? fst e)) d.

(** positions of [u] or [v] in a face (mesh.py:962) *)
Definition positions (l : list nat) (u v : nat) : list nat := where_ (fun x => (x =? u) || (x =? v)) l.

(** mesh.py:957-970: the border edge (orig, target). Fewer than two positions: IndexError; more: ValueError. *)
Definition border_edge (f : face) (u v : nat) : res (nat * nat) :=
  let w := face_w f in
  match positions w u v with
  | [] => Raise IndexError
  | [_] => Raise IndexError
  | [i; j] =>
      do a <- get w i; do b <- get w j;
      if j =? i + 1 then Ok (b, a) else Ok (a, b)
  | _ => Raise ValueError
  end.

(** State of the second loop: f_f and boundary_edges. *)
Definition estate := (list (list nat) * list (nat * nat))%type.

(** mesh.py:950-972, one adjacent vertex *)
Definition edge_step (fs : list face) (vf : list (list nat)) (u : nat) (st : estate) (v : nat) : res estate :=
  let '(ff, be) := st in
  do s1 <- dget vf u;
  do s2 <- dget vf v;
  match inter s1 s2 with
  | [f; g] => do ff <- dadd ff f g; do ff <- dadd ff g f; Ok (ff, be)
  | [f] =>
      do fc <- get fs f;
      do (o, t) <- border_edge fc u v;
      Ok (ff, od_set be o t)
  | _ => Raise RuntimeError
  end.

(** mesh.py:984-996: the inner loop, following the edges from [cur]. The dictionary shrinks, its length is enough
    fuel. *)
Fixpoint chain (fuel : nat) (d : list (nat * nat)) (cur : nat) : list nat * list (nat * nat) :=
  match fuel with
  | O => ([], d)
  | S n => match od_get d cur with
           | None => ([], d)
           | Some v => let (l, d') := chain n (od_del d cur) v in (v :: l, d')
           end
  end.

(** mesh.py:974-998: the list of closed chains *)
Fixpoint chains (fuel : nat) (d : list (nat * nat)) : list (list nat) :=
  match fuel with
  | O => []
  | S n =>
      match rev d with
      | [] => []
      | (o, t) :: r =>
          let (l, d') := chain (length d) (rev r) t in
          let boundary := o :: t :: l in
          if o =? last boundary 0 then boundary :: chains n d' else chains n d'
      end
  end.

Record connectivity := mkConn { c_vv : list (list nat); c_vf : list (list nat); c_ff : list (list nat);
                                c_bounds : list (list nat) }.

Section Order.
  (** Iteration order of the sets: a permutation of the members. *)
  Variable order : list nat -> list nat.

  (** mesh.py:947-972 *)
  Definition edge_tables (fs : list face) (nv : nat) (vv vf : list (list nat)) : res estate :=
    foldM (fun st u => do s <- dget vv u; foldM (edge_step fs vf u) (order s) st)
          (seq 0 nv) (repeat [] (length fs), []).

  (** mesh.py:926-1015 _connectivity *)
  Definition connectivity_of (nv : nat) (fs : list face) : res connectivity :=
    do (vv, vf) <- vertex_tables nv fs;
    do (ff, be) <- edge_tables fs nv vv vf;
    Ok (mkConn vv vf ff (chains (length be) be)).
  Definition mesh_connectivity (m : mesh) : res connectivity := connectivity_of (length (verts m)) (faces m).

  (** mesh.py:1135-1145 is_mesh_closed, given the (cached) boundaries *)
  Definition is_mesh_closed (m : mesh) : res bool :=
    do c <- mesh_connectivity m; Ok (match c_bounds c with [] => true | _ => false end).

  (** ** heal_normals, mesh.py:1560-1679 *)

  (** np.where(l == x)[0][0] *)
  Definition position (x : nat) (l : list nat) : res nat :=
    match where_ (Nat.eqb x) l with [] => Raise IndexError | i :: _ => Ok i end.
  (** np.roll(l, -p) *)
  Definition roll (l : list nat) (p : nat) : list nat :=
    let p := p mod length l in skipn p l ++ firstn p l.

  (** l[i] with i = 1 or i = -1 *)
  Definition second (l : list nat) : res nat := get l 1.
  Definition final (l : list nat) : res nat := match rev l with [] => Raise IndexError | a :: _ => Ok a end.

  (** mesh.py:1611-1630: whether the adjacent face has to be reversed; [None] when the faces do not share exactly two
      vertices. [ta], [tb] are the numbers of corners (type_cell). *)
  Definition must_flip (ta tb : nat) (a b : face) : res (option bool) :=
    match order (inter (nodup Nat.eq_dec (entries a)) (entries b)) with
    | [v1; v2] =>
        do pa <- position v1 (entries a);
        let ra := roll (firstn ta (entries a)) pa in
        do pb <- position v1 (entries b);
        let rb := roll (firstn tb (entries b)) pb in
        do x <- second ra;
        do y <- (if x =? v2 then second rb else final rb);
        Ok (Some (y =? v2))
    | _ => Ok None
    end.

  (** State of the flood: faces, f_f, f_vis, stack. *)
  Record flood := mkFlood { fl_faces : list face; fl_ff : list (list nat); fl_vis : list bool; fl_stack : list nat }.

  (** mesh.py:1602-1638, one adjacent face *)
  Definition visit (types : list nat) (iface : nat) (st : flood) (j : nat) : res flood :=
    do v <- get (fl_vis st) j;
    if (v : bool) then Ok st
    else
      let vis := set_nth (fl_vis st) j true in
      do s <- dget (fl_ff st) j;
      do s' <- set_remove iface s;
      let ff := set_nth (fl_ff st) j s' in
      do a <- get (fl_faces st) iface;
      do b <- get (fl_faces st) j;
      do ta <- get types iface;
      do tb <- get types j;
      do r <- must_flip ta tb a b;
      match r with
      | None => Ok (mkFlood (fl_faces st) ff vis (fl_stack st))
      | Some r => Ok (mkFlood (if (r : bool) then set_nth (fl_faces st) j (flip_face b) else fl_faces st)
                              ff vis (j :: fl_stack st))
      end.

  (** mesh.py:1588-1594: [None] is the break *)
  Definition refill (st : flood) : option (nat * flood) :=
    match fl_stack st with
    | i :: stack => Some (i, mkFlood (fl_faces st) (fl_ff st) (fl_vis st) stack)
    | [] => match where_ negb (fl_vis st) with
            | [] => None
            | i :: _ => Some (i, mkFlood (fl_faces st) (fl_ff st) (set_nth (fl_vis st) i true) [])
            end
    end.

  (** mesh.py:1587-1638, the while loop. Every face enters the stack at most once, so that one turn for each face is
      enough (P_heal.v). *)
  Fixpoint flood_loop (types : list nat) (fuel : nat) (st : flood) : res flood :=
    match refill st with
    | None => Ok st
    | Some (i, st) =>
        match fuel with
        | O => Raise OutOfFuel
        | S n =>
            do s <- dget (fl_ff st) i;
            do st <- foldM (visit types i) (order s) st;
            flood_loop types n st
        end
    end.

  (** mesh.py:1579-1586 and the loop, given triangles_ids and f_f *)
  Definition flood_faces (tri : list nat) (ff : list (list nat)) (fs : list face) : res flood :=
    let nf := length fs in
    if forallb (fun i => i <? nf) tri then
      if 0 <? nf then
        flood_loop (set_all (repeat 4 nf) tri 3) nf (mkFlood fs ff (set_nth (repeat false nf) 0 true) [0])
      else Raise IndexError
    else Raise IndexError.

  (** mesh.py:1656, third component of hs *)
  Definition heave (zmax : R) (props : list fprops) : R :=
    Rsum (map (fun p => ((vz (fp_center p) - zmax) * fp_area p * vz (fp_normal p))%R) props).

  (** mesh.py:1560-1679 heal_normals, given the connectivity, the ids of triangles and quadrangles, and the face
      properties when they are cached. Returns the new faces and f_f. *)
  Definition heal_normals_with (c : connectivity) (tri quad : list nat) (props : option (list fprops)) (m : mesh) :
    res (mesh * list (list nat)) :=
    do st <- flood_faces tri (c_ff c) (faces m);
    let fs := fl_faces st in
    match c_bounds c with
    | [] =>
        do zmax <- arr_max (map vz (verts m));
        do props <- match props with Some p => Ok p | None => faces_properties_with tri quad (verts m) fs end;
        Ok (mkMesh (verts m) (if Rltb (heave zmax props) 0 then map flip_face fs else fs), fl_ff st)
    | _ => Ok (mkMesh (verts m) fs, fl_ff st)
    end.
  Definition heal_normals (m : mesh) : res mesh :=
    do c <- mesh_connectivity m;
    do (m', _) <- heal_normals_with c (triangles_ids (faces m)) (quadrangles_ids (faces m)) None m;
    Ok m'.
End Order.

(** ** is_mesh_conformal, mesh.py:1147-1199 *)
(** ((np.roll(a, -1) - a) * (np.roll(b, -1) + b)).sum(), for columns [a] and [b] of an array of points *)
Definition roll_next {A} (l : list A) : list A := match l with [] => [] | x :: t => t ++ [x] end.
Definition curve_area (a b : vec -> R) (l : list vec) : R :=
  Rsum (map (fun e => ((a (snd e) - a (fst e)) * (b (snd e) + b (fst e)))%R) (combine l (roll_next l))).

(** The plane through the origin whose normal is set in turn to ez, ex, ey (mesh.py:1170-1178). Column 0 and column 1
    of the projected points are read each time. *)
Definition is_mesh_conformal_with (bounds : list (list nat)) (vs : list vec) : res (option bool) :=
  match bounds with
  | [] => Ok None
  | b :: _ =>
      do pts <- mapM (get vs) b;
      let pl0 := plane_new (V3 0 0 1) 0 in
      let pl1 := set_normal pl0 (V3 1 0 0) in
      let pl2 := set_normal pl1 (V3 0 1 0) in
      let a0 := curve_area vy vx (map (projection pl0) pts) in
      let a1 := curve_area vx vy (map (projection pl1) pts) in
      let a2 := curve_area vx vy (map (projection pl2) pts) in
      let tol := (1 / 10000000)%R in
      Ok (Some (negb (Rltb (Rabs a0) tol && Rltb (Rabs a1) tol && Rltb (Rabs a2) tol)))
  end.
Definition is_mesh_conformal (order : list nat -> list nat) (m : mesh) : res (option bool) :=
  do c <- mesh_connectivity order m; is_mesh_conformal_with (c_bounds c) (verts m).
