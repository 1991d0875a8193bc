(** Model of meshmagick/mesh_clipper.py in double precision: M_clipper.v with the roundings of M_double.v.

    The same simplifications as in M_clipper.v and M_double.v. *)
From Coq Require Import Reals List Arith Bool.
From Verif Require Import M_base M_merge M_plane M_mesh M_connectivity M_clipper M_double M_dgeom.
Import ListNotations.

(** mesh_clipper.py:121. np.dot of all the vertices with the normal: the order of a sum may depend on the line. *)
Definition distances_double (fdots : nat -> vec -> vec -> R) (p : plane) (m : mesh) : list R :=
  map (fun jv => plane_dist_double (fdots (fst jv)) p (snd jv)) (numbered (verts m)).

(** mesh_clipper.py:138-186 _partition_mesh *)
Definition partition_double (fdots : nat -> vec -> vec -> R) (p : plane) (tol : R) (m : mesh) : res partition :=
  let ds := distances_double fdots p m in
  do (ia, ic, ib) <- partition_ids tol ds (faces m);
  do u <- generate_mesh m ds ia;
  do c <- generate_mesh m ds ic;
  do l <- generate_mesh m ds ib;
  Ok (mkPartition ia ic ib u c l).

(** mesh.py:330-353, the point *)
Definition intersection_double (fdot : vec -> vec -> R) (p : plane) (a b : vec) : res vec :=
  do x <- get_edge_intersection_double fdot p a b;
  match x with Some x => Ok x | None => Raise NotANumber end.

(** mesh_clipper.py:367-666, one turn *)
Definition clip_step_double (fdot : vec -> vec -> R) (p : plane) (tol : R) (vs : list vec) (dist : list R) (st : crown_state) (f : face) : res crown_state :=
  do c <- clip_face tol dist (cs_index st) (face_w f);
  do xs <- mapM (fun e => do a <- get vs (fst e); do b <- get vs (snd e); intersection_double fdot p a b) (q_edges c);
  let '(d, i) := match q_bound c with
                 | Some (a, b) => (od_set (cs_direct st) a b, od_set (cs_inv st) b a)
                 | None => (cs_direct st, cs_inv st)
                 end in
  Ok (mkCrown (cs_ints st ++ xs) (cs_faces st ++ q_faces c) d i (cs_index st + q_shift c)).
Definition clip_faces_double fdot (p : plane) (tol : R) (vs : list vec) (dist : list R) (fs : list face) : res crown_state :=
  foldM (clip_step_double fdot p tol vs dist) fs (mkCrown [] [] [] [] (length vs)).

Section Clipper.
  Variable argsort : list R -> list nat.

  (** mesh.py:1512-1558 merge_duplicates(return_index=True) on doubles *)
  Definition merge_index_double (atol : R) (m : mesh) : res (mesh * list nat) :=
    do (uniq, new_id) <- merge_double argsort atol coords (verts m);
    do fs <- mapM (renumber new_id) (faces m);
    Ok (mkMesh uniq fs, new_id).
  (** The literal 1e-5 (mesh_clipper.py:676) *)
  Definition crown_atol_double : R := fl crown_atol.

  (** mesh_clipper.py:337-752 _clip_crown_by_plane *)
  Definition clip_crown_double (fdot : vec -> vec -> R) (p : plane) (tol : R) (assert_closed : bool) (c : part) :
    res (mesh * list (list nat) * list (list nat)) :=
    let vs := verts (pt_mesh c) in
    do st <- clip_faces_double fdot p tol vs (pt_dist c) (faces (pt_mesh c));
    do fs <- faces_array (cs_faces st);
    do (m, new_id) <- merge_index_double crown_atol_double (mkMesh (vs ++ cs_ints st) fs);
    do direct <- renumber_dict new_id (cs_direct st);
    do inv <- renumber_dict new_id (cs_inv st);
    let (closed, open) := curves (length direct) inv direct in
    if assert_closed && negb (length open =? 0) then Raise RuntimeError else Ok (m, closed, open).

  (** mesh_clipper.py:27-39, 108-113 and 754-761 *)
  Definition mesh_clipper_double (fdots : nat -> vec -> vec -> R) (fdot : vec -> vec -> R) (p : plane) (tol : R) (assert_closed : bool) (m : mesh) : res clipper :=
    match refused tol (distances_double fdots p m) with
    | Some _ => Raise RuntimeError
    | None =>
        do part <- partition_double fdots p tol m;
        do (cc, closed, open) <- clip_crown_double fdot p tol assert_closed (crown part);
        do r <- add_double argsort (pt_mesh (lower part)) cc;
        Ok (mkClipper part cc closed open r)
    end.
End Clipper.
