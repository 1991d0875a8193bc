(** Specification of the searches for an equilibrium: one step, and when they may stop. The hydrostatics of a position
    are given by an arbitrary function. *)
From Coq Require Import Reals List.
From Verif Require Import M_base S_rotations M_hydro S_hydro.
Import ListNotations.
Open Scope R_scope.

Section Displacement.
  Variables (eval : R -> res hydro) (kg rho reltol bound : R).
  (** No waterplane. *)
  Definition light (hs : hydro) : Prop := rho * h_waterplane_area hs = 0.
  (** The displaced mass is as wanted, within the tolerance. *)
  Definition met (hs : hydro) : Prop := kg <> 0 /\ Rabs (rho * h_disp_volume hs - kg) < reltol * Rabs kg.
  (** Newton's correction, bounded, as long as the mass is not as wanted. *)
  Definition heave_step (z z' : R) : Prop := exists hs, eval z = Ok hs /\ ~ light hs /\ ~ met hs /\
    z' = z + clamp bound ((rho * h_disp_volume hs - kg) / (rho * h_waterplane_area hs)).
End Displacement.

Section Full.
  Variables (eval : mat -> R -> res hydro) (cog : vec) (rhog mg reltol bound : R).
  (** Force and moments left, in the position [z], [rot]. *)
  Definition residue (z : R) (rot : mat) (hs : hydro) : vec :=
    let b := placed rot z (h_buoyancy_center hs) in let g := placed rot z cog in let w := rhog * h_disp_volume hs in
    V3 (w - mg) (w * vy b - mg * vy g) (- w * vx b + mg * vx g).
  (** Below the tolerance, relatively to a scale. *)
  Definition small (x s : R) : Prop := s <> 0 /\ Rabs x < reltol * Rabs s.
  Definition balanced (z : R) (rot : mat) (hs : hydro) : Prop := let r := residue z rot hs in
    small (vx r) mg /\ small (vy r) (mg * h_breadth hs) /\ small (vz r) (mg * h_length_at_waterline hs).
  (** Newton's correction, bounded by 2 degrees in rotation, as long as the position is not balanced. *)
  Definition shift_turn (s s' : R * mat) : Prop := let (z, rot) := s in exists hs d, eval rot z = Ok hs /\ ~ balanced z rot hs /\
    mdet (h_stiffness_matrix hs) <> 0 /\ mvec (h_stiffness_matrix hs) d = residue z rot hs /\
    s' = (z + clamp bound (vx d), mmul (mmul (Rot_y (clamp (PI / 90) (vz d))) (Rot_x (clamp (PI / 90) (vy d)))) rot).
End Full.
