(** Specification of the viewer: what is shown, from the history of calls only. *)
From Coq Require Import Reals List Arith Bool String.
From Verif Require Import M_base M_vtk M_viewer.
Import ListNotations.
Local Open Scope nat_scope.

(** The calls of a session: keys, and things added without error. *)
Definition session_event (e : event) : Prop :=
  match e with
  | Key _ | AddPoint _ _ | AddLine _ _ _ => True
  | AddPolydata _ _ r => r = "surface"%string \/ r = "wireframe"%string
  | AddVector _ _ s _ => s <> 0%R
  | _ => False
  end.
(** The objects added *)
Definition object_of (e : event) : list dataset :=
  match e with
  | AddPolydata d _ _ => [d]
  | AddPoint p _ => [Dataset [single_vec p] [[0]]]
  | AddLine p q _ => [Dataset [single_vec p; single_vec q] [[0; 1]]]
  | _ => []
  end.
Definition objects (es : list event) : list dataset := flat_map object_of es.
(** What stays in the picture *)
Definition fixed_of (e : event) : list drawn :=
  match e with
  | AddPolydata d c r => [Object d c (String.eqb r "wireframe")]
  | AddPoint p c => [Object (Dataset [single_vec p] [[0]]) c false]
  | AddLine p q c => [Object (Dataset [single_vec p; single_vec q] [[0; 1]]) c false]
  | AddVector p x s c => [Arrow (single_vec p) (single_vec (V3 (vx x / s) (vy x / s) (vz x / s))) c]
  | _ => []
  end.
(** The objects that were there when the key [k] was last pressed, if that switched something on; the last event comes first. *)
Fixpoint lit (k : string) (past : list event) : option (list dataset) :=
  match past with
  | [] => None
  | Key k' :: past =>
    if String.eqb k' k then match lit k past, objects (rev past) with None, _ :: _ => Some (objects (rev past)) | _, _ => None end else lit k past
  | _ :: past => lit k past
  end.
(** The number of times that the key [k] was pressed since there is an object *)
Fixpoint presses (k : string) (es : list event) (some : bool) : nat :=
  match es with
  | [] => 0
  | e :: es => (match e with Key k' => if String.eqb k' k && some then 1 else 0 | _ => 0 end) + presses k es (some || negb (List.length (object_of e) =? 0))
  end.

(** The rectangle with the corners o, a, b and a + b - o holds x. *)
Definition on_rectangle (o a b x : vec) : Prop :=
  exists s t, (0 <= s <= 1)%R /\ (0 <= t <= 1)%R /\ x = vadd o (vadd (vscale s (vsub a o)) (vscale t (vsub b o))).
