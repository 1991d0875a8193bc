(** Proofs about arrays of meshes. *)
From Coq Require Import Ascii String Reals List Arith NArith Bool Lia.
From Verif Require Import M_base M_merge M_plane M_rotations M_mesh M_inertia M_geometry M_connectivity M_cache M_text M_arrays
  S_arrays P_base P_merge P_mesh P_curves P_geometry.
Import ListNotations.
Local Open Scope nat_scope.

(** ** Lists of arrays *)
(** [own] are the positions of an object before, [own'] after. *)
Record kept {A} (l l' : list A) (own own' : list nat) : Prop := mkKept {
  k_len : length l <= length l';
  k_old : forall a, a < length l -> ~ In a own -> nth_error l' a = nth_error l a;
  k_own : forall a, In a own' -> In a own \/ length l <= a < length l' }.
Definition placed {A} (l : list A) (own : list nat) : Prop := NoDup own /\ forall a, In a own -> a < length l.

Lemma kept_refl : forall A (l : list A) own own', incl own' own -> kept l l own own'.
Proof. intros A l own own' I; split; [lia|reflexivity|intros a J; left; apply I, J]. Qed.
Lemma kept_trans : forall A (l l' l'' : list A) o o' o'', kept l l' o o' -> kept l' l'' o' o'' -> kept l l'' o o''.
Proof.
intros A l l' l'' o o' o'' [L E O] [L' E' O']; split; [lia| |].
- intros a H N; rewrite E'; [apply E; assumption|lia|]. intros J; apply O in J as [J|J]; [tauto|lia].
- intros a J; apply O' in J as [J|J]; [apply O in J as [J|J]; [tauto|right; lia]|right; lia].
Qed.
Lemma kept_app : forall A (l m : list A) own own', (forall a, In a own' -> In a own \/ length l <= a < length l + length m) ->
  kept l (l ++ m) own own'.
Proof.
intros A l m own own' I; split; [rewrite app_length; lia| |intros a J; apply I in J; rewrite app_length; tauto].
intros a H N; apply nth_error_app1; assumption.
Qed.
Lemma kept_set : forall A (l : list A) i x own own', In i own -> incl own' own -> kept l (set_nth l i x) own own'.
Proof.
intros A l i x own own' I J; split; [rewrite set_nth_length; lia| |intros a K; left; apply J, K].
intros a H N; apply set_nth_other; congruence.
Qed.

(** ** Objects *)
Definition good (z : self) : Prop :=
  placed (h_points (fst z)) (own_points (snd z)) /\ placed (h_faces (fst z)) (own_faces (snd z)) /\
  placed (h_numbers (fst z)) (own_numbers (snd z)) /\
  match o_props (snd z) with
  | Some (a, n, c) => length (points (fst z) n) = length (numbers (fst z) a) /\ length (points (fst z) c) = length (numbers (fst z) a)
  | None => True
  end.
Definition framed (z z' : self) : Prop :=
  kept (h_points (fst z)) (h_points (fst z')) (own_points (snd z)) (own_points (snd z')) /\
  kept (h_faces (fst z)) (h_faces (fst z')) (own_faces (snd z)) (own_faces (snd z')) /\
  kept (h_numbers (fst z)) (h_numbers (fst z')) (own_numbers (snd z)) (own_numbers (snd z')).
(** A step from a good state. *)
Definition moves (z z' : self) : Prop := good z -> good z' /\ framed z z'.
Definition vw (z : self) : cmesh := view (fst z) (snd z).

Lemma moves_refl : forall z, moves z z.
Proof. intros z G; split; [exact G|]. split; [|split]; apply kept_refl, incl_refl. Qed.
Lemma moves_trans : forall z z' z'', moves z z' -> moves z' z'' -> moves z z''.
Proof.
intros z z' z'' M N G; destruct (M G) as [G' (F1 & F2 & F3)]; destruct (N G') as [G'' (E1 & E2 & E3)].
split; [exact G''|]; split; [|split]; eapply kept_trans; eassumption.
Qed.

Lemma nth_app_old : forall A (l m : list (list A)) a, a < length l -> nth a (l ++ m) [] = nth a l [].
Proof. intros; apply app_nth1; assumption. Qed.
Lemma nth_app_new : forall A (l : list (list A)) x, nth (length l) (l ++ [x]) [] = x.
Proof. intros; rewrite app_nth2, Nat.sub_diag; [reflexivity|lia]. Qed.
Lemma nth_set_same : forall A (l : list (list A)) a x, a < length l -> nth a (set_nth l a x) [] = x.
Proof. intros A l a x L; apply nth_error_nth, set_nth_same, L. Qed.
Lemma nth_set_other : forall A (l : list (list A)) a b x, a <> b -> nth b (set_nth l a x) [] = nth b l [].
Proof.
intros A l a b x N; destruct (nth_error l b) as [y|] eqn:E.
- rewrite (nth_error_nth _ _ _ E); apply nth_error_nth; rewrite set_nth_other; assumption.
- apply nth_error_None in E; rewrite !nth_overflow; [reflexivity|assumption|rewrite set_nth_length; assumption].
Qed.

Lemma zip3_map : forall p, zip3 (map fp_area p) (map fp_normal p) (map fp_center p) = p.
Proof. induction p as [|[a n c] p IH]; cbn; congruence. Qed.
Lemma zip3_length : forall a n c, length n = length a -> length c = length a -> length (zip3 a n c) = length a.
Proof. induction a as [|x a IH]; intros [|u n] [|v c] E F; cbn in *; try lia. f_equal; apply IH; lia. Qed.
Lemma zip3_area : forall a n c, length n = length a -> length c = length a -> map fp_area (zip3 a n c) = a.
Proof. induction a as [|x a IH]; intros [|u n] [|v c] E F; cbn in *; try lia; f_equal; auto. Qed.
Lemma zip3_normal : forall a n c, length n = length a -> length c = length a -> map fp_normal (zip3 a n c) = n.
Proof. induction a as [|x a IH]; intros [|u n] [|v c] E F; cbn in *; try lia; f_equal; auto. Qed.
Lemma zip3_center : forall a n c, length n = length a -> length c = length a -> map fp_center (zip3 a n c) = c.
Proof. induction a as [|x a IH]; intros [|u n] [|v c] E F; cbn in *; try lia; f_equal; auto. Qed.
Lemma zip3_centers : forall t a n c, zip3 a n (map (fun v => vadd v t) c) = map (translate_cached t) (zip3 a n c).
Proof. induction a as [|x a IH]; intros [|u n] [|v c]; cbn; try reflexivity; f_equal; apply IH. Qed.
Lemma zip3_opp : forall a n c, zip3 a (map vopp n) c = map flip_cached (zip3 a n c).
Proof. induction a as [|x a IH]; intros [|u n] [|v c]; cbn; try reflexivity; f_equal; apply IH. Qed.
Lemma zip3_rotate : forall r a n c, zip3 a (map (mvec r) n) (map (mvec r) c) = map (rotate_cached r) (zip3 a n c).
Proof. induction a as [|x a IH]; intros [|u n] [|v c]; cbn; try reflexivity; f_equal; apply IH. Qed.

Ltac parts z := destruct z as [[hp hf hn] [ov of [[[pa pn] pc]|] oi oc os od om]].
Ltac ground := unfold good, framed, placed, own_points, own_faces, own_numbers, points, numbers in *;
  cbn [fst snd h_points h_faces h_numbers o_verts o_faces o_props on_obj set_verts set_faces set_props set_data cleared] in *.

(** Facts of a good state, in a form that is easy to use. *)
Lemma good_some : forall hp hf hn ov of pa pn pc oi oc os od om,
  good (mkHeap hp hf hn, mkObj ov of (Some (pa, pn, pc)) oi oc os od om) <->
  (ov < length hp /\ pn < length hp /\ pc < length hp /\ of < length hf /\ pa < length hn) /\
  (ov <> pn /\ ov <> pc /\ pn <> pc) /\
  (length (nth pn hp []) = length (nth pa hn []) /\ length (nth pc hp []) = length (nth pa hn [])).
Proof.
intros; ground; split.
- intros ((ND & I) & (_ & J) & (_ & K) & L); inversion_clear ND as [|? ? N1 N2]; inversion_clear N2 as [|? ? N3 N4].
  cbn in *; repeat split; try (apply I; tauto); try (apply J; tauto); try (apply K; tauto); try tauto; intros ->; tauto.
- intros ((A & B & C & D & E) & (F & G & H) & L); split; [split|split; [split|split; [split|exact L]]].
  + constructor; [cbn; intuition congruence|constructor; [cbn; intuition congruence|repeat constructor; cbn; tauto]].
  + cbn; intros a [<-|[<-|[<-|[]]]]; assumption.
  + repeat constructor; cbn; tauto.
  + cbn; intros a [<-|[]]; assumption.
  + repeat constructor; cbn; tauto.
  + cbn; intros a [<-|[]]; assumption.
Qed.
Lemma good_none : forall hp hf hn ov of oi oc os od om,
  good (mkHeap hp hf hn, mkObj ov of None oi oc os od om) <-> ov < length hp /\ of < length hf.
Proof.
intros; ground; split.
- intros ((_ & I) & (_ & J) & _); split; [apply I|apply J]; cbn; tauto.
- intros (A & B); split; [split|split; [split|split; [split|exact I]]]; try (repeat constructor; cbn; tauto);
  cbn; intros a [<-|[]]; assumption.
Qed.

(** ** Primitive steps *)
Ltac own := unfold incl, own_points, own_faces, own_numbers; cbn; intros; intuition (subst; cbn; auto; try lia).
Ltac goods := repeat match goal with
  | H : good (mkHeap _ _ _, mkObj _ _ (Some (_, _, _)) _ _ _ _ _) |- _ => apply good_some in H as ((?&?&?&?&?) & (?&?&?) & ?&?)
  | H : good (mkHeap _ _ _, mkObj _ _ None _ _ _ _ _) |- _ => apply good_none in H as (?&?)
  end.

Lemma moves_replace_verts : forall x z, moves z (replace_verts x z).
Proof.
intros x z; parts z; intros G; goods; cbn; (split; [first [apply good_some|apply good_none]; cbn; rewrite ?app_length; cbn;
  rewrite ?nth_app_old by lia; intuition lia|]).
all: split; [apply kept_app; own|split; apply kept_refl; own].
Qed.
Lemma moves_replace_faces : forall x z, moves z (replace_faces x z).
Proof.
intros x z; parts z; intros G; goods; cbn; (split; [first [apply good_some|apply good_none]; cbn; rewrite ?app_length; cbn;
  intuition lia|]).
all: split; [apply kept_refl; own|split; [apply kept_app; own|apply kept_refl; own]].
Qed.
Lemma moves_fill_verts : forall x z, moves z (fill_verts x z).
Proof.
intros x z; parts z; intros G; goods; cbn; (split; [first [apply good_some|apply good_none]; cbn; rewrite ?set_nth_length;
  rewrite ?nth_set_other by congruence; intuition lia|]).
all: split; [apply kept_set; own|split; apply kept_refl; own].
Qed.
Lemma moves_fill_faces : forall x z, moves z (fill_faces x z).
Proof.
intros x z; parts z; intros G; goods; cbn; (split; [first [apply good_some|apply good_none]; cbn; rewrite ?set_nth_length; intuition lia|]).
all: split; [apply kept_refl; own|split; [apply kept_set; own|apply kept_refl; own]].
Qed.
(** Changes of the dictionary that store no array *)
Definition forgets (f : obj -> obj) : Prop := forall o,
  o_verts (f o) = o_verts o /\ o_faces (f o) = o_faces o /\ (o_props (f o) = o_props o \/ o_props (f o) = None).
Lemma moves_on_obj : forall f z, forgets f -> moves z (on_obj f z).
Proof.
intros f z F; destruct z as [[hp hf hn] o]; intros G; unfold on_obj; cbn [fst snd].
destruct (F o) as (A & B & C); destruct (f o) as [v b p i c s d n]; cbn in A, B, C; subst v b.
destruct C as [->| ->].
- split; [exact G|]. split; [|split]; apply kept_refl; unfold own_points, own_faces, own_numbers; cbn; apply incl_refl.
- destruct o as [ov of [[[pa pn] pc]|] oi oc os od om]; goods; cbn; (split; [apply good_none; tauto|]);
  (split; [|split]); apply kept_refl; own.
Qed.
Lemma moves_store_props : forall p z, o_props (snd z) = None -> moves z (store_props p z).
Proof.
intros p z N; parts z; [discriminate N|]; intros G; goods; cbn; split.
- apply good_some; rewrite !app_length; cbn; repeat split; try lia; rewrite ?nth_app_old by (rewrite ?app_length; cbn; lia);
  rewrite ?nth_app_new, ?map_length; try reflexivity.
  rewrite app_nth2; rewrite app_length; cbn; [|lia]. replace (_ - _) with 0 by lia. cbn; apply map_length.
- split; [|split; [apply kept_refl; own|apply kept_app; own]].
  rewrite <- app_assoc; apply kept_app; own; rewrite ?app_length; cbn; lia.
Qed.
Lemma moves_centers : forall t z, moves z (move_centers t z).
Proof.
intros t z; parts z; [|apply moves_refl]; intros G; goods; cbn; split.
- apply good_some; cbn; rewrite !set_nth_length; rewrite nth_set_same by lia; rewrite nth_set_other by congruence;
  rewrite map_length; unfold points; cbn; intuition lia.
- split; [apply kept_set; own|split; apply kept_refl; own].
Qed.

Lemma vw_replace_verts : forall x z, good z -> vw (replace_verts x z) = with_mesh (mkMesh x (faces (cm (vw z)))) (vw z).
Proof.
intros x z G; parts z; goods; unfold vw, view, replace_verts, with_mesh, points, rows, props_value, numbers; cbn;
rewrite nth_app_new; [unfold points; cbn; rewrite !nth_app_old by lia|]; reflexivity.
Qed.
Lemma vw_replace_faces : forall x z, good z -> vw (replace_faces x z) = with_mesh (mkMesh (verts (cm (vw z))) x) (vw z).
Proof.
intros x z G; parts z; goods; unfold vw, view, replace_verts, with_mesh, points, rows, props_value, numbers; cbn;
rewrite nth_app_new; reflexivity.
Qed.
Lemma vw_fill_verts : forall x z, good z -> vw (fill_verts x z) = with_mesh (mkMesh x (faces (cm (vw z)))) (vw z).
Proof.
intros x z G; parts z; goods; unfold vw, view, fill_verts, with_mesh, points, rows, props_value, numbers; cbn;
rewrite nth_set_same by lia; [unfold points; cbn; rewrite !nth_set_other by lia|]; reflexivity.
Qed.
Lemma vw_fill_faces : forall x z, good z -> vw (fill_faces x z) = with_mesh (mkMesh (verts (cm (vw z))) x) (vw z).
Proof.
intros x z G; parts z; goods; unfold vw, view, fill_verts, with_mesh, points, rows, props_value, numbers; cbn;
rewrite nth_set_same by lia; reflexivity.
Qed.
Lemma vw_store_props : forall p z, good z -> vw (store_props p z) = with_props (Some p) (vw z).
Proof.
intros p z G; parts z; goods; unfold vw, view, store_props, with_props, points, rows, props_value, numbers; cbn; unfold points, numbers; cbn;
rewrite nth_app_new; rewrite !(nth_app_old _ (hp ++ _)) by (rewrite app_length; cbn; lia); rewrite !nth_app_new, !nth_app_old by lia;
rewrite zip3_map; reflexivity.
Qed.
Lemma vw_move_centers : forall t z, good z -> vw (move_centers t z) =
  with_props (match c_props (vw z) with Some p => Some (map (translate_cached t) p) | None => None end) (vw z).
Proof.
intros t z G; parts z; goods; unfold vw, view, move_centers, with_props, points, rows, props_value, numbers; cbn; [|reflexivity].
unfold points, numbers; cbn; rewrite nth_set_same, !nth_set_other by lia; rewrite zip3_centers; reflexivity.
Qed.

(** ** Calls *)
(** [r] is what a method does on arrays, [r'] what it does on values. *)
Definition agree {A} (z : self) (r : res (A * self)) (r' : res (A * cmesh)) : Prop :=
  match r, r' with
  | Ok (x, z'), Ok (x', s) => x = x' /\ good z' /\ framed z z' /\ vw z' = s
  | Raise e, Raise e' => e = e'
  | _, _ => False
  end.
Definition agrees (z : self) (r : res self) (r' : res cmesh) : Prop :=
  match r, r' with
  | Ok z', Ok s => good z' /\ framed z z' /\ vw z' = s
  | Raise e, Raise e' => e = e'
  | _, _ => False
  end.

Lemma framed_trans : forall z z' z'', framed z z' -> framed z' z'' -> framed z z''.
Proof. intros z z' z'' (A & B & C) (D & E & F); split; [|split]; eapply kept_trans; eassumption. Qed.
Lemma agrees_moves : forall z z' s, good z -> moves z z' -> vw z' = s -> agrees z (Ok z') (Ok s).
Proof. intros z z' s G M E; destruct (M G); cbn; auto. Qed.
Lemma agrees_step : forall z z' r r', framed z z' -> agrees z' r r' -> agrees z r r'.
Proof. intros z z' [z''|e] [s|e'] F; cbn; try tauto. intros (A & B & C); split; [exact A|split; [eapply framed_trans; eassumption|exact C]]. Qed.
Lemma agree_step : forall A z z' (r : res (A * self)) r', framed z z' -> agree z' r r' -> agree z r r'.
Proof.
intros A z z' [[x z'']|e] [[x' s]|e'] F; cbn; try tauto.
intros (X & B & C & D); split; [exact X|split; [exact B|split; [eapply framed_trans; eassumption|exact D]]].
Qed.
Lemma agree_bind : forall A z (r : res (A * self)) r' f g, agree z r r' ->
  (forall x z', good z' -> agrees z' (f (x, z')) (g (x, vw z'))) -> agrees z (bind r f) (bind r' g).
Proof.
intros A z [[x z']|e] [[x' s]|e'] f g; cbn; try tauto.
intros (<- & G & F & <-) H; eapply agrees_step; [exact F|apply H, G].
Qed.
Lemma agrees_bind : forall z r r' f g, agrees z r r' ->
  (forall z', good z' -> agrees z' (f z') (g (vw z'))) -> agrees z (bind r f) (bind r' g).
Proof.
intros z [z'|e] [s|e'] f g; cbn; try tauto.
intros (G & F & <-) H; eapply agrees_step; [exact F|apply H, G].
Qed.
(** a computation that both sides share *)
Lemma agrees_same : forall A z (r : res A) f g, (forall x, r = Ok x -> agrees z (f x) (g x)) -> agrees z (bind r f) (bind r g).
Proof. intros A z [x|e] f g H; cbn; [apply H; reflexivity|reflexivity]. Qed.

Lemma cm_eta : forall s, s = CM (cm s) (c_props s) (c_ids s) (c_conn s) (c_ints s).
Proof. intros []; reflexivity. Qed.
(** Queries keep the mesh and the properties that are there. *)
Definition gentle {A} (q : cmesh -> res (A * cmesh)) : Prop := forall s x s', q s = Ok (x, s') ->
  cm s' = cm s /\ forall p, c_props s = Some p -> c_props s' = Some p.
Lemma query_agree : forall A (q : cmesh -> res (A * cmesh)) z, gentle q -> good z -> agree z (query q z) (q (vw z)).
Proof.
intros A q z Q G; unfold query; fold (vw z); destruct (q (vw z)) as [[x s]|e] eqn:E; cbn [bind agree]; [|reflexivity].
apply Q in E as [C P].
set (f := set_data (c_ids s) (c_conn s) (c_ints s)).
assert (F : forgets f) by (intros o; cbn; auto).
destruct (moves_on_obj f z F G) as [G' F'].
assert (V : vw (on_obj f z) = CM (cm (vw z)) (c_props (vw z)) (c_ids s) (c_conn s) (c_ints s)) by reflexivity.
change (o_props (snd (on_obj f z))) with (o_props (snd z)).
destruct (o_props (snd z)) as [p|] eqn:O.
- split; [reflexivity|split; [exact G'|split; [exact F'|]]]. rewrite V.
  assert (c_props (vw z) = Some (props_value (fst z) p)) as E by (unfold vw, view; cbn; rewrite O; reflexivity).
  rewrite E, <- (P _ E), <- C; symmetry; apply cm_eta.
- assert (o_props (snd (on_obj f z)) = None) as O' by exact O.
  assert (c_props (vw z) = None) as N by (unfold vw, view; cbn; rewrite O; reflexivity).
  destruct (c_props s) as [p|] eqn:S.
  + destruct (moves_store_props p (on_obj f z) O' G') as [G'' F''].
    split; [reflexivity|split; [exact G''|split; [exact (framed_trans _ _ _ F' F'')|]]].
    rewrite vw_store_props by exact G'; rewrite V; unfold with_props; cbn [cm c_ids c_conn c_ints]; rewrite <- C, <- S; symmetry; apply cm_eta.
  + split; [reflexivity|split; [exact G'|split; [exact F'|]]]. rewrite V, N, <- C, <- S; symmetry; apply cm_eta.
Qed.

Lemma gentle_ids : gentle (fun s => Ok (q_ids s)).
Proof. intros [m p [i|] c s] x s' E; injection E as <- <-; cbn; auto. Qed.
Lemma gentle_props : gentle q_props.
Proof.
intros s x s' E; unfold q_props in E; destruct (c_props s) as [p|] eqn:P; [injection E as <- <-; split; [reflexivity|congruence]|].
destruct (q_ids s) as [[t q] s0] eqn:I; apply bind_ok in E as (y & E' & F); injection F as <- <-.
destruct (gentle_ids s (t, q) s0) as [A B]; [cbn; rewrite I; reflexivity|]; cbn; split; [exact A|discriminate].
Qed.
Lemma gentle_ints : gentle q_ints.
Proof.
intros s x s' E; unfold q_ints in E; destruct (c_ints s) as [p|] eqn:P; [injection E as <- <-; auto|].
destruct (q_ids s) as [[t q] s0] eqn:I; apply bind_ok in E as (y & E' & F); injection F as <- <-.
destruct (gentle_ids s (t, q) s0) as [A B]; [cbn; rewrite I; reflexivity|]; cbn; split; [exact A|exact B].
Qed.
Lemma gentle_conn : forall order, gentle (q_conn order).
Proof.
intros order s x s' E; unfold q_conn in E; destruct (c_conn s) as [p|] eqn:P; [injection E as <- <-; auto|].
apply bind_ok in E as (y & E & F); injection F as <- <-; cbn; auto.
Qed.
Lemma gentle_bind : forall A B (q : cmesh -> res (A * cmesh)) (g : A -> cmesh -> res (B * cmesh)), gentle q ->
  (forall x, gentle (g x)) -> gentle (fun s => do (x, s) <- q s; g x s).
Proof.
intros A B q g Q G s x s' E; apply bind_ok in E as ([y s0] & E & F).
apply Q in E as [C P]; apply G in F as [D R]; split; [congruence|auto].
Qed.
Lemma gentle_done : forall A B (r : B -> res A) y, gentle (fun s => do x <- r y; Ok (x, s)).
Proof. intros A B r y s x s' E; apply bind_ok in E as (z & E & F); injection F as <- <-; auto. Qed.
Lemma gentle_volume : gentle q_volume.
Proof.
unfold q_volume; apply gentle_bind; [apply gentle_ints|]. intros i; apply gentle_bind; [apply gentle_props|].
intros p; apply (gentle_done _ _ (fun p => volume_with i p)).
Qed.
Lemma gentle_plain : forall rho, gentle (q_plain rho).
Proof.
intros rho; unfold q_plain; apply gentle_bind; [apply gentle_ints|]. intros i; apply gentle_bind; [apply gentle_props|].
intros p; apply (gentle_done _ _ (fun p => plain_inertia_with rho i p)).
Qed.
Lemma gentle_shell : forall rho t, gentle (q_shell rho t).
Proof.
intros rho t; unfold q_shell; apply gentle_bind; [apply gentle_props|]. intros p; apply gentle_bind; [apply gentle_ints|].
intros i; apply (gentle_done _ _ (fun i => Ok (shell_inertia_with rho t i p))).
Qed.

(** Methods *)
Lemma forgets_ints : forgets drop_ints.
Proof. intros o; cbn; auto. Qed.
Lemma forgets_conn : forgets drop_conn.
Proof. intros o; cbn; auto. Qed.
Lemma forgets_cleared : forgets cleared.
Proof. intros o; cbn; auto. Qed.
Lemma forgets_props : forgets remove_props_if_any.
Proof. intros o; unfold remove_props_if_any; destruct (o_props o) eqn:E; cbn; auto. Qed.

Lemma vw_props_if_any : forall z, vw (on_obj remove_props_if_any z) = drop_if_props (vw z).
Proof. intros z; parts z; reflexivity. Qed.

Ltac mv := lazymatch goal with
  | |- moves ?z ?z => apply moves_refl
  | |- moves _ (on_obj _ _) => eapply moves_trans; [|apply moves_on_obj; first [apply forgets_ints|apply forgets_conn|apply forgets_cleared|apply forgets_props]]
  | |- moves _ (move_centers _ _) => eapply moves_trans; [|apply moves_centers]
  | |- moves _ (replace_verts _ _) => eapply moves_trans; [|apply moves_replace_verts]
  | |- moves _ (replace_faces _ _) => eapply moves_trans; [|apply moves_replace_faces]
  | |- moves _ (fill_verts _ _) => eapply moves_trans; [|apply moves_fill_verts]
  | |- moves _ (fill_faces _ _) => eapply moves_trans; [|apply moves_fill_faces]
  end.
Ltac gd := match goal with G : good ?z |- good ?z' => let M := fresh in assert (M : moves z z') by (repeat mv); apply (M G) end.

Lemma vw_drop_ints : forall z, vw (on_obj drop_ints z) = with_ints None (vw z).
Proof. reflexivity. Qed.

Lemma agrees_translate : forall t z, good z ->
  agrees z (Ok (h_translate t z)) (Ok (update_cached (translate t (cm (vw z))) (translate_cached t) (vw z))).
Proof.
intros t z G; apply agrees_moves; [exact G|unfold h_translate; repeat mv|].
unfold h_translate; rewrite vw_drop_ints, vw_move_centers, vw_replace_verts by gd; reflexivity.
Qed.
Lemma agrees_translate_x : forall t z, good z ->
  agrees z (Ok (h_translate_x t z)) (Ok (update_cached (translate_x t (cm (vw z))) (translate_cached (V3 t 0 0)) (vw z))).
Proof.
intros t z G; apply agrees_moves; [exact G|unfold h_translate_x; repeat mv|].
unfold h_translate_x; rewrite vw_drop_ints, vw_move_centers, vw_fill_verts by gd; reflexivity.
Qed.
Lemma agrees_translate_y : forall t z, good z ->
  agrees z (Ok (h_translate_y t z)) (Ok (update_cached (translate_y t (cm (vw z))) (translate_cached (V3 0 t 0)) (vw z))).
Proof.
intros t z G; apply agrees_moves; [exact G|unfold h_translate_y; repeat mv|].
unfold h_translate_y; rewrite vw_drop_ints, vw_move_centers, vw_replace_verts by gd; reflexivity.
Qed.
Lemma agrees_translate_z : forall t z, good z ->
  agrees z (Ok (h_translate_z t z)) (Ok (update_cached (translate_z t (cm (vw z))) (translate_cached (V3 0 0 t)) (vw z))).
Proof.
intros t z G; apply agrees_moves; [exact G|unfold h_translate_z; repeat mv|].
unfold h_translate_z; rewrite vw_drop_ints, vw_move_centers, vw_replace_verts by gd; reflexivity.
Qed.
(** Rotations: normals and centers are new arrays. *)
Lemma agrees_rotate : forall r z, good z ->
  agrees z (Ok (h_rotate_matrix r z)) (Ok (update_cached (rotate_matrix r (cm (vw z))) (rotate_cached r) (vw z))).
Proof.
intros r z G; unfold h_rotate_matrix.
set (z0 := replace_verts _ z).
assert (M : moves z z0) by apply moves_replace_verts.
assert (V : vw z0 = with_mesh (rotate_matrix r (cm (vw z))) (vw z)) by (apply vw_replace_verts; exact G).
destruct (M G) as [G0 F0]; clearbody z0; eapply agrees_step; [exact F0|].
unfold update_cached; replace (c_props (vw z)) with (c_props (vw z0)) by (rewrite V; reflexivity).
replace (rotate_matrix r (cm (vw z))) with (cm (vw z0)) by (rewrite V; reflexivity).
replace (c_ids (vw z)) with (c_ids (vw z0)) by (rewrite V; reflexivity).
replace (c_conn (vw z)) with (c_conn (vw z0)) by (rewrite V; reflexivity).
clear z G M V F0; apply agrees_moves; [exact G0| |].
- parts z0; goods; cbn; [|eapply moves_trans; [apply moves_refl|apply moves_on_obj, forgets_ints]].
  intros G; split.
  + apply good_some; rewrite !app_length; cbn; repeat split; try lia.
    * rewrite nth_app_old by (rewrite app_length; cbn; lia). rewrite nth_app_new, map_length; assumption.
    * rewrite app_nth2; rewrite app_length; cbn; [|lia]. replace (_ - _) with 0 by lia. cbn; rewrite map_length; assumption.
  + split; [|split; apply kept_refl; own]. rewrite <- app_assoc; apply kept_app; own; rewrite ?app_length; cbn; lia.
- parts z0; goods; [|reflexivity].
  unfold vw, view, on_obj, drop_ints, set_data, props_value, points, numbers, rows; cbn; unfold points, numbers; cbn.
  rewrite !(nth_app_old _ (hp ++ _)) by (rewrite app_length; cbn; lia).
  rewrite nth_app_new, !nth_app_old by lia.
  replace (nth (length (hp ++ _)) _ _) with (map (mvec r) (nth pc hp [])) by (symmetry; apply nth_app_new).
  rewrite zip3_rotate; reflexivity.
Qed.
Lemma agrees_scaling : forall op z, (forall m m', op m = Ok m' -> faces m' = faces m) -> good z ->
  agrees z (h_scaling op z) (c_scaling op (vw z)).
Proof.
intros op z H G; unfold h_scaling, c_scaling; apply agrees_same; intros m E.
apply agrees_moves; [exact G|repeat mv|].
rewrite vw_props_if_any, vw_replace_verts by exact G. apply H in E; fold (vw z) in E; rewrite <- E; destruct m; reflexivity.
Qed.
Lemma moves_flip : forall z, moves z (h_flip_normals z).
Proof.
intros z; unfold h_flip_normals.
set (z0 := replace_faces _ z); apply (moves_trans z z0); [apply moves_replace_faces|].
clearbody z0; eapply moves_trans; [|apply moves_on_obj, forgets_ints].
parts z0; [|apply moves_refl]; intros G; goods; cbn; split.
- apply good_some; cbn; rewrite !set_nth_length; rewrite nth_set_same by lia; rewrite nth_set_other by congruence;
  rewrite map_length; unfold points; cbn; intuition lia.
- split; [apply kept_set; own|split; apply kept_refl; own].
Qed.
Lemma vw_flip : forall z, good z -> vw (h_flip_normals z) = update_cached (flip_normals (cm (vw z))) flip_cached (vw z).
Proof.
intros z G; unfold h_flip_normals.
set (z0 := replace_faces _ z).
assert (M : moves z z0) by apply moves_replace_faces.
assert (V : vw z0 = with_mesh (flip_normals (cm (vw z))) (vw z)) by (apply vw_replace_faces; exact G).
destruct (M G) as [G0 F0]; clearbody z0.
unfold update_cached; replace (c_props (vw z)) with (c_props (vw z0)) by (rewrite V; reflexivity).
replace (flip_normals (cm (vw z))) with (cm (vw z0)) by (rewrite V; reflexivity).
replace (c_ids (vw z)) with (c_ids (vw z0)) by (rewrite V; reflexivity).
replace (c_conn (vw z)) with (c_conn (vw z0)) by (rewrite V; reflexivity).
clear z G M V F0; parts z0; goods; [|reflexivity].
unfold vw, view, on_obj, drop_ints, set_data, props_value, points, numbers, rows; cbn; unfold points, numbers; cbn.
rewrite nth_set_same, !nth_set_other by congruence || lia. rewrite zip3_opp; reflexivity.
Qed.
Lemma agrees_flip : forall z, good z ->
  agrees z (Ok (h_flip_normals z)) (Ok (update_cached (flip_normals (cm (vw z))) flip_cached (vw z))).
Proof. intros z G; apply agrees_moves; [exact G|apply moves_flip|apply vw_flip, G]. Qed.

Section Methods.
  Variable argsort : list R -> list nat.
  Variable order : list nat -> list nat.

  Lemma merge_kept : forall atol m m', merge_duplicates argsort atol m = Ok m' -> keeps_array argsort atol (verts m) = true ->
    verts m' = verts m.
  Proof.
  intros atol m m' E K; unfold merge_duplicates, merge_duplicates_index, merge_duplicate_rows, keeps_array in *.
  destruct (refine argsort atol (map (column (verts m)) coords) (length (verts m)) [seq 0 (length (verts m))]); [discriminate|].
  cbn in E; destruct (mapM _ (faces m)); cbn in E; [|discriminate]. injection E as <-; reflexivity.
  Qed.
  Lemma agrees_merge : forall atol z, good z -> agrees z (h_merge argsort atol z) (c_merge argsort atol (vw z)).
  Proof.
  intros atol z G; unfold h_merge, c_merge; fold (vw z); apply agrees_same; intros m E.
  destruct (keeps_array argsort atol (verts (cm (vw z)))) eqn:K.
  - apply agrees_moves; [exact G|repeat mv|].
    pose proof (merge_kept _ _ _ E K) as V.
    transitivity (with_conn None (vw (replace_faces (faces m) z))); [reflexivity|].
    rewrite vw_replace_faces by exact G. rewrite <- V; destruct m; reflexivity.
  - apply agrees_moves; [exact G|repeat mv|].
    transitivity (with_conn None (vw (replace_faces (faces m) (replace_verts (verts m) z)))); [reflexivity|].
    rewrite vw_replace_faces, vw_replace_verts by gd. destruct m; reflexivity.
  Qed.
  Lemma unused_cases : forall m m', remove_unused_vertices m = Ok m' ->
    length (verts m') < length (verts m) \/ m' = m.
  Proof.
  intros m m' E; unfold remove_unused_vertices in E; apply bind_ok in E as (used & E & F).
  destruct (length (where_ _ used) <? length (verts m)) eqn:L; [|injection F as <-; right; reflexivity].
  apply bind_ok in F as (fs & F & E'); apply bind_ok in E' as (vs & E' & F'); injection F' as <-; left.
  apply mapM_length in E'; cbn; rewrite E'; apply Nat.ltb_lt, L.
  Qed.
  Lemma agrees_unused : forall z, good z -> agrees z (h_remove_unused z) (c_remove_unused (vw z)).
  Proof.
  intros z G; unfold h_remove_unused, c_remove_unused; fold (vw z); apply agrees_same; intros m E.
  destruct (unused_cases _ _ E) as [L| ->].
  - apply Nat.ltb_lt in L as ->. apply agrees_moves; [exact G|repeat mv|].
    transitivity (with_conn None (vw (replace_faces (faces m) (replace_verts (verts m) z)))); [reflexivity|].
    rewrite vw_replace_faces, vw_replace_verts by gd. destruct m; reflexivity.
  - rewrite Nat.ltb_irrefl. apply agrees_moves; [exact G|repeat mv|reflexivity].
  Qed.
  Lemma agrees_heal_triangles : forall z, good z -> agrees z (Ok (h_heal_triangles z)) (Ok (c_heal_triangles (vw z))).
  Proof.
  intros z G; apply agrees_moves; [exact G|unfold h_heal_triangles; repeat mv|].
  unfold h_heal_triangles; rewrite vw_fill_faces by gd; fold (vw (on_obj remove_props_if_any z)); rewrite vw_props_if_any; reflexivity.
  Qed.
  Lemma q_props_there : forall s p s', q_props s = Ok (p, s') -> c_props s' = Some p.
  Proof.
  intros s p s' E; unfold q_props in E; destruct (c_props s) as [q|] eqn:P; [injection E as <- <-; exact P|].
  destruct (q_ids s) as [[t q] s0]; apply bind_ok in E as (y & _ & F); injection F as <- <-; reflexivity.
  Qed.
  Lemma agrees_degenerated : forall rtol z, good z -> agrees z (h_remove_degenerated rtol z) (c_remove_degenerated rtol (vw z)).
  Proof.
  intros rtol z G; unfold h_remove_degenerated, c_remove_degenerated; destruct (Rltb 0 rtol); [|reflexivity].
  pose proof (query_agree _ q_props z gentle_props G) as A.
  destruct (query q_props z) as [[p z']|e], (q_props (vw z)) as [[p' s]|e'] eqn:Q; cbn in A; try (contradiction A || exact A).
  destruct A as (<- & G' & F & <-); cbn [bind]; eapply agrees_step; [exact F|].
  apply agrees_same; intros fs E; apply agrees_moves; [exact G'|repeat mv|].
  rewrite vw_props_if_any, vw_replace_faces by exact G'.
  apply q_props_there in Q; unfold drop_if_props; cbn [c_props with_mesh]; rewrite Q; reflexivity.
  Qed.
  Lemma agrees_triangulate : forall z, good z -> agrees z (h_triangulate z) (c_triangulate (vw z)).
  Proof.
  intros z G; unfold h_triangulate, c_triangulate.
  pose proof (query_agree _ (fun s => Ok (q_ids s)) z gentle_ids G) as A.
  destruct (query _ z) as [[[t q] z']|e]; [|contradiction A].
  destruct (q_ids (vw z)) as [[t' q'] s] eqn:Q; cbn in A; destruct A as (E & G' & F & <-); injection E as <- <-.
  cbn [bind]; eapply agrees_step; [exact F|].
  apply agrees_same; intros fs E; apply agrees_moves; [exact G'|repeat mv|].
  rewrite vw_replace_faces by gd.
  assert (V : verts (cm (vw (on_obj cleared (fill_faces (firstn (length (rows (fst z') (o_faces (snd z')))) fs) z')))) = verts (cm (vw z'))) by reflexivity.
  rewrite V; reflexivity.
  Qed.
  Lemma agrees_symmetrize : forall p z, good z ->
    agrees z (h_symmetrize argsort p z) (do m <- symmetrize argsort p (cm (vw z)); Ok (fresh m)).
  Proof.
  intros p z G; unfold h_symmetrize; fold (vw z); apply agrees_same; intros m E; apply agrees_moves; [exact G|repeat mv|].
  transitivity (fresh (cm (vw (replace_faces (faces m) (replace_verts (verts m) z))))); [reflexivity|].
  rewrite vw_replace_faces, vw_replace_verts by gd; destruct m; reflexivity.
  Qed.
  Lemma agrees_mirror : forall p z, good z -> agrees z (Ok (h_mirror p z)) (Ok (fresh (mirror p (cm (vw z))))).
  Proof.
  intros p z G; unfold h_mirror.
  assert (G0 : good (fill_verts (map (reflect p) (points (fst z) (o_verts (snd z)))) z)) by gd.
  apply agrees_moves; [exact G| |].
  - eapply moves_trans; [|apply moves_on_obj, forgets_cleared]. eapply moves_trans; [|apply moves_flip]. apply moves_fill_verts.
  - transitivity (fresh (cm (vw (h_flip_normals (fill_verts (map (reflect p) (points (fst z) (o_verts (snd z)))) z))))); [reflexivity|].
    rewrite vw_flip, vw_fill_verts by assumption; reflexivity.
  Qed.
  Lemma q_ids_there : forall s i s', q_ids s = (i, s') -> c_ids s' = Some i.
  Proof. intros [m p [i|] c s] j s' E; injection E as <- <-; reflexivity. Qed.
  Lemma agrees_heal_normals : forall z, good z -> agrees z (h_heal_normals order z) (c_heal_normals order (vw z)).
  Proof.
  intros z G; unfold h_heal_normals, c_heal_normals.
  eapply agree_bind; [apply query_agree; [apply gentle_conn|exact G]|]. clear z G; intros c z G.
  pose proof (query_agree _ (fun s => Ok (q_ids s)) z gentle_ids G) as A.
  destruct (query _ z) as [[[tri quad] z']|e]; [|contradiction A].
  destruct (q_ids (vw z)) as [[t' q'] s] eqn:Q; cbn in A; destruct A as (E & G' & F & <-); injection E as <- <-.
  apply q_ids_there in Q.
  cbn [bind]; eapply agrees_step; [exact F|]; clear z G F; rename z' into z, G' into G.
  unfold heal_normals_with.
  change (rows (fst z) (o_faces (snd z))) with (faces (cm (vw z))).
  destruct (flood_faces order tri (c_ff c) (faces (cm (vw z)))) as [st|e]; [|reflexivity]; cbn [bind].
  set (fill := fill_faces (fl_faces st) z).
  set (kc := fun o => set_data (o_ids o) (Some (mkConn (c_vv c) (c_vf c) (fl_ff st) (c_bounds c))) (o_ints o) o).
  assert (K : forgets kc) by (intros o; cbn; auto).
  assert (M : moves z (on_obj kc fill)) by (eapply moves_trans; [apply moves_fill_faces|apply moves_on_obj, K]).
  assert (V : vw (on_obj kc fill) = with_conn (Some (mkConn (c_vv c) (c_vf c) (fl_ff st) (c_bounds c)))
      (with_mesh (mkMesh (verts (cm (vw z))) (fl_faces st)) (vw z))).
  { transitivity (with_conn (Some (mkConn (c_vv c) (c_vf c) (fl_ff st) (c_bounds c))) (vw fill)); [reflexivity|].
    unfold fill; rewrite vw_fill_faces by exact G; reflexivity. }
  destruct (M G) as [G1 F1]; eapply agrees_step; [exact F1|].
  set (z1 := on_obj kc fill) in *; clearbody z1; clear fill kc K M F1.
  destruct (c_bounds c) as [|b bs] eqn:B.
  2: { cbn [bind]; apply agrees_moves; [exact G1|repeat mv|]. rewrite vw_props_if_any, V; reflexivity. }
  change (points (fst z1) (o_verts (snd z1))) with (verts (cm (vw z1))).
  replace (verts (cm (vw z1))) with (verts (cm (vw z))) by (rewrite V; reflexivity).
  destruct (arr_max (map vz (verts (cm (vw z))))) as [zmax|e]; [|reflexivity]; cbn [bind].
  pose proof (query_agree _ q_props z1 gentle_props G1) as A.
  assert (P : q_props (vw z1) = match c_props (vw z) with
     | Some p => Ok (p, vw z1)
     | None => do p <- faces_properties_with tri quad (verts (cm (vw z))) (fl_faces st); Ok (p, with_props (Some p) (vw z1))
     end).
  { rewrite V; unfold q_props; cbn [c_props with_conn with_mesh]. destruct (c_props (vw z)); [reflexivity|].
    unfold q_ids; cbn [c_ids with_conn with_mesh]; rewrite Q; reflexivity. }
  assert (R : exists r, (match c_props (vw z) with Some p => Ok p | None => faces_properties_with tri quad (verts (cm (vw z))) (fl_faces st) end) = r
     /\ q_props (vw z1) = do p <- r; Ok (p, with_props (Some p) (vw z1))).
  { eexists; split; [reflexivity|]. rewrite P; destruct (c_props (vw z)) as [p|] eqn:C; [|reflexivity].
    cbn [bind]; rewrite V; unfold with_props, with_conn, with_mesh; cbn [cm c_ids c_conn c_ints c_props]; rewrite C; reflexivity. }
  destruct R as (r & -> & R); rewrite R in A; clear P R.
  destruct (query q_props z1) as [[p z2]|e], r as [p'|e']; cbn in A; try (contradiction A || exact A).
  destruct A as (<- & G2 & F2 & V2); cbn [bind]; eapply agrees_step; [exact F2|].
  destruct (Rltb (heave zmax p) 0).
  - apply agrees_moves; [exact G2|eapply moves_trans; [apply moves_flip|repeat mv]|].
    rewrite vw_props_if_any, vw_flip, V2, V by exact G2; reflexivity.
  - apply agrees_moves; [exact G2|repeat mv|]. rewrite vw_props_if_any, V2, V; reflexivity.
  Qed.
  Lemma agrees_heal_mesh : forall z, good z -> agrees z (h_heal_mesh argsort order z) (c_heal_mesh argsort order (vw z)).
  Proof.
  intros z G; unfold h_heal_mesh, c_heal_mesh.
  assert (M : moves z (on_obj remove_props_if_any z)) by repeat mv.
  destruct (M G) as [G1 F1]; rewrite <- vw_props_if_any; eapply agrees_step; [exact F1|].
  eapply agrees_bind; [apply agrees_unused, G1|]. clear; intros z G.
  eapply agrees_bind; [apply agrees_degenerated, G|]. clear; intros z G.
  eapply agrees_bind; [apply agrees_merge, G|]. clear; intros z G.
  destruct (agrees_heal_triangles z G) as (G1 & F1 & V1); rewrite <- V1; eapply agrees_step; [exact F1|apply agrees_heal_normals, G1].
  Qed.

  (** One call: on arrays as on values. *)
  Definition same_step (z : self) (r : res (self * answer)) (r' : res (cmesh * answer)) : Prop :=
    match r, r' with
    | Ok (z', x), Ok (s, x') => x = x' /\ good z' /\ framed z z' /\ vw z' = s
    | Raise e, Raise e' => e = e'
    | _, _ => False
    end.
  Lemma same_did : forall z r r', agrees z r r' -> same_step z (did r) (done r').
  Proof. intros z [z'|e] [s|e']; cbn; tauto. Qed.
  Lemma same_ok : forall z z' s, agrees z (Ok z') (Ok s) -> same_step z (Ok (z', Done)) (Ok (s, Done)).
  Proof. intros z z' s; cbn; tauto. Qed.
  Lemma same_asked : forall A (q : cmesh -> res (A * cmesh)) (f : A -> answer) z, gentle q -> good z ->
    same_step z (answered f (query q z)) (do (x, s) <- q (vw z); Ok (s, f x)).
  Proof.
  intros A q f z Q G; pose proof (query_agree _ q z Q G) as H.
  destruct (query q z) as [[x z']|e], (q (vw z)) as [[x' s]|e']; cbn in *; try tauto.
  destruct H as (-> & H); tauto.
  Qed.
  Lemma scaling_faces : forall f a m m', scaling f a m = Ok m' -> faces m' = faces m.
  Proof. intros f a m m' E; unfold scaling in E; destruct (Rltb 0 a); [injection E as <-; reflexivity|discriminate]. Qed.
  Lemma calls : forall c z, good z -> same_step z (h_step argsort order c z) (step argsort order c (vw z)).
  Proof.
  intros c z G; destruct c; cbn [h_step step].
  - apply same_ok, agrees_moves; [exact G|repeat mv|]. transitivity (fresh (cm (vw (replace_verts vs z)))); [reflexivity|].
    rewrite vw_replace_verts by exact G; reflexivity.
  - apply same_ok, agrees_moves; [exact G|repeat mv|]. transitivity (fresh (cm (vw (replace_faces fs z)))); [reflexivity|].
    rewrite vw_replace_faces by exact G; reflexivity.
  - apply same_ok, agrees_translate, G.
  - apply same_ok, agrees_translate_x, G.
  - apply same_ok, agrees_translate_y, G.
  - apply same_ok, agrees_translate_z, G.
  - apply same_ok, agrees_rotate, G.
  - apply same_ok, agrees_rotate, G.
  - apply same_did, agrees_scaling; [apply scaling_faces|exact G].
  - apply same_did, agrees_scaling; [apply scaling_faces|exact G].
  - apply same_did, agrees_scaling; [apply scaling_faces|exact G].
  - apply same_did, agrees_scaling; [apply scaling_faces|exact G].
  - apply same_ok, agrees_flip, G.
  - apply same_did, agrees_merge, G.
  - apply same_did, agrees_heal_normals, G.
  - apply same_did, agrees_unused, G.
  - apply same_ok, agrees_heal_triangles, G.
  - apply same_did, agrees_degenerated, G.
  - apply same_did, agrees_heal_mesh, G.
  - apply same_did, agrees_triangulate, G.
  - apply same_did, agrees_symmetrize, G.
  - apply same_ok, agrees_mirror, G.
  - pose proof (same_asked _ (fun s => Ok (q_ids s)) Ids z gentle_ids G) as H; cbn [bind] in H.
    destruct (q_ids (vw z)) as [i s]; exact H.
  - apply same_asked; [apply gentle_props|exact G].
  - apply same_asked; [apply gentle_conn|exact G].
  - apply same_asked; [apply gentle_ints|exact G].
  - apply same_asked; [apply gentle_volume|exact G].
  - apply same_asked; [apply gentle_plain|exact G].
  - apply same_asked; [apply gentle_shell|exact G].
  - apply (same_asked _ (q_conn order) (fun c => Closed (match c_bounds c with [] => true | _ => false end)));
    [apply gentle_conn|exact G].
  - pose proof (query_agree _ (q_conn order) z (gentle_conn order) G) as H.
    destruct (query (q_conn order) z) as [[x z']|e], (q_conn order (vw z)) as [[x' s]|e']; cbn [agree] in H; try (contradiction H || exact H).
    destruct H as (<- & G' & F & <-); cbn [bind]. change (points (fst z') (o_verts (snd z'))) with (verts (cm (vw z'))).
    destruct (is_mesh_conformal_with (c_bounds x) (verts (cm (vw z')))); cbn; auto.
  - fold (vw z). destruct (axis_aligned_bbox (cm (vw z))); cbn; [|reflexivity]. destruct (moves_refl z G); auto.
  - fold (vw z). destruct (edges_stats (cm (vw z))); cbn; [|reflexivity]. destruct (moves_refl z G); auto.
  Qed.
End Methods.
