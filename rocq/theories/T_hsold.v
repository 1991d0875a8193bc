(** Theorems about the module hydrostatics_old: C108 to C115. *)
From Coq Require Import Reals List Arith ZArith Bool Lia Lra Psatz.
From Verif Require Import M_base P_base S_merge M_merge P_merge M_rotations S_rotations P_rotations M_mesh S_mesh P_mesh S_integral P_integral S_geometry M_geometry P_geometry P_volume
  M_plane M_inertia M_clipper S_clipper M_hydro S_hydro P_hydro P_hydro2 P_barge P_afloat S_equil P_equil P_search T_equil M_hsold S_hsold P_hsold P_nofuel P_hsbox.
From Verif Require T_hydro P_cones.
Import ListNotations.
Open Scope R_scope.

(** ** C108: forces *)
(** Forces that share nothing move with the body, each of them once; a relative force turns with it. *)
Theorem C108_motion : forall dz q l w, own_loads w l ->
  let w' := fold_left (update_force dz q) l w in
  own_loads w' l /\ map (load_of w') l = map (carried q (mvec q (V3 0 0 dz))) (map (load_of w) l) /\
  (forall i, ~ In i l -> (i < length (objects w))%nat -> (f_point (object w i) < length (arrays w))%nat -> ~ In (f_point (object w i)) (point_refs w l) -> load_of w' i = load_of w i).
Proof.
  intros dz q l w O w'. destruct (update_forces_ok dz q l w O) as (A & B & _ & _ & C & D). fold w' in A, B, C, D. split; auto. split; auto.
  intros i N _ L P. unfold load_of. rewrite (C i N). f_equal. apply (D _ L P).
Qed.
Lemma rotation_norm : forall q v, is_rotation q -> norm (mvec q v) = norm v.
Proof. intros q v R. unfold norm. f_equal. apply rotation_dot. auto. Qed.
Theorem C108_strength : forall q t l, is_rotation q -> norm (l_value (carried q t l)) = norm (l_value l) /\ (l_follows l = false -> l_value (carried q t l) = l_value l).
Proof. intros q t l R. unfold carried. cbn [l_value]. destruct (l_follows l); split; auto; try discriminate. apply rotation_norm. auto. Qed.
(** The balance of the body: the weight at the center of gravity, the buoyancy, and the forces that were added, with their
    moments about the axes Ox and Oy *)
Theorem C108_balance : forall u, residual u = unbalance u.
Proof. exact residual_eq. Qed.
Lemma total_snoc : forall l x, total (l ++ [x]) = vadd (total l) (vertical_load x).
Proof.
  induction l; intros x.
  - unfold total. cbn [app map fold_right]. vring.
  - unfold total in *. cbn [app map fold_right]. rewrite IHl. vring.
Qed.
Theorem C108_added : forall p v b u u', apart u -> add_new_force p v b u = (Ok tt, u') ->
  apart u' /\ residual u' = vadd (residual u) (V3 (vz v) (vy p * vz v - vz p * vy v) (vz p * vx v - vx p * vz v)).
Proof.
  intros p v b u u' A H. destruct (new_force_ok p v b u u' A H) as (A' & L & G & E & _). split; auto. rewrite !residual_eq. unfold unbalance. rewrite G, L, total_snoc.
  rewrite E. cbn [u_data u_rhog u_mg with_forces with_world]. unfold vertical_load at 1. unfold moment. cbn [l_point l_value]. generalize (vertical_load (mkLoad (d_buoyancy (u_data u)) (V3 0 0 (u_rhog u * d_volume (u_data u))) false)).
  generalize (vertical_load (mkLoad (gravity_center u) (V3 0 0 (- u_mg u)) false)) (total (loads u)). intros a c e. vring.
Qed.
(** Two forces made with one array, or a force that is added twice: the second moves twice. *)
Theorem C108_shared_refuted : exists w l dz, Forall (fun i => (i < length (objects w))%nat) l /\ NoDup l /\ Forall (fun r => (r < length (arrays w))%nat) (point_refs w l) /\
  map (load_of (fold_left (update_force dz mid) l w)) l <> map (carried mid (V3 0 0 dz)) (map (load_of w) l).
Proof.
  exists (mkWorld [V3 1 0 0] [mkForce 0 (V3 0 0 1) false; mkForce 0 (V3 0 0 2) false]), [0%nat; 1%nat], 1.
  split; [repeat constructor|]. split; [repeat constructor; cbn; intuition lia|]. split; [repeat constructor|].
  intros H. apply (f_equal (fun l => vz (l_point (nth 1 l (mkLoad vzero vzero false))))) in H. cbn in H. lra.
Qed.
Theorem C108_twice_refuted : exists w l dz, Forall (fun i => (i < length (objects w))%nat) l /\ Forall (fun r => (r < length (arrays w))%nat) (point_refs w l) /\
  map (load_of (fold_left (update_force dz mid) l w)) l <> map (carried mid (V3 0 0 dz)) (map (load_of w) l).
Proof.
  exists (mkWorld [V3 1 0 0] [mkForce 0 (V3 0 0 1) false]), [0%nat; 0%nat], 1. split; [repeat constructor|]. split; [repeat constructor|].
  intros H. apply (f_equal (fun l => vz (l_point (nth 1 l (mkLoad vzero vzero false))))) in H. cbn in H. lra.
Qed.
(** The moments are those about the axes of the origin, not about the point of application as documented. *)
Theorem C108_about_point_refuted : exists w i, let l := load_of w i in let about := cross (vsub (l_point l) (l_point l)) (l_value l) in
  hs_force w i <> V3 (vz (l_value l)) (vx about) (vy about).
Proof.
  exists (mkWorld [V3 1 0 0] [mkForce 0 (V3 0 0 1) false]), 0%nat. cbn. intros H. apply (f_equal vz) in H. cbn in H. lra.
Qed.

(** ** C109: the mass *)
Lemma made_mass : forall argsort w m cog rho grav u, hydrostatics argsort w m cog None rho grav = Ok u -> u_mass u = u_rho u * d_volume (u_data u) /\ u_mg u = u_rhog u * d_volume (u_data u).
Proof.
  intros argsort w m cog rho grav u H. destruct (constructor_ok _ _ _ _ _ _ _ _ H) as ((_ & ((h & AR & AG) & W1 & W2) & _) & _ & _ & _ & _ & ER & EG & _ & _ & EM).
  assert (AR' := AR). unfold at_rest_in in AR'. destruct (hydro_inv _ _ _ _ _ _ _ _ _ _ _ AR') as (k & body & minx & maxx & miny & maxy & box & HR).
  destruct (run_fields _ _ _ _ _ _ _ _ _ _ _ _ _ _ _ _ _ _ mid_rotation HR) as (_ & V & MA & _ & _ & _ & _ & _ & _ & _ & R0 & _).
  assert (E : u_mass u = u_rho u * d_volume (u_data u)) by (rewrite EM, (ag_mass _ _ AG), (ag_volume _ _ AG), MA, V; field; auto).
  split; auto. rewrite W1, W2, E. ring.
Qed.
(** Without a mass, the body weighs what it displaces. *)
Theorem C109_default : forall argsort w m cog rho grav u, hydrostatics argsort w m cog None rho grav = Ok u ->
  (exists h, at_rest_in argsort m cog rho grav = Ok h /\ mass u * 1000 = h_disp_mass h) /\ vx (residual u) = 0.
Proof.
  intros argsort w m cog rho grav u H. destruct (made_mass _ _ _ _ _ _ _ H) as (E1 & E2).
  destruct (constructor_ok _ _ _ _ _ _ _ _ H) as ((_ & ((h & AR & AG) & W1 & W2) & _) & _ & M & G & _ & ER & EG & EL & _ & EM). rewrite M, G, ER, EG in AR. split.
  - exists h. split; auto. unfold mass. rewrite EM, (ag_mass _ _ AG). field.
  - rewrite residual_eq. unfold unbalance. rewrite EL, E2. unfold total, vertical_load, moment; cbn [map fold_right l_point l_value]; vunfold. ring.
Qed.
(** A mass given to the constructor is taken a thousand times too large: it is refused, or it is wrong. *)
Theorem C109_given : forall argsort w m cog t rho grav u, t <> 0 -> hydrostatics argsort w m cog (Some t) rho grav = Ok u -> mass u = 1000 * t.
Proof.
  intros argsort w m cog t rho grav u T H. destruct (constructor_ok _ _ _ _ _ _ _ _ H) as (_ & _ & _ & _ & _ & _ & _ & _ & _ & EM). rewrite (proj2 (Reqb_false _ _) T) in EM. unfold mass. rewrite EM. field.
Qed.
(** A box that can carry 24 tons refuses 8 tons. *)
Theorem C109_given_refuted : forall argsort, sorting argsort -> exists m cog rho grav t, 0 < rho /\ 0 < t /\ volume m = Ok 24 /\ t * 1000 < rho * 24 /\
  (exists u, hydrostatics argsort (mkWorld [] []) m cog None rho grav = Ok u /\ mass u = t) /\ hydrostatics argsort (mkWorld [] []) m cog (Some t) rho grav = Raise ValueError.
Proof.
  intros argsort SA. exists (afloat 0), (V3 2 1 0), 1000, 10, 8. split; [lra|]. split; [lra|]. split; [apply box_whole|]. split; [lra|].
  assert (B : box_at 0) by (split; [lra|exists 0%Z; lra]). split.
  - destruct (box_made argsort SA (mkWorld [] []) 0 (V3 2 1 0) 1000 10 B) as (u & E & D); try lra. exists u. split; auto. destruct (made_mass _ _ _ _ _ _ _ E) as (EM & _).
    destruct (constructor_ok _ _ _ _ _ _ _ _ E) as (_ & _ & _ & _ & _ & ER & _). unfold mass. rewrite EM, ER, (bx_volume _ _ _ _ D). field.
  - apply box_made_of; auto; lra.
Qed.
(** The setter of the mass refuses a body that would sink, but keeps the mass it refused. *)
Theorem C109_setter : forall t u v, valid (u_mesh u) -> proper_mesh (u_mesh u) -> volume (u_mesh u) = Ok v ->
  (t * 1000 <= u_rho u * v -> exists u', set_mass t u = (Ok tt, u') /\ mass u' = t /\ u_mg u' = t * 1000 * u_gravity u /\ u_data u' = u_data u /\ u_mesh u' = u_mesh u /\ gravity_center u' = gravity_center u) /\
  (u_rho u * v < t * 1000 -> exists u', set_mass t u = (Raise ValueError, u') /\ mass u' = t).
Proof.
  intros t u v V P E. assert (S : set_mass t u = (if Rltb (u_rho u * v) (t * 1000) then Raise ValueError else Ok tt, with_mass (t * 1000) (t * 1000 * u_gravity u) u)).
  { unfold set_mass, seq_, modify, is_sinking. cbn [u_mesh u_rho u_mass with_mass]. rewrite (proj2 (no_normal_spec _ V) P), E. destruct (Rltb (u_rho u * v) (t * 1000)); reflexivity. }
  assert (M : mass (with_mass (t * 1000) (t * 1000 * u_gravity u) u) = t) by (unfold mass; cbn; field). split; intros L; eexists; rewrite S.
  - rewrite (proj2 (Rltb_false _ _)) by lra. split; [reflexivity|]. auto.
  - rewrite (proj2 (Rltb_true _ _) L). split; [reflexivity|]. auto.
Qed.
Example C109_box : forall u, u_mesh u = afloat 0 -> u_rho u = 1000 -> (exists u', set_mass 20 u = (Ok tt, u') /\ mass u' = 20) /\ (exists u', set_mass 30 u = (Raise ValueError, u') /\ mass u' = 30).
Proof.
  intros u M R1. assert (P : proper_mesh (afloat 0)) by (apply no_normal_spec; [apply af_valid|apply box_proper]). rewrite <- M in P.
  assert (V : valid (u_mesh u)) by (rewrite M; apply af_valid). assert (W : volume (u_mesh u) = Ok 24) by (rewrite M; apply box_whole).
  destruct (C109_setter 20 u 24 V P W) as (A & _). destruct (C109_setter 30 u 24 V P W) as (_ & B). rewrite R1 in A, B. destruct A as (u1 & E1 & E2 & _); [lra|]. split; [eauto|]. apply B. lra.
Qed.

(** ** C110: the data *)
(** The data of a new body are those of the module hydrostatics. *)
Theorem C110_agree : forall argsort w m cog tons rho grav u, hydrostatics argsort w m cog tons rho grav = Ok u ->
  exists h, at_rest_in argsort m cog rho grav = Ok h /\ agree (u_data u) h.
Proof.
  intros argsort w m cog tons rho grav u H. destruct (constructor_ok _ _ _ _ _ _ _ _ H) as ((_ & ((h & AR & AG) & W1 & W2) & _) & _ & M & G & _ & ER & EG & _). rewrite M, G, ER, EG in AR. eauto.
Qed.
(** Conversely a body that the module hydrostatics accepts is accepted, unless a face of the clipped mesh is tiny. *)
Theorem C110_accepted : forall argsort w m cog rho grav h, at_rest_in argsort m cog rho grav = Ok h ->
  (exists u, hydrostatics argsort w m cog None rho grav = Ok u /\ agree (u_data u) h) \/
  (hydrostatics argsort w m cog None rho grav = Raise PlainException /\
   exists k props p, clip_mesh argsort m = Ok k /\ faces_properties (clipped k) = Ok props /\ In p props /\ Rabs (fp_area p) < 1 / 10000000000).
Proof.
  intros argsort w m cog rho grav h AR. assert (AR' := AR). unfold at_rest_in in AR'. destruct (hydro_inv _ _ _ _ _ _ _ _ _ _ _ AR') as (k & body & minx & maxx & miny & maxy & box & HR).
  pose proof (hr_clip _ _ _ _ _ _ _ _ _ _ _ _ _ _ _ _ _ _ HR) as K. rewrite <- placed_mesh_eq, placed_mid in K. change (clip_mesh argsort m = Ok k) in K.
  unfold hydrostatics. cbn [alloc]. match goal with |- context [update_properties argsort ?x] => set (u := x) end.
  assert (G : vz cog = zg u) by (unfold zg; f_equal; symmetry; exact (array_alloc (fst (alloc cog w)) cog)).
  assert (U : update_properties argsort u = match properties k rho (rho * grav) (zg u) with Ok d => (Ok tt, with_data d (with_clipper (Some k) u)) | Raise e => (Raise e, with_clipper (Some k) u) end).
  { unfold update_properties, seq_, the_clipper. cbn [u_clipper u u_mesh]. rewrite K. reflexivity. }
  rewrite U. destruct (properties_spec argsort m k cog rho grav K) as (_ & S). rewrite G in S. destruct (S h AR) as [(d & P & AG)|(P & T)]; rewrite P.
  - left. eexists. split; [reflexivity|]. exact AG.
  - right. split; auto. destruct T as (props & F & p & I & L). exists k, props, p. auto.
Qed.
Example C110_box : forall argsort cog, sorting argsort -> exists u, hydrostatics argsort (mkWorld [] []) (afloat 0) cog None 1000 10 = Ok u /\
  d_volume (u_data u) = 8 /\ d_buoyancy (u_data u) = V3 2 1 (- (1 / 2)) /\ d_waterplane_area (u_data u) = 8 /\ d_flotation (u_data u) = V3 2 1 0 /\ d_gm_x (u_data u) = 5 / 6 - vz cog.
Proof.
  intros argsort cog SA. destruct (box_made argsort SA (mkWorld [] []) 0 cog 1000 10) as (u & E & D); try lra; [split; [lra|exists 0%Z; lra]|]. exists u. split; auto.
  destruct D. rewrite bx_volume, bx_buoyancy, bx_area, bx_flotation, bx_roll. split; [ring|]. split; [f_equal; field|]. split; auto. split; auto. field.
Qed.

(** ** C115: the data follow the calls *)
Theorem C115_data_follow : forall argsort w m cog tons rho grav u u', hydrostatics argsort w m cog tons rho grav = Ok u -> history argsort u u' ->
  up_to_date argsort u' /\ fresh_clipper argsort u'.
Proof.
  intros argsort w m cog tons rho grav u u' H HI. destruct (constructor_ok _ _ _ _ _ _ _ _ H) as (S & _). destruct (history_sound _ _ _ HI S) as (_ & A & B & _). auto.
Qed.

(** ** C111: displacement *)
Definition made (argsort : list R -> list nat) (u : hull) : Prop := exists w m cog tons rho grav u0, hydrostatics argsort w m cog tons rho grav = Ok u0 /\ history argsort u0 u.
Lemma made_sound : forall argsort u, made argsort u -> sound argsort u.
Proof. intros argsort u (w & m & cog & tons & rho & grav & u0 & H & HI). destruct (constructor_ok _ _ _ _ _ _ _ _ H) as (S & _). apply (history_sound _ _ _ HI S). Qed.
Theorem C111_displacement : forall argsort t u z u', made argsort u -> set_displacement argsort t u = (Ok z, u') ->
  let u0 := with_mass (t * 1000) (t * 1000 * u_gravity u) u in let n := p_itermax (u_solver u) in
  moved mid (V3 0 0 z) u u' /\ mass u' = t /\ up_to_date argsort u' /\ u_rotation u' = u_rotation u /\
  exists i hs, (i < n)%nat /\ reach (lift_search argsort u0) i 0 z /\ raised_hydro argsort u0 z = Ok hs /\
    ((i + 1 < n)%nat -> lifted (u_rhog u0) (u_mg u0) (vx (total (loads u0))) (p_reltol (u_solver u0)) hs) /\ Rabs z <= INR i * p_z_relax (u_solver u).
Proof.
  intros argsort t u z u' M H u0 n. pose proof (made_sound _ _ M) as S. pose proof (sound_wired _ _ S) as W. destruct S as (A & _ & _ & (Z & N)).
  destruct (set_displacement_ok argsort t u z u' A W (Rlt_le _ _ Z) N H) as (i & hs & I & RE & RH & LI & CA & (K1 & K2)). fold u0 in RE, RH, LI, CA.
  split; [destruct (ca_moved _ _ _ _ CA); constructor; auto|]. split; [unfold mass; rewrite (proj1 (sb_mass _ _ (ca_body _ _ _ _ CA))); cbn; field|]. split; auto. split; [rewrite (ca_rotation _ _ _ _ CA), mmul_mid; reflexivity|].
  exists i, hs. repeat (split; auto). 
  assert (B : forall i a b, reach (lift_search argsort u0) i a b -> Rabs (b - a) <= INR i * p_z_relax (u_solver u)).
  { clear - Z. intros i a b RE. induction RE as [a|i a b c RE IH ST].
    - replace (a - a) with 0 by ring. rewrite Rabs_R0. cbn. lra.
    - destruct ST as (hs & _ & _ & ->). rewrite S_INR. cbn [u_solver u0 with_mass] in *. 
      match goal with |- context [clamp ?x ?y] => pose proof (clamp_bound x y (Rlt_le _ _ Z)) as CB; set (c := clamp x y) in * end.
      replace (b + c - a) with ((b - a) + c) by ring. pose proof (Rabs_triang (b - a) c). lra. }
  specialize (B i 0 z RE). rewrite Rminus_0_r in B. auto.
Qed.
(** A box of the mass 12 goes down by half a meter. *)
Lemma box_sinks : forall argsort u, sorting argsort -> apart u -> wired u -> u_mesh u = afloat 0 -> u_rho u = 1 -> u_gravity u = 1 -> loads u = [] ->
  (2 <= p_itermax (u_solver u))%nat -> p_reltol (u_solver u) = 1 / 10000 -> p_z_relax (u_solver u) = 9 / 10 -> exists u', set_displacement argsort (12 / 1000) u = (Ok (- (1 / 2)), u').
Proof.
  intros argsort u SA A W M R1 G1 L I T X. unfold set_displacement, seq_. rewrite (box_mass _ _ 0 M). rewrite R1, (proj2 (Rltb_false _ _)) by lra. cbv beta iota.
  replace (12 / 1000 * 1000) with 12 by field. rewrite G1, Rmult_1_r. set (u0 := with_mass 12 12 u). change (p_itermax (u_solver u0)) with (p_itermax (u_solver u)).
  destruct (p_itermax (u_solver u)) as [|[|n]]; try lia.
  assert (A0 : apart u0) by exact A. assert (W0 : wired u0) by (destruct W as [W1 W2]; split; [exact W1|cbn; rewrite G1; ring]).
  assert (RG : u_rhog u0 = 1) by (destruct W as [W1 W2]; cbn; rewrite W1, R1, G1; ring).
  destruct (box_step argsort SA (S n) 0 0 u0 0 A0 W0 M) as (u1 & C1 & K1 & D1 & E1); [rewrite Rplus_0_r; split; [lra|exists 0%Z; lra]|cbn; lra|cbn; lra|].
  assert (RS : forall v z, carriage mid (V3 0 0 z) u0 v -> boxed (0 + z) (zg u0 + z) (u_rho u0) (u_data v) -> u_mg v = 12 /\ u_rhog v = 1 /\ u_solver v = u_solver u /\ vx (residual v) = 8 * (1 - z) - 12).
  { intros v z C D. destruct (ca_body _ _ _ _ C) as [_ (S1 & S2 & S3) (S4 & S5) S6]. rewrite S3, S5, S6, residual_eq. unfold unbalance. rewrite (mv_loads _ _ _ _ (ca_moved _ _ _ _ C)).
    change (loads u0) with (loads u). rewrite L, S3, S5, RG, (bx_volume _ _ _ _ D). cbn [u_mg u_rhog u0 with_mass]. repeat (split; auto). unfold total, vertical_load. cbn [map fold_right l_value]. vunfold. ring. }
  destruct (RS u1 0 C1 D1) as (M1 & H1 & S1 & F1). rewrite E1, M1, H1, S1, F1, T, X. 
  assert (RB : ratio_below (8 * (1 - 0) - 12) 12 (1 / 10000) = false).
  { apply not_true_is_false. intros Y. apply ratio_below_spec in Y. destruct Y as [_ Y]. rewrite Rabs_left, Rabs_pos_eq in Y by lra. lra. }
  rewrite RB. rewrite relax_clamp by lra. replace ((8 * (1 - 0) - 12) / (1 * 8)) with (- (1 / 2)) by field.
  rewrite clamp_inside by (rewrite Rabs_left by lra; lra). 
  assert (A1 : apart u1) by apply (ca_apart _ _ _ _ C1). assert (W1 : wired u1) by (eapply carriage_wired; eauto). destruct (still u0 u1 C1) as (MS & GS & LS).
  destruct (ca_body _ _ _ _ C1) as [_ (B1 & B2 & B3) _ _].
  destruct (box_step argsort SA n (- (1 / 2)) (0 + 0) u1 0 A1 W1) as (u2 & C2 & K2 & D2 & E2); [rewrite MS; auto|split; [lra|exists (-1)%Z; lra]|rewrite B1; cbn; lra|rewrite B2; cbn; lra|].
  assert (C12 : carriage mid (V3 0 0 (- (1 / 2))) u0 u2).
  { pose proof (carriage_trans _ _ _ _ _ _ _ C1 C2) as CT. rewrite mvec_id in CT. replace (mmul mid mid) with mid in CT by (apply mat_eq; vunfold; ring).
    replace (vadd (V3 0 0 0) (V3 0 0 (- (1 / 2)))) with (V3 0 0 (- (1 / 2))) in CT by (apply vec_eq; vunfold; ring). exact CT. }
  assert (GZ : zg u1 = zg u0) by (unfold zg; rewrite GS; auto). rewrite GZ, B1 in D2.
  destruct (RS u2 _ C12 D2) as (M2 & H2 & S2 & F2). exists u2. rewrite E2, M2, S2, F2, T. replace (8 * (1 - - (1 / 2)) - 12) with 0 by field.
  rewrite (proj2 (ratio_below_spec 0 12 (1 / 10000))) by (rewrite Rabs_R0, Rabs_pos_eq by lra; lra). f_equal. f_equal. ring.
Qed.
Example C111_box : forall argsort, sorting argsort -> exists u u', made argsort u /\ u_mesh u = afloat 0 /\ set_displacement argsort (12 / 1000) u = (Ok (- (1 / 2)), u').
Proof.
  intros argsort SA. destruct (box_made argsort SA (mkWorld [] []) 0 (V3 2 1 0) 1 1) as (u & E & D); try lra; [split; [lra|exists 0%Z; lra]|].
  destruct (constructor_ok _ _ _ _ _ _ _ _ E) as (S & _ & M & G & _ & ER & EG & EL & ES & EM). pose proof (sound_wired _ _ S) as W. destruct S as (A & _).
  set (u1 := with_solver (mkSolver (1 / 10000) 1000 10 2 (9 / 10) false) u).
  assert (P : perform argsort (CZRelax (9 / 10)) u = (Ok tt, u1)).
  { cbn [perform]. unfold set_z_relax, set_solver, between. rewrite (proj2 (Rltb_true 0 _)), (proj2 (Rltb_true _ 1)) by lra. cbn [andb]. unfold modify. rewrite ES. reflexivity. }
  destruct (box_sinks argsort u1 SA) as (u' & E'); auto; [apply Nat.leb_le; reflexivity|]. exists u1, u'. split; [|split; auto]. exists (mkWorld [] []), (afloat 0), (V3 2 1 0), None, 1, 1, u. split; auto.
  eapply history_call; [apply history_none|exact P].
Qed.

(** ** C114: reset *)
Theorem C114_reset : forall argsort w m cog tons rho grav u u' u'', hydrostatics argsort w m cog tons rho grav = Ok u ->
  history_with argsort (fun c => forall v, c <> CCenter v) u u' -> reset argsort u' = (Ok tt, u'') ->
  u_mesh u'' = m /\ gravity_center u'' = cog /\ u_rotation u'' = mid /\ up_to_date argsort u'' /\ mass u'' = mass u' /\ u_rho u'' = u_rho u' /\ u_gravity u'' = u_gravity u' /\ loads u'' = loads u'.
Proof.
  intros argsort w m cog tons rho grav u u' u'' H HI RS. destruct (constructor_ok _ _ _ _ _ _ _ _ H) as (S & K & _).
  assert (X : sound argsort u' /\ keeps m cog u').
  { clear - S K HI. induction HI as [|u u' u'' c HI IH C P]; auto. destruct (IH S K) as [S' K']. destruct (perform_sound _ _ _ _ S' P) as [S2 K2]. auto. }
  destruct X as [S' (K1 & _ & K3)]. pose proof (sound_wired _ _ S') as W. destruct S' as (A & _).
  destruct (reset_inv _ _ _ A W RS) as (u1 & U & -> & _ & (UP & _) & EM & EG & EL & _ & _ & _ & MA & RH & GR & _). rewrite K1 in EM. rewrite K3 in EG.
  repeat (split; auto). unfold mass. rewrite MA. auto.
Qed.
Example C114_box : forall argsort, sorting argsort -> exists u u' u'', hydrostatics argsort (mkWorld [] []) (afloat 0) (V3 2 1 0) None 1 1 = Ok u /\
  history_with argsort (fun c => forall v, c <> CCenter v) u u' /\ gravity_center u' = V3 2 1 (- (1 / 2)) /\ reset argsort u' = (Ok tt, u'').
Proof.
  intros argsort SA. assert (BH : box_at 0) by (split; [lra|exists 0%Z; lra]). destruct (box_made argsort SA (mkWorld [] []) 0 (V3 2 1 0) 1 1 BH) as (u & E & D); try lra.
  destruct (constructor_ok _ _ _ _ _ _ _ _ E) as (S & K & M & G & _ & ER & EG & EL & ES & EM). pose proof (sound_wired _ _ S) as W. destruct S as (A & _).
  set (u1 := with_solver (mkSolver (1 / 10000) 1000 10 2 (9 / 10) false) u).
  assert (P : perform argsort (CZRelax (9 / 10)) u = (Ok tt, u1)).
  { cbn [perform]. unfold set_z_relax, set_solver, between. rewrite (proj2 (Rltb_true 0 _)), (proj2 (Rltb_true _ 1)) by lra. cbn [andb]. unfold modify. rewrite ES. reflexivity. }
  destruct (box_sinks argsort u1 SA) as (u4 & E'); auto; [apply Nat.leb_le; reflexivity|].
  assert (P2 : perform argsort (CDisplacement (12 / 1000)) u1 = (Ok tt, u4)) by (cbn [perform]; unfold seq_; rewrite E'; reflexivity).
  assert (MD : made argsort u1) by (exists (mkWorld [] []), (afloat 0), (V3 2 1 0), None, 1, 1, u; split; auto; exact (history_call argsort _ _ _ _ (history_none argsort u) P)).
  destruct (C111_displacement _ _ _ _ _ MD E') as (MV & _). pose proof (made_sound _ _ MD) as S1. pose proof (sound_wired _ _ S1) as W1. destruct S1 as (A1 & _ & _ & (Z1 & N1)).
  destruct (set_displacement_ok argsort _ u1 _ u4 A1 W1 (Rlt_le _ _ Z1) N1 E') as (i & hs & _ & _ & _ & _ & CA & _). destruct (ca_body _ _ _ _ CA) as [I4 (R4 & G4 & RG4) _ _].
  set (u5 := with_clipper None (replace_cog (array (u_world u4) (u_backup u4)) (with_mesh (u_init_mesh u4) u4))).
  destruct (box_refresh argsort SA u5 0 BH) as (k5 & d5 & _ & UP5 & _).
  - cbn. rewrite I4. cbn. apply K.
  - intros ? X. discriminate X.
  - cbn. rewrite RG4, R4, G4. apply W1.
  - cbn. rewrite R4. cbn. lra.
  - cbn. rewrite G4. cbn. lra.
  - exists u, u4. eexists. split; auto. split; [|split].
    + refine (with_call argsort _ _ _ _ _ (with_call argsort _ _ _ _ _ (with_none argsort _ u) _ P) _ P2); intros v X; discriminate X.
    + rewrite (mv_cog _ _ _ _ MV). change (gravity_center u1) with (gravity_center u). rewrite G. apply vec_eq; vunfold; ring.
    + change (reset argsort u4) with (match update_properties argsort u5 with (Ok _, x) => (Ok tt, with_rotation mid x) | (Raise e, x) => (Raise e, x) end). rewrite UP5. reflexivity.
Qed.
Lemma displace_refs : forall argsort n dz zc u a u', displace argsort n dz zc u = (Ok a, u') -> u_cog u' = u_cog u /\ u_backup u' = u_backup u.
Proof.
  intros argsort. induction n as [|n IH]; intros dz zc u a u' H; [cbn in H; injection H as _ <-; auto|]. cbn [displace] in H. apply seq_inv in H. destruct H as ([] & u1 & E1 & H). injection E1 as <-.
  apply seq_inv in H. destruct H as ([] & u2 & E2 & H). injection E2 as <-. apply seq_inv in H. destruct H as ([] & u3 & E3 & H).
  assert (F : forall x, fresh_clipper argsort (with_clipper None x)) by (intros x k X; discriminate X). destruct (update_inv argsort _ u3 (F _) E3) as (k & d & _ & _ & ->).
  destruct (ratio_below _ _ _); [injection H as _ <-; auto|]. apply IH in H. destruct H as [H1 H2]. rewrite H1, H2. auto.
Qed.
(** Once the center of gravity was assigned, it is lost: the array that should be the backup goes down with the body. *)
Theorem C114_center : forall argsort u v t z u1 u2 u3, made argsort u -> set_gravity_center argsort v u = (Ok tt, u1) -> set_displacement argsort t u1 = (Ok z, u2) -> reset argsort u2 = (Ok tt, u3) ->
  u_mesh u3 = u_init_mesh u /\ gravity_center u3 = V3 (vx v) (vy v) (vz v + z).
Proof.
  intros argsort u v t z u1 u2 u3 M H1 H2 H3. pose proof (made_sound _ _ M) as S. destruct M as (w & m & cog & tons & rho & grav & u0 & H & HI).
  assert (M1 : made argsort u1) by (exists w, m, cog, tons, rho, grav, u0; split; auto; exact (history_call argsort _ _ _ (CCenter v) HI H1)).
  assert (X : gravity_center u1 = v /\ u_cog u1 = u_backup u1 /\ u_init_mesh u1 = u_init_mesh u).
  { destruct S as (_ & _ & F & _). unfold set_gravity_center in H1. cbn [alloc] in H1. unfold set_gravity_array in H1. apply seq_inv in H1. destruct H1 as ([] & u' & E & U). injection E as <-.
    match type of U with update_properties _ ?x = _ => assert (F' : fresh_clipper argsort x) by exact F end. destruct (update_inv argsort _ u1 F' U) as (k & d & _ & _ & ->). split; [exact (array_alloc (u_world u) v)|]. auto. }
  destruct X as (G1 & B1 & I1). destruct (C111_displacement _ _ _ _ _ M1 H2) as (MV & _ & _). pose proof H2 as H2'.
  pose proof (made_sound _ _ M1) as S1. pose proof (sound_wired _ _ S1) as W1. destruct S1 as (A1 & _ & _ & (Z1 & N1)).
  destruct (set_displacement_ok argsort t u1 z u2 A1 W1 (Rlt_le _ _ Z1) N1 H2) as (i & hs & _ & _ & _ & _ & CA & _).
  assert (A2 : apart u2) by apply (ca_apart _ _ _ _ CA). assert (W2 : wired u2) by (eapply carriage_wired; [exact CA|]; destruct W1; split; [auto|reflexivity]).
  unfold set_displacement in H2'. apply seq_inv in H2'. destruct H2' as ([] & u' & E1 & E2). apply set_mass_inv in E1. apply displace_refs in E2. rewrite E1 in E2. destruct E2 as [E2 E3]. cbn in E2, E3.
  destruct (reset_inv _ _ _ A2 W2 H3) as (_ & _ & _ & _ & _ & EM & EG & _). rewrite EM, EG. split.
  - destruct (ca_body _ _ _ _ CA) as [X _ _ _]. rewrite X. exact I1.
  - rewrite E3, <- B1, <- E2. change (gravity_center u2 = V3 (vx v) (vy v) (vz v + z)). rewrite (mv_cog _ _ _ _ MV), G1. apply vec_eq; vunfold; ring.
Qed.
Theorem C114_center_refuted : forall argsort, sorting argsort -> exists u v t z u1 u2 u3, made argsort u /\ set_gravity_center argsort v u = (Ok tt, u1) /\ set_displacement argsort t u1 = (Ok z, u2) /\
  reset argsort u2 = (Ok tt, u3) /\ u_mesh u3 = u_mesh u /\ gravity_center u3 <> v.
Proof.
  intros argsort SA. assert (BH : box_at 0) by (split; [lra|exists 0%Z; lra]). destruct (box_made argsort SA (mkWorld [] []) 0 (V3 2 1 0) 1 1 BH) as (u & E & D); try lra.
  destruct (constructor_ok _ _ _ _ _ _ _ _ E) as (S & K & M & G & _ & ER & EG & EL & ES & EM).
  set (u' := with_solver (mkSolver (1 / 10000) 1000 10 2 (9 / 10) false) u).
  assert (P : perform argsort (CZRelax (9 / 10)) u = (Ok tt, u')).
  { cbn [perform]. unfold set_z_relax, set_solver, between. rewrite (proj2 (Rltb_true 0 _)), (proj2 (Rltb_true _ 1)) by lra. cbn [andb]. unfold modify. rewrite ES. reflexivity. }
  assert (MD : made argsort u') by (exists (mkWorld [] []), (afloat 0), (V3 2 1 0), None, 1, 1, u; split; auto; eapply history_call; [apply history_none|exact P]).
  pose proof (made_sound _ _ MD) as S'. pose proof (sound_wired _ _ S') as W'. set (v := V3 2 1 0). set (u2 := with_cog (length (arrays (u_world u'))) (with_backup (length (arrays (u_world u'))) (with_world (fst (alloc v (u_world u'))) u'))).
  destruct S' as (A' & _ & F' & FI').
  destruct (box_refresh argsort SA u2 0 BH) as (k & d & _ & UP & _); [exact M|exact F'|apply W'|cbn; lra|cbn; lra|].
  assert (SG : set_gravity_center argsort v u' = (Ok tt, with_data d (with_clipper (Some k) u2))) by (rewrite <- UP; reflexivity). set (u3 := with_data d (with_clipper (Some k) u2)) in *.
  assert (MD3 : made argsort u3) by (destruct MD as (x1 & x2 & x3 & x4 & x5 & x6 & x7 & X & HI); exists x1, x2, x3, x4, x5, x6, x7; split; auto; exact (history_call argsort _ _ _ (CCenter v) HI SG)).
  pose proof (made_sound _ _ MD3) as S3. pose proof (sound_wired _ _ S3) as W3. destruct S3 as (A3 & _ & _ & (Z3 & N3)).
  assert (L3 : loads u3 = []) by (unfold loads in EL |- *; change (u_forces u3) with (u_forces u); destruct (u_forces u); [reflexivity|discriminate EL]).
  destruct (box_sinks argsort u3 SA) as (u4 & E4); auto; [apply Nat.leb_le; reflexivity|].
  destruct (set_displacement_ok argsort _ u3 _ u4 A3 W3 (Rlt_le _ _ Z3) N3 E4) as (i & hs & _ & _ & _ & _ & CA & _).
  destruct (ca_body _ _ _ _ CA) as [I4 (R4 & G4 & RG4) _ _]. 
  set (u5 := with_clipper None (replace_cog (array (u_world u4) (u_backup u4)) (with_mesh (u_init_mesh u4) u4))).
  destruct (box_refresh argsort SA u5 0 BH) as (k5 & d5 & _ & UP5 & _).
  - cbn. rewrite I4. cbn. apply K.
  - intros ? X. discriminate X.
  - cbn. rewrite RG4, R4, G4. apply W3.
  - cbn. rewrite R4. cbn. lra.
  - cbn. rewrite G4. cbn. lra.
  - assert (RE : reset argsort u4 = (Ok tt, with_rotation mid (with_data d5 (with_clipper (Some k5) u5)))).
    { change (reset argsort u4) with (match update_properties argsort u5 with (Ok _, x) => (Ok tt, with_rotation mid x) | (Raise e, x) => (Raise e, x) end). rewrite UP5. reflexivity. }
    destruct (C114_center _ _ _ _ _ _ _ _ MD SG E4 RE) as [EM5 EG5].
    exists u', v, (12 / 1000), (- (1 / 2)), u3, u4. eexists. split; auto. split; [exact SG|]. split; [exact E4|]. split; [exact RE|]. rewrite EM5, EG5. split; [cbn; rewrite M; apply K|].
    intros X. apply (f_equal vz) in X. cbn in X. lra.
Qed.

(** ** C112: the search of an equilibrium *)
Theorem C112_result : forall argsort rnd init fuel u code u', made argsort u -> (2 <= p_itermax (u_solver u))%nat -> equilibrate argsort rnd init fuel u = (Ok code, u') ->
  exists v q t, is_rotation q /\ moved q t u v /\ same_body u v /\ up_to_date argsort v /\ verdict code v /\ u_rotation u' = mmul q (u_rotation u) /\
    let g := gravity_center v in moved mid (V3 (- vx g) (- vy g) 0) v u' /\ same_body v u' /\ gravity_center u' = V3 0 0 (vz g).
Proof.
  intros argsort rnd init fuel u code u' M I H. pose proof (made_sound _ _ M) as S. pose proof (sound_wired _ _ S) as W. destruct S as (A & _ & _ & (Z & _)).
  destruct (equilibrate_ok argsort rnd init fuel u code u' A W (Rlt_le _ _ Z) I H) as (v & (q & t & RQ & CA) & ((UP & _) & VE) & ->).
  exists v, q, t. destruct (recenter_carriage v (ca_apart _ _ _ _ CA)) as (CR & G & _). split; auto. split; [apply CA|]. split; [apply CA|]. split; auto. split; auto. split; [rewrite (ca_rotation _ _ _ _ CR), mmul_mid; apply CA|]. split; [apply CR|]. split; [apply CR|]. exact G.
Qed.
(** With at least two iterations, the search ends within the passes that its parameters allow. *)
Theorem C112_ends : forall argsort rnd init u fuel, (2 <= p_itermax (u_solver u))%nat ->
  let n := (Nat.max 1 (p_max_restart (u_solver u)) * (p_itermax (u_solver u) - 1) + 1)%nat in (n <= fuel)%nat ->
  equilibrate argsort rnd init fuel u = equilibrate argsort rnd init n u /\ fst (equilibrate argsort rnd init n u) <> Raise OutOfFuel.
Proof.
  intros argsort rnd init u fuel I n F. split; [apply (equilibrate_ends argsort rnd init fuel n u I F (le_n _))|]. apply (equilibrate_ends argsort rnd init n n u I (le_n _) (le_n _)).
Qed.

(** With a single iteration, the limit is missed: a box without weight, held by a force, keeps the search going for ever. *)
Definition single : solver := mkSolver (1 / 10000) 1 10 2 (1 / 10) false.
Definition hold : load := mkLoad (V3 2 1 0) (V3 0 0 (-8)) false.
Record held (u : hull) : Prop := {
  he_apart : apart u; he_wired : wired u; he_mesh : u_mesh u = afloat 0; he_cog : gravity_center u = ahead; he_loads : loads u = [hold];
  he_rho : u_rho u = 1; he_gravity : u_gravity u = 1; he_mg : u_mg u = 0; he_mass : u_mass u = 0; he_solver : u_solver u = single }.
Lemma held_box : box_at 0. Proof. split; [lra|exists 0%Z; lra]. Qed.
Lemma held_still : forall u u', held u -> carriage mid (V3 0 0 0) u u' -> held u'.
Proof.
  intros u u' [] C. destruct (still u u' C) as (E1 & E2 & E3). destruct (ca_body _ _ _ _ C) as [_ (S1 & S2 & S3) (S4 & S5) S6]. constructor; try congruence; [apply C|eapply carriage_wired; eauto].
Qed.
Lemma held_balance : forall u z0 r0, held u -> boxed 0 z0 r0 (u_data u) -> residual u = vzero.
Proof.
  intros u z0 r0 [] D. rewrite residual_eq. unfold unbalance. destruct he_wired0 as [W1 W2]. rewrite he_loads0, he_mg0, W1, he_rho0, he_gravity0, (bx_volume _ _ _ _ D), (bx_buoyancy _ _ _ _ D).
  unfold total, vertical_load, moment, hold. cbn [map fold_right l_point l_value]. apply vec_eq; vunfold; field.
Qed.
Lemma relax_0 : forall b, 0 <= b -> relax b 0 = 0.
Proof. intros b B. rewrite relax_clamp by auto. apply clamp_inside. rewrite Rabs_R0. auto. Qed.
Lemma held_pass : forall argsort rnd fuel iter nb u, sorting argsort -> held u -> exists u', held u' /\
  seq_ (move argsort 0 0 0) (fun _ => after argsort rnd fuel iter nb 0 0 0) u = search argsort rnd fuel (S iter) nb false 0 0 0 u'.
Proof.
  intros argsort rnd fuel iter nb u SA H. pose proof H as []. destruct (box_still argsort SA u 0 he_apart0 he_wired0 he_mesh0 held_box) as (u' & E & C & (K & _) & D & _); try lra.
  pose proof (held_still _ _ H C) as H'. exists u'. split; auto. unfold seq_. rewrite E. unfold after.
  assert (Q : is_at_equilibrium u' = false).
  { apply not_true_is_false. intros X. apply balance_test in X. destruct X as ((X & _) & _). apply X. apply H'. }
  rewrite Q. rewrite (held_balance u' _ _ H' D). destruct K as ((h & AR & AG) & _). pose proof H' as [].
  rewrite he_mesh1, he_cog1, he_rho1, he_gravity1 in AR. rewrite (ag_stiffness _ _ AG), (ahead_stiffness argsort h SA AR). rewrite he_solver1.
  unfold solve3. rewrite (proj2 (Reqb_false _ _)) by (vunfold; cbn; lra). cbn [vx vy vz vzero m00 m01 m02 m10 m11 m12 m20 m21 m22 p_theta_relax p_z_relax single].
  assert (TH : 0 <= radians 2) by (unfold radians; pose proof PI_RGT_0; lra). f_equal; match goal with |- relax ?b ?x = 0 => replace x with 0; [apply relax_0; auto; lra|] end; unfold mdet; cbn; field.
Qed.
Lemma held_search : forall argsort rnd fuel iter nb u, sorting argsort -> held u -> (1 <= iter)%nat -> fst (search argsort rnd fuel iter nb false 0 0 0 u) = Raise OutOfFuel.
Proof.
  intros argsort rnd fuel. induction fuel as [|fuel IH]; intros iter nb u SA H I; [reflexivity|]. rewrite search_S. unfold limit_met. rewrite (he_solver _ H). cbn [p_itermax single Nat.sub]. rewrite Nat.mul_0_r.
  destruct iter as [|iter]; [lia|]. cbn [Nat.eqb orb]. destruct (held_pass argsort rnd fuel (S iter) nb u SA H) as (u' & H' & E). rewrite E. apply IH; auto; lia.
Qed.
Lemma held_restart : forall argsort n u, sorting argsort -> held u -> exists u', held u' /\ restart argsort (fun _ => (0, 0)) n u = (Ok tt, u').
Proof.
  intros argsort n u SA H. pose proof H as []. unfold restart. cbn [fst snd]. rewrite !Rmult_0_l, mid_cardan. 
  destruct (box_refresh argsort SA (with_clipper None (turn mid u)) 0 held_box) as (k & d & _ & E & _).
  - cbn. rewrite rotate_mid. auto.
  - intros ? X. discriminate X.
  - apply he_wired0.
  - cbn. lra.
  - cbn. lra.
  - exists (with_data d (with_clipper (Some k) (update_forces 0 mid (turn mid u)))). split.
    + apply (held_still u); auto. apply carriage_data, carriage_clipper. pose proof (turn_carriage mid u he_apart0) as C. rewrite mvec_id in C. exact C.
    + change (match update_properties argsort (with_clipper None (turn mid u)) with (Ok _, x) => (Ok tt, update_forces 0 mid x) | (Raise e, x) => (Raise e, x) end = (Ok tt, with_data d (with_clipper (Some k) (update_forces 0 mid (turn mid u))))).
      rewrite E. reflexivity.
Qed.
Lemma held_placed : forall argsort u, sorting argsort -> held u -> exists z u', held u' /\ set_displacement argsort (mass u) u = (Ok z, u').
Proof.
  intros argsort u SA H. pose proof H as []. unfold set_displacement, seq_. rewrite (box_mass _ _ 0 he_mesh0). unfold mass. rewrite he_mass0, he_rho0, he_gravity0, (proj2 (Rltb_false _ _)) by lra.
  replace (0 / 1000 * 1000) with 0 by field. rewrite Rmult_0_l. set (u0 := with_mass 0 0 u). assert (H0 : held u0) by (constructor; auto; destruct he_wired0 as [W1 W2]; split; [exact W1|cbn; ring]).
  cbv beta iota. change (p_itermax (u_solver u0)) with (p_itermax (u_solver u)). rewrite he_solver0. cbn [p_itermax single].
  pose proof H0 as []. destruct (box_step argsort SA 0 0 0 u0 0 he_apart1 he_wired1 he_mesh1) as (u1 & C & _ & _ & E); [rewrite Rplus_0_r; apply held_box|lra|lra|]. rewrite E.
  pose proof (held_still _ _ H0 C) as H1. destruct (ratio_below _ _ _); eexists; exists u1; (split; [auto|reflexivity]).
Qed.
Theorem C112_single_refuted : forall argsort, sorting argsort -> exists u rnd, made argsort u /\ p_itermax (u_solver u) = 1%nat /\ (forall n, 0 <= fst (rnd n) < 1 /\ 0 <= snd (rnd n) < 1) /\
  forall init fuel, fst (equilibrate argsort rnd init fuel u) = Raise OutOfFuel.
Proof.
  intros argsort SA. destruct (box_made argsort SA (mkWorld [] []) 0 ahead 1 1 held_box) as (u & E & _); try lra.
  destruct (constructor_ok _ _ _ _ _ _ _ _ E) as (S & K & M & G & _ & ER & EG & EL & ES & EM). pose proof (sound_wired _ _ S) as W. destruct S as (A & _).
  set (u1 := with_mass (0 * 1000) (0 * 1000 * u_gravity u) u).
  assert (P1 : perform argsort (CMass 0) u = (Ok tt, u1)) by (cbn [perform]; rewrite (box_mass _ _ 0 M), ER, (proj2 (Rltb_false _ _)) by lra; reflexivity).
  assert (A1 : apart u1) by exact A.
  destruct (perform argsort (CForce (V3 2 1 0) (V3 0 0 (-8)) false) u1) as [r u2] eqn:P2. assert (R2 : r = Ok tt) by (apply (f_equal fst) in P2; symmetry; exact P2). subst r.
  destruct (new_force_ok _ _ _ u1 u2 A1 P2) as (A2 & L2 & G2 & E2 & _).
  set (u3 := with_solver single u2). assert (S2 : u_solver u2 = default_solver) by (rewrite E2; exact ES).
  assert (P3 : perform argsort (CMaxIterations 1) u2 = (Ok tt, u3)) by (cbn [perform]; unfold set_max_iterations, set_solver; cbn [Z.ltb Z.compare]; unfold modify; rewrite S2; reflexivity).
  assert (H3 : held u3).
  { constructor; auto.
    - destruct W as [W1 _]. split; cbn; rewrite E2; cbn; auto.
    - cbn. rewrite E2. exact M.
    - change (gravity_center u2 = ahead). rewrite G2. exact G.
    - change (loads u2 = [hold]). rewrite L2. change (loads u1) with (loads u). rewrite EL. reflexivity.
    - cbn. rewrite E2. exact ER.
    - cbn. rewrite E2. exact EG.
    - cbn. rewrite E2. cbn. ring.
    - cbn. rewrite E2. cbn. ring. }
  exists u3, (fun _ => (0, 0)). split; [|split; [reflexivity|split; [intros; cbn; lra|]]].
  - exists (mkWorld [] []), (afloat 0), ahead, None, 1, 1, u. split; auto. refine (history_call argsort _ _ _ _ (history_call argsort _ _ _ _ (history_call argsort _ _ _ _ (history_none argsort u) P1) P2) P3).
  - assert (X : forall fuel v, held v -> fst (search argsort (fun _ => (0, 0)) fuel 0 0 false 0 0 0 v) = Raise OutOfFuel).
    { intros [|fuel] v H; [reflexivity|]. rewrite search_S. unfold limit_met. rewrite (he_solver _ H). cbn [p_itermax p_max_restart single Nat.sub Nat.mul Nat.add Nat.eqb orb Nat.ltb Nat.leb].
      destruct (held_restart argsort 1 v SA H) as (v1 & H1 & R1). unfold seq_ at 1. rewrite R1. destruct (held_pass argsort (fun _ => (0, 0)) fuel 0 1 v1 SA H1) as (v2 & H2 & R2). rewrite R2. apply held_search; auto. }
    assert (Y : forall fuel v, held v -> fst (seq_ (search argsort (fun _ => (0, 0)) fuel 0 0 false 0 0 0) (fun code => seq_ (modify recenter) (fun _ => return_ code)) v) = Raise OutOfFuel).
    { intros fuel v H. specialize (X fuel v H). unfold seq_ at 1. destruct (search argsort _ fuel 0 0 false 0 0 0 v) as [[c|e] v']; cbn [fst] in *; congruence. }
    intros init fuel. unfold equilibrate. destruct init.
    + destruct (held_placed argsort u3 SA H3) as (z & u4 & H4 & E4). unfold seq_ at 1. unfold seq_ at 1. rewrite E4. apply (Y fuel u4 H4).
    + apply (Y fuel u3 H3).
Qed.

(** ** C113: after the search *)
(** The vertical force is kept; the moments are those about the center of gravity. *)
Theorem C113_balance : forall argsort rnd init fuel u code u', made argsort u -> (2 <= p_itermax (u_solver u))%nat -> equilibrate argsort rnd init fuel u = (Ok code, u') ->
  exists v, verdict code v /\ (let g := gravity_center v in let r := unbalance v in residual u' = V3 (vx r) (vy r - vy g * vx r) (vz r + vx g * vx r)) /\
    (vx (gravity_center v) = 0 -> vy (gravity_center v) = 0 -> verdict code u') /\
    d_flotation (u_data u') = d_flotation (u_data v) /\ u_clipper u' = u_clipper v.
Proof.
  intros argsort rnd init fuel u code u' M I H. pose proof (made_sound _ _ M) as S. pose proof (sound_wired _ _ S) as W. destruct S as (A & _ & _ & (Z & _)).
  destruct (equilibrate_ok argsort rnd init fuel u code u' A W (Rlt_le _ _ Z) I H) as (v & (q & t & RQ & CA) & ((UP & _) & VE) & ->). exists v.
  destruct (recenter_carriage v (ca_apart _ _ _ _ CA)) as (CR & G & D & K & B). split; auto. split; [rewrite residual_eq; exact B|].
  destruct (ca_body _ _ _ _ CR) as [_ (S1 & S2 & S3) (S4 & S5) S6]. split; [|split; [rewrite D; reflexivity|auto]].
  intros X Y. rewrite X, Y in B. replace (let r := unbalance v in V3 (vx r) (vy r - 0 * vx r) (vz r + 0 * vx r)) with (unbalance v) in B by (apply vec_eq; cbn; ring).
  unfold verdict, in_balance, stable in *. rewrite B, S5, S6, D. exact VE.
Qed.
(** A box whose center of gravity is not above the origin: the search says that it is in a stable equilibrium, but to set the
    height of the center of gravity to the value it has moves the buoyancy center and undoes the equilibrium. *)
Theorem C113_stale_refuted : forall argsort rnd, sorting argsort -> exists u u' u'', made argsort u /\ equilibrate argsort rnd true 1 u = (Ok 1%nat, u') /\ is_at_equilibrium u' = true /\
  set_zg argsort (zg u') u' = (Ok tt, u'') /\ d_buoyancy (u_data u'') <> d_buoyancy (u_data u') /\ is_at_equilibrium u'' = false.
Proof.
  intros argsort rnd SA. destruct (box_made argsort SA (mkWorld [] []) 0 (V3 2 1 0) 1 1 held_box) as (u & E & D); try lra.
  destruct (constructor_ok _ _ _ _ _ _ _ _ E) as (S & K & M & G & _ & ER & EG & EL & ES & EM). pose proof (sound_wired _ _ S) as W. pose proof S as (A & _ & FC & (Z & N)). exists u.
  destruct (made_mass _ _ _ _ _ _ _ E) as (MA & _). rewrite (bx_volume _ _ _ _ D), ER in MA. assert (MA8 : u_mass u = 8) by (rewrite MA; ring).
  set (u0 := with_mass 8 8 u). assert (W0 : wired u0) by (destruct W as [W1 W2]; split; [exact W1|cbn; rewrite EG; ring]). assert (RG : u_rhog u = 1) by (destruct W as [W1 _]; rewrite W1, ER, EG; ring).
  assert (BAL : forall v z0 r0, carriage mid (V3 0 0 0) u0 v -> boxed 0 z0 r0 (u_data v) -> unbalance v = vzero /\ u_mg v = 8 /\ u_rhog v = 1 /\ u_rho v = 1 /\ u_gravity v = 1 /\ u_solver v = default_solver /\ loads v = [] /\ gravity_center v = V3 2 1 0).
  { intros v z0 r0 C B. destruct (still u0 v C) as (_ & E2 & E3). destruct (ca_body _ _ _ _ C) as [_ (S1 & S2 & S3) (S4 & S5) S6]. change (loads u0) with (loads u) in E3. change (gravity_center u0) with (gravity_center u) in E2.
    rewrite E2, G, E3, EL, S1, S2, S3, S5, S6. cbn [u0 with_mass u_rho u_gravity u_rhog u_mg u_solver]. rewrite RG, ER, EG, ES. split; [|repeat (split; auto)].
    unfold unbalance. rewrite E2, G, E3, EL, S3, S5, (bx_volume _ _ _ _ B), (bx_buoyancy _ _ _ _ B). cbn [u0 with_mass u_rhog u_mg]. rewrite RG. unfold total, vertical_load, moment. cbn [map fold_right l_point l_value]. apply vec_eq; vunfold; field. }
  destruct (box_step argsort SA 999 0 0 u0 0 A W0 M) as (u1 & C1 & K1 & D1 & E1); [rewrite Rplus_0_r; apply held_box|cbn; lra|cbn; lra|]. rewrite Rplus_0_r in D1.
  destruct (BAL u1 _ _ C1 D1) as (B1 & M1 & H1 & R1 & G1 & S1 & L1 & C1').
  assert (PL : set_displacement argsort (mass u) u = (Ok (0 + 0), u1)).
  { unfold set_displacement, seq_. rewrite (box_mass _ _ 0 M). unfold mass. rewrite MA8, ER, EG, (proj2 (Rltb_false _ _)) by lra. replace (8 / 1000 * 1000) with 8 by field. rewrite Rmult_1_r. fold u0.
    cbv beta iota. change (p_itermax (u_solver u0)) with (p_itermax (u_solver u)). rewrite ES. change (p_itermax default_solver) with 1000%nat. change 1000%nat with (Datatypes.S 999%nat). rewrite E1. rewrite residual_eq, B1, M1, S1. cbn [vx vzero].
    rewrite (proj2 (ratio_below_spec 0 8 _)); [reflexivity|]. rewrite Rabs_R0, Rabs_pos_eq by lra. cbn. lra. }
  assert (A1 : apart u1) by apply C1. assert (W1 : wired u1) by (eapply carriage_wired; eauto). destruct (still u0 u1 C1) as (MS & GS & _).
  destruct (box_still argsort SA u1 0 A1 W1) as (u2 & E2 & C2 & (K2 & F2) & D2 & k & CK); [rewrite MS; exact M|apply held_box|lra|lra|].
  assert (C02 : carriage mid (V3 0 0 0) u0 u2).
  { pose proof (carriage_trans _ _ _ _ _ _ _ C1 C2) as CT. rewrite mvec_id in CT. replace (mmul mid mid) with mid in CT by (apply mat_eq; vunfold; ring).
    replace (vadd (V3 0 0 0) (V3 0 0 0)) with (V3 0 0 0) in CT by (apply vec_eq; vunfold; ring). exact CT. }
  destruct (BAL u2 _ _ C02 D2) as (B2 & M2 & H2 & R2 & G2 & S2 & L2 & C2'). 
  assert (EQ : forall v, unbalance v = vzero -> u_mg v = 8 -> u_solver v = default_solver -> d_lwl (u_data v) = 4 -> d_breadth (u_data v) = 2 -> is_at_equilibrium v = true).
  { intros v X1 X2 X3 X4 X5. apply balance_test. unfold in_balance, within. rewrite X1, X2, X3, X4, X5. cbn [vx vy vz vzero p_reltol default_solver]. rewrite Rabs_R0, !Rabs_pos_eq by lra. lra. }
  assert (Q2 : is_at_equilibrium u2 = true) by (apply EQ; auto; apply D2).
  assert (ZG : zg u1 = 0) by (unfold zg; rewrite GS; change (gravity_center u0) with (gravity_center u); rewrite G; reflexivity).
  assert (T2 : isstable u2 = true) by (apply stable_test; unfold stable; rewrite (bx_roll _ _ _ _ D2), (bx_pitch _ _ _ _ D2), ZG; split; lra).
  assert (SE : search argsort rnd 1 0 0 false 0 0 0 u1 = (Ok 1%nat, u2)).
  { rewrite search_S. unfold limit_met. rewrite S1. replace (0 =? (0 + 1) * (p_itermax default_solver - 1))%nat with false by reflexivity. cbn [orb]. unfold seq_. rewrite E2. unfold after. rewrite Q2, T2. reflexivity. }
  set (u' := recenter u2). destruct (recenter_carriage u2 (ca_apart _ _ _ _ C02)) as (CR & GR & DR & KR & BR). fold u' in CR, GR, DR, KR, BR. rewrite C2' in *. rewrite B2 in BR. cbn [vx vy vz] in *.
  destruct (ca_body _ _ _ _ CR) as [_ (T1 & T3 & T4) (T5 & T6) T7].
  assert (EE : equilibrate argsort rnd true 1 u = (Ok 1%nat, u')).
  { unfold equilibrate. unfold seq_ at 1. unfold seq_ at 1. rewrite PL. cbv beta iota. unfold return_ at 1. unfold seq_ at 1. rewrite SE. reflexivity. }
  assert (K0 : clip_mesh argsort (afloat 0) = Ok k) by (destruct (still u1 u2 C2) as (X & _); rewrite <- (F2 k CK), X, MS; change (u_mesh u0) with (u_mesh u); rewrite M; reflexivity).
  destruct (box_data argsort 0 SA (proj1 held_box) (proj2 held_box) (V3 0 0 (zg u')) 1 1) as (k' & d & K' & P & V & _ & B & _ & _ & LW & BR' & _); try lra. rewrite K0 in K'. injection K' as <-.
  set (w' := write_cog (V3 (vx (gravity_center u')) (vy (gravity_center u')) (zg u')) u').
  assert (GW : gravity_center w' = V3 0 0 (zg u')).
  { assert (X : gravity_center w' = V3 (vx (gravity_center u')) (vy (gravity_center u')) (zg u')) by (apply array_store; apply (ca_apart _ _ _ _ CR)). rewrite X, GR. reflexivity. }
  assert (ZS : set_zg argsort (zg u') u' = (Ok tt, with_data d w')).
  { change (set_zg argsort (zg u') u') with (update_properties argsort w'). unfold update_properties, seq_, the_clipper. change (u_clipper w') with (u_clipper u'). rewrite KR, CK. 
    change (u_rho w') with (u_rho u'). change (u_rhog w') with (u_rhog u'). unfold zg at 1. rewrite GW, T1, T4, R2, H2. cbn [vz] in P |- *. rewrite Rmult_1_l in P. rewrite P. reflexivity. }
  exists u', (with_data d w'). split; [exists (mkWorld [] []), (afloat 0), (V3 2 1 0), None, 1, 1, u; split; auto; constructor|]. split; auto. split; [|split; [exact ZS|split]].
  - apply EQ; [rewrite BR; apply vec_eq; cbn; ring|congruence|congruence|rewrite DR; apply D2|rewrite DR; apply D2].
  - cbn [u_data with_data]. rewrite DR, B. cbn [d_buoyancy with_buoyancy]. rewrite (bx_buoyancy _ _ _ _ D2). intros X. apply (f_equal vx) in X. cbn in X. lra.
  - apply not_true_is_false. intros X. apply balance_test in X. destruct X as (_ & _ & (_ & X)). change (u_mg (with_data d w')) with (u_mg u') in X. change (u_solver (with_data d w')) with (u_solver u') in X.
    unfold unbalance in X. change (gravity_center (with_data d w')) with (gravity_center w') in X. rewrite GW in X. change (u_mg (with_data d w')) with (u_mg u') in X. change (u_rhog (with_data d w')) with (u_rhog u') in X. cbn [u_data with_data] in X.
    assert (LW' : loads (with_data d w') = []).
    { pose proof (mv_loads _ _ _ _ (ca_moved _ _ _ _ CR)) as Y. rewrite L2 in Y. unfold loads in *. change (u_forces (with_data d w')) with (u_forces u'). destruct (u_forces u'); [reflexivity|discriminate Y]. }
    rewrite LW', V, B, LW, T4, T6, T7, H2, M2, S2 in X. unfold total, vertical_load, moment in X. cbn [map fold_right l_point l_value p_reltol default_solver] in X. revert X. vunfold. intros X. rewrite Rabs_left, Rabs_pos_eq in X by lra. lra.
Qed.

(** ** C116: the parameters of the solver *)
Lemma solver_call : forall argsort c u, of_solver c -> allowed c -> perform argsort c u = (Ok tt, with_solver (asked c (u_solver u)) u).
Proof.
  intros argsort c u O A. assert (B : forall a b x, a < x < b -> between a b x = true) by (intros a b x [X Y]; unfold between; rewrite (proj2 (Rltb_true _ _) X), (proj2 (Rltb_true _ _) Y); auto).
  destruct c; try contradiction; cbn [perform]; cbn [allowed] in A; unfold asked; destruct (u_solver u) eqn:E;
    unfold set_reltol, set_theta_relax, set_z_relax, set_max_iterations, set_max_restart, set_allow_unstable, set_solver;
    try rewrite (B _ _ _ A); try rewrite (proj2 (Z.ltb_lt 0 n)) by lia; try rewrite (proj2 (Z.leb_le 0 n)) by lia; unfold modify; rewrite E; reflexivity.
Qed.
(** A value that is allowed is taken, and nothing else changes; another one is refused with AssertionError, and nothing changes. *)
Theorem C116_taken : forall argsort c u, of_solver c -> allowed c -> exists u', perform argsort c u = (Ok tt, u') /\ u_solver u' = asked c (u_solver u) /\
  u_world u' = u_world u /\ u_mesh u' = u_mesh u /\ u_init_mesh u' = u_init_mesh u /\ gravity_center u' = gravity_center u /\ loads u' = loads u /\ u_data u' = u_data u /\ mass u' = mass u /\
  u_rho u' = u_rho u /\ u_gravity u' = u_gravity u.
Proof. intros argsort c u O A. exists (with_solver (asked c (u_solver u)) u). rewrite solver_call; auto. repeat split; reflexivity. Qed.
Theorem C116_refused : forall argsort c u, of_solver c -> ~ allowed c -> perform argsort c u = (Raise AssertionError, u).
Proof.
  intros argsort c u O A. assert (B : forall a b x, ~ (a < x < b) -> between a b x = false) by (intros a b x N; destruct (between a b x) eqn:E; auto; apply between_lt in E; contradiction).
  destruct c; try contradiction; cbn [perform]; cbn [allowed] in A; unfold set_reltol, set_theta_relax, set_z_relax, set_max_iterations, set_max_restart, set_allow_unstable, set_solver;
    try rewrite (B _ _ _ A); try rewrite (proj2 (Z.ltb_ge 0 n)) by lia; try rewrite (proj2 (Z.leb_gt 0 n)) by lia; reflexivity || (exfalso; apply A; exact I).
Qed.
(** The other calls keep the parameters. *)
Theorem C116_kept : forall argsort c u u', made argsort u -> perform argsort c u = (Ok tt, u') -> u_solver u' = asked c (u_solver u) /\ allowed c.
Proof.
  intros argsort c u u' M H. assert (K : of_solver c \/ ~ of_solver c) by (destruct c; cbn; tauto). destruct K as [K|K].
  - assert (A : allowed c \/ ~ allowed c) by apply Classical_Prop.classic. destruct A as [A|A]; [|rewrite C116_refused in H by auto; discriminate].
    rewrite solver_call in H by auto. injection H as <-. split; auto.
  - assert (A : allowed c) by (destruct c; cbn in K |- *; tauto). split; auto. assert (E : asked c (u_solver u) = u_solver u) by (unfold asked; destruct (u_solver u); destruct c; cbn in K; tauto). rewrite E. clear E.
    pose proof (made_sound _ _ M) as S. pose proof (sound_wired _ _ S) as W. destruct S as (AP & _ & _ & (Z & N)).
    destruct c; cbn in K; try tauto; cbn [perform] in H.
    + unfold set_gravity in H. apply seq_inv in H. destruct H as (a & u1 & H1 & H2). injection H1 as <- <-. apply update_solver in H2. exact H2.
    + unfold set_rho_water in H. apply seq_inv in H. destruct H as (a & u1 & H1 & H2). injection H1 as <- <-. apply update_solver in H2. exact H2.
    + apply set_mass_inv in H. subst. reflexivity.
    + unfold set_gravity_center, alloc, set_gravity_array in H. apply seq_inv in H. destruct H as (a & u1 & H1 & H2). injection H1 as <- <-. apply update_solver in H2. exact H2.
    + unfold set_zg in H. apply seq_inv in H. destruct H as (a & u1 & H1 & H2). injection H1 as <- <-. apply update_solver in H2. exact H2.
    + apply seq_inv in H. destruct H as (z & u1 & H1 & H2). injection H2 as <-. destruct (set_displacement_ok argsort _ u z u1 AP W (Rlt_le _ _ Z) N H1) as (i & hs & _ & _ & _ & _ & CA & _). rewrite (sb_solver _ _ (ca_body _ _ _ _ CA)). reflexivity.
    + unfold reset in H. apply seq_inv in H. destruct H as (a & u1 & H1 & H2). injection H1 as <- <-. apply seq_inv in H2. destruct H2 as (b & u2 & H2 & H3). injection H2 as <- <-. apply seq_inv in H3. destruct H3 as (c & u3 & H3 & H4). apply update_solver in H3. injection H4 as <-. exact H3.
    + unfold add_new_force, alloc, new_force in H. injection H as <-. reflexivity.
Qed.
Theorem C116_ranges : forall argsort u, made argsort u -> in_range (u_solver u).
Proof.
  intros argsort u (w & m & cog & tons & rho & grav & u0 & H & HI). assert (M0 : made argsort u0) by (exists w, m, cog, tons, rho, grav, u0; split; auto; apply history_none).
  destruct (constructor_ok _ _ _ _ _ _ _ _ H) as (_ & _ & _ & _ & _ & _ & _ & _ & ES & _).
  assert (X : made argsort u /\ in_range (u_solver u)); [|apply X]. induction HI as [u|u u1 u2 c HI IH P].
  - split; auto. rewrite ES. constructor; cbn [default_solver p_reltol p_theta_relax p_z_relax p_itermax]; try lra. lia.
  - destruct (IH H M0 ES) as (M1 & [R1 R2 R3 R4]). split; [destruct M1 as (w1 & m1 & cog1 & tons1 & rho1 & grav1 & v & V1 & V2); exists w1, m1, cog1, tons1, rho1, grav1, v; split; auto; eapply history_call; eauto|].
    destruct (C116_kept _ _ _ _ M1 P) as (-> & A). unfold asked. set (p := u_solver u1) in *. clearbody p. destruct p as [r i n0 t z b0]. destruct c; cbn [allowed] in A; constructor; cbn [p_reltol p_theta_relax p_z_relax p_itermax] in *; auto. lia.
Qed.
Example C116_box : forall argsort, sorting argsort -> exists u u1 u2, hydrostatics argsort (mkWorld [] []) (afloat 0) (V3 2 1 0) None 1000 10 = Ok u /\
  perform argsort (CReltol (1 / 2)) u = (Ok tt, u1) /\ perform argsort (CMaxIterations 7) u1 = (Ok tt, u2) /\ u_solver u2 = mkSolver (1 / 2) 7 10 2 (1 / 10) false /\
  perform argsort (CThetaRelax 10) u2 = (Raise AssertionError, u2).
Proof.
  intros argsort SA. destruct (box_made argsort SA (mkWorld [] []) 0 (V3 2 1 0) 1000 10) as (u & E & D); try lra; [split; [lra|exists 0%Z; lra]|]. exists u.
  destruct (C116_taken argsort (CReltol (1 / 2)) u) as (u1 & P1 & S1 & _); [exact I|cbn; lra|]. destruct (C116_taken argsort (CMaxIterations 7) u1) as (u2 & P2 & S2 & _); [exact I|cbn; lia|].
  exists u1, u2. split; auto. split; auto. split; auto. split; [rewrite S2, S1; destruct (constructor_ok _ _ _ _ _ _ _ _ E) as (_ & _ & _ & _ & _ & _ & _ & _ & -> & _); reflexivity|].
  apply C116_refused; [exact I|]. cbn. lra.
Qed.

(** ** The inertia of the displaced water *)
(** The inertia is not about the buoyancy center, as the transport of line 697 has the wrong sign. *)
Theorem C110_inertia : forall argsort u, sorting argsort -> made argsort u -> floats_well (u_mesh u) ->
  let M := u_mesh u in let B := d_buoyancy (u_data u) in let w := d_mass (u_data u) in let rho := u_rho u in let d := u_data u in
  (forall i, is_immersed_integral (fun v => (vy v - vy B) * (vy v - vy B) + (vz v - vz B) * (vz v - vz B)) M i -> d_Ixx d = rho * i + 2 * w * (vy B * vy B + vz B * vz B)) /\
  (forall i, is_immersed_integral (fun v => (vx v - vx B) * (vx v - vx B) + (vz v - vz B) * (vz v - vz B)) M i -> d_Iyy d = rho * i + 2 * w * (vx B * vx B + vz B * vz B)) /\
  (forall i, is_immersed_integral (fun v => (vx v - vx B) * (vx v - vx B) + (vy v - vy B) * (vy v - vy B)) M i -> d_Izz d = rho * i + 2 * w * (vx B * vx B + vy B * vy B)) /\
  (forall i, is_immersed_integral (fun v => (vx v - vx B) * (vy v - vy B)) M i -> d_Ixy d = rho * i + 2 * w * (vx B * vy B)) /\
  (forall i, is_immersed_integral (fun v => (vx v - vx B) * (vz v - vz B)) M i -> d_Ixz d = rho * i + 2 * w * (vx B * vz B)) /\
  (forall i, is_immersed_integral (fun v => (vy v - vy B) * (vz v - vz B)) M i -> d_Iyz d = rho * i + 2 * w * (vy B * vz B)).
Proof.
  intros argsort u SA MD FW M B w rho d. destruct (made_sound _ _ MD) as (_ & ((h & AR & AG) & _) & _). pose proof (ag_buoyancy _ _ AG) as EB. pose proof (ag_mass _ _ AG) as EW. pose proof (ag_inertia _ _ AG) as TD.
  destruct (at_rest_water argsort _ _ B _ _ h AR) as (h' & AR' & B' & W' & d0 & D1 & D2 & T1 & T2). fold B d w in EB, EW, TD.
  assert (PM : placed_mesh mid 0 M = M) by (rewrite <- placed_mesh_eq; apply placed_mid). assert (PB : placed mid 0 B = B) by (apply vec_eq; unfold placed; vunfold; ring).
  unfold at_rest_in in AR'. assert (CG : h_cog h' = B). { destruct (hydro_inv _ _ _ _ _ _ _ _ _ _ _ AR') as (k & body & a1 & a2 & a3 & a4 & box & HR). apply (run_inputs _ _ _ _ _ _ _ _ _ _ _ _ _ _ _ _ _ _ HR). }
  assert (FW' : floats_well (placed_mesh mid 0 M)) by (rewrite PM; exact FW).
  destruct (T_hydro.C88_inertia argsort M B rho (u_gravity u) mid 0 false None false h' SA mid_rotation AR' FW') as (K1 & K2 & K3 & K4 & K5 & K6). fold M in K1, K2, K3, K4, K5, K6.
  rewrite PM, B', <- EB, PB, W', <- EW in K1, K2, K3, K4, K5, K6. fold rho in K1, K2, K3, K4, K5, K6.
  unfold transported in TD, T1, T2. fold B w in TD. rewrite D1, D2, <- EB, <- EW in T1, T2. rewrite CG in T2. destruct TD as (A1 & A2 & A3 & A4 & A5 & A6), T1 as (F1 & F2 & F3 & F4 & F5 & F6), T2 as (G1 & G2 & G3 & G4 & G5 & G6).
  change (d_buoyancy d) with B in *. change (d_mass d) with w in *. clearbody B w d rho.
  split; [intros i X; specialize (K1 i X); lra|]. split; [intros i X; specialize (K2 i X); lra|]. split; [intros i X; specialize (K3 i X); lra|].
  split; [intros i X; specialize (K4 i X); lra|]. split; [intros i X; specialize (K5 i X); lra|]. intros i X; specialize (K6 i X); lra.
Qed.
Theorem C110_inertia_refuted : forall argsort, sorting argsort -> exists u i, made argsort u /\ floats_well (u_mesh u) /\ let B := d_buoyancy (u_data u) in
  is_immersed_integral (fun v => (vy v - vy B) * (vy v - vy B) + (vz v - vz B) * (vz v - vz B)) (u_mesh u) i /\ u_rho u = 1 /\ d_Ixx (u_data u) = i + 20.
Proof.
  intros argsort SA. destruct (box_made argsort SA (mkWorld [] []) 0 (V3 2 1 0) 1 1) as (u & E & D); try lra; [split; [lra|exists 0%Z; lra]|].
  destruct (constructor_ok _ _ _ _ _ _ _ _ E) as (_ & _ & M & _ & _ & ER & _ & _ & _). destruct D.
  assert (FW : floats_well (u_mesh u)). { rewrite M. assert (Z : -2 + 1 / 500 < 0 < 1 - 1 / 500) by lra. pose proof (box_floats 0 Z) as F. rewrite <- placed_mesh_eq, placed_mid in F. exact F. }
  set (B := d_buoyancy (u_data u)). destruct (T_hydro.moment_exists vy vy (vy B) (vy B) (u_mesh u)) as (i & I); [unfold coordinate; tauto..|]. destruct (T_hydro.moment_exists vz vz (vz B) (vz B) (u_mesh u)) as (j & J); [unfold coordinate; tauto..|].
  assert (IJ : is_immersed_integral (fun v => (vy v - vy B) * (vy v - vy B) + (vz v - vz B) * (vz v - vz B)) (u_mesh u) (i + j)).
  { eapply P_cones.cones_ext; [| |exact (P_cones.cones_linear _ _ 1 _ _ _ I J)]; [intros; cbv beta; ring|ring]. }
  assert (MD : made argsort u) by (exists (mkWorld [] []), (afloat 0), (V3 2 1 0), None, 1, 1, u; split; auto; apply history_none).
  exists u, (i + j). split; auto. split; auto. split; auto. split; auto. destruct (C110_inertia argsort u SA MD FW) as (K & _). fold B in K. rewrite (K _ IJ), ER. unfold B. rewrite bx_buoyancy. cbn [vx vy vz].
  rewrite bx_mass. field.
Qed.

(** ** The weight and the buoyancy as forces *)
Theorem C108_own_forces : forall argsort u, made argsort u ->
  residual u = vadd (total (loads u)) (vadd (vertical_load (mkLoad (d_buoyancy (u_data u)) (buoyancy_value u) false))
    (vertical_load (mkLoad (array (u_world u) (f_point (get_gravity_force u))) (f_value (get_gravity_force u)) (f_relative (get_gravity_force u))))).
Proof.
  intros argsort u M. pose proof (sound_wired _ _ (made_sound _ _ M)) as (W1 & W2). rewrite residual_eq. unfold unbalance, buoyancy_value, get_gravity_force. cbn [f_point f_value f_relative]. rewrite W1, W2. reflexivity.
Qed.
Print Assumptions C108_motion.
Print Assumptions C108_shared_refuted.
Print Assumptions C109_given_refuted.
Print Assumptions C110_accepted.
Print Assumptions C111_displacement.
Print Assumptions C112_result.
Print Assumptions C112_ends.
Print Assumptions C112_single_refuted.
Print Assumptions C113_stale_refuted.
Print Assumptions C114_center_refuted.
Print Assumptions C115_data_follow.
Print Assumptions C116_taken. Print Assumptions C116_refused. Print Assumptions C116_kept. Print Assumptions C116_ranges.
Print Assumptions C110_inertia. Print Assumptions C110_inertia_refuted. Print Assumptions C108_own_forces.
