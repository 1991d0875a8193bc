(** Proofs about heal_normals: the healed mesh. *)
From Coq Require Import Reals List Arith Bool Lia Lra Permutation ZArith.
From Verif Require Import M_base P_base M_plane M_merge P_merge M_mesh S_mesh P_mesh M_connectivity S_connectivity P_connectivity P_heal
  M_geometry S_geometry P_geometry P_volume P_quantities.
Import ListNotations.
Open Scope nat_scope.

(** ** Reversals keep adjacency *)
Lemma reversed_face : forall s fs fs' k f, reversed_by s fs fs' -> nth_error fs k = Some f -> nth_error fs' k = Some (flip_if (s k) f).
Proof. intros s fs fs' k f [_ H] E. apply H in E. exact E. Qed.
Lemma reversed_inv : forall s fs fs' k g, reversed_by s fs fs' -> nth_error fs' k = Some g ->
  exists f, nth_error fs k = Some f /\ g = flip_if (s k) f.
Proof.
  intros s fs fs' k g R E. pose proof (nth_error_bound _ _ _ _ E) as L. rewrite (proj1 R) in L.
  destruct (nth_error_lt _ fs k L) as [f Ef]. exists f. split; auto. rewrite (reversed_face _ _ _ _ _ R Ef) in E. congruence.
Qed.
Lemma reversed_sym : forall s fs fs', reversed_by s fs fs' -> reversed_by s fs' fs.
Proof.
  intros s fs fs' R. split; [symmetry; apply R|]. intros k g E. destruct (reversed_inv _ _ _ _ _ R E) as (f & Ef & ->).
  rewrite Ef. destruct (s k); cbn [flip_if]; [rewrite flip_flip|]; auto.
Qed.
Lemma reversed_linked : forall s fs fs' u v, reversed_by s fs fs' -> linked fs u v -> linked fs' u v.
Proof.
  intros s fs fs' u v R (f & I & H). apply In_nth_error in I. destruct I as [k E]. exists (flip_if (s k) f).
  split; [eapply nth_error_In, reversed_face; eauto|]. apply flip_if_edge. auto.
Qed.
Lemma reversed_face_at : forall s fs fs' k v, reversed_by s fs fs' -> face_at fs k v -> face_at fs' k v.
Proof.
  intros s fs fs' k v R (f & E & U). exists (flip_if (s k) f). split; [eapply reversed_face; eauto|]. apply flip_if_uses. auto.
Qed.
Lemma reversed_holds : forall s fs fs' u v k, reversed_by s fs fs' -> (holds_both fs u v k <-> holds_both fs' u v k).
Proof.
  intros s fs fs' u v k R. pose proof (reversed_sym _ _ _ R) as R'. unfold holds_both.
  split; intros [A B]; split; eapply reversed_face_at; eauto.
Qed.
Lemma reversed_adjacent : forall s fs fs' i j, reversed_by s fs fs' -> (adjacent fs i j <-> adjacent fs' i j).
Proof.
  assert (H : forall s fs fs' i j, reversed_by s fs fs' -> adjacent fs i j -> adjacent fs' i j).
  { intros s fs fs' i j R (N & u & v & L & H). split; auto. exists u, v. split; [eapply reversed_linked; eauto|].
    intros k. rewrite <- (reversed_holds _ _ _ _ _ _ R). auto. }
  intros s fs fs' i j R. split; eapply H; eauto. apply reversed_sym. eauto.
Qed.
Lemma reversed_share : forall s fs fs', reversed_by s fs fs' -> share_edges fs -> share_edges fs'.
Proof.
  intros s fs fs' R H i j f' g' A Ef Eg. destruct (reversed_inv _ _ _ _ _ R Ef) as (f & E1 & ->).
  destruct (reversed_inv _ _ _ _ _ R Eg) as (g & E2 & ->). apply neighbours_flip. eapply H; eauto. eapply reversed_adjacent; eauto.
Qed.
Lemma reversed_forall : forall (P : face -> Prop) s fs fs', (forall f, P f -> P (flip_face f)) -> reversed_by s fs fs' -> Forall P fs -> Forall P fs'.
Proof.
  intros P s fs fs' Hf R F. rewrite Forall_forall in *. intros g I. apply In_nth_error in I. destruct I as [k E].
  destruct (reversed_inv _ _ _ _ _ R E) as (f & Ef & ->). apply nth_error_In in Ef. destruct (s k); cbn [flip_if]; auto.
Qed.
Lemma reversed_border : forall s fs fs' u v, reversed_by s fs fs' -> border fs u v -> border fs' u v \/ border fs' v u.
Proof.
  intros s fs fs' u v R (k & f & E & C & U). pose proof (reversed_face _ _ _ _ _ R E) as E'.
  destruct (s k) eqn:S; [right|left]; exists k; eexists; (split; [exact E'|]); cbn [flip_if]; rewrite ?flip_cycle;
  (split; [auto|]); intros k' [A B]; apply U; apply (reversed_holds s fs fs'); auto; split; auto.
Qed.
Lemma reversed_no_border : forall s fs fs', reversed_by s fs fs' -> (forall u v, ~ border fs u v) -> forall u v, ~ border fs' u v.
Proof.
  intros s fs fs' R N u v B. apply (reversed_border _ _ _ _ _ (reversed_sym _ _ _ R)) in B. destruct B; eapply N; eauto.
Qed.
Lemma reversed_crowded : forall s fs fs', reversed_by s fs fs' -> crowded fs' -> crowded fs.
Proof.
  intros s fs fs' R (u & v & a & b & c & L & A & B & C & D). exists u, v, a, b, c.
  split; [eapply reversed_linked; eauto; apply reversed_sym; eauto|]. rewrite !(reversed_holds _ _ _ _ _ _ R). auto.
Qed.
Lemma reversed_trans : forall s t fs fs' fs'', reversed_by s fs fs' -> reversed_by t fs' fs'' ->
  reversed_by (fun k => xorb (t k) (s k)) fs fs''.
Proof.
  intros s t fs fs' fs'' R T. split; [rewrite (proj1 T); apply R|]. intros k f E.
  rewrite (reversed_face _ _ _ _ _ T (reversed_face _ _ _ _ _ R E)), flip_if_if. reflexivity.
Qed.

Lemma orientable_parity : forall fs, orientable fs -> exists t, forall i j f g, adjacent fs i j ->
  nth_error fs i = Some f -> nth_error fs j = Some g -> consistent (flip_if (t i) f) (flip_if (t j) g).
Proof.
  intros fs (t & fs' & R & O). exists t. intros i j f g A Ef Eg. apply (O i j); try (eapply reversed_face; eauto).
  eapply reversed_adjacent; eauto. apply reversed_sym; eauto.
Qed.

(** ** The flood orients the faces *)
Lemma types_ok : forall fs i f, nth_error fs i = Some f ->
  nth_error (set_all (repeat 4 (length fs)) (triangles_ids fs) 3) i = Some (ncorners f).
Proof.
  intros fs i f E. pose proof (nth_error_bound _ _ _ _ E) as L. unfold ncorners. destruct (is_triangle f) eqn:T.
  - apply set_all_same; [|rewrite repeat_length; auto]. apply in_where. exists f. auto.
  - rewrite set_all_other.
    + apply nth_error_repeat. auto.
    + intros I. apply in_where in I. destruct I as (f' & E' & T'). congruence.
Qed.
Lemma where_bound : forall A (p : A -> bool) l, forallb (fun i => i <? length l) (where_ p l) = true.
Proof.
  intros A p l. apply forallb_forall. intros i I. apply in_where in I. destruct I as (a & E & _).
  apply Nat.ltb_lt. eapply nth_error_bound; eauto.
Qed.
Lemma flood_faces_ok : forall order nv fs c be, iteration order -> Forall (valid_face nv) fs -> Forall simple_face fs ->
  connectivity_spec nv fs c be -> share_edges fs -> orientable fs -> fs <> [] ->
  exists s st, flood_faces order (triangles_ids fs) (c_ff c) fs = Ok st /\ reversed_by s fs (fl_faces st) /\ oriented (fl_faces st).
Proof.
  intros order nv fs c be O V S CS SH OR NE. destruct (orientable_parity fs OR) as [t Ht].
  assert (L : 0 < length fs) by (destruct fs; [congruence|simpl; lia]).
  destruct (flood_start order O fs S (c_ff c)) with (t := t) (types := set_all (repeat 4 (length fs)) (triangles_ids fs) 3) as (s & st & E & R & P); auto.
  - intros i j Li. apply (cs_ff _ _ _ _ CS). auto.
  - apply (cs_ff_length _ _ _ _ CS).
  - intros i f Ei. apply types_ok. auto.
  - exists s, st. split; [|split; auto].
    + unfold flood_faces. unfold triangles_ids at 1. rewrite where_bound. apply Nat.ltb_lt in L. rewrite L. exact E.
    + intros i j f' g' A Ef Eg. apply (reversed_adjacent _ _ _ _ _ R) in A.
      destruct (reversed_inv _ _ _ _ _ R Ef) as (f & E1 & ->). destruct (reversed_inv _ _ _ _ _ R Eg) as (g & E2 & ->).
      pose proof (Ht _ _ _ _ A E1 E2) as C. pose proof (SH _ _ _ _ A E1 E2) as N. specialize (P i j A).
      rewrite Forall_forall in S. apply nth_error_In in E1, E2.
      rewrite (consistent_parity f g) in C by auto. rewrite (consistent_parity f g) by auto.
      destruct (s i), (s j), (t i), (t j); cbn in *; auto; discriminate.
Qed.

Lemma where_map_same : forall A (p : A -> bool) l m, length l = length m ->
  (forall k a b, nth_error l k = Some a -> nth_error m k = Some b -> p a = p b) -> where_ p l = where_ p m.
Proof.
  intros A p l m L H. unfold where_. rewrite <- L. apply filter_ext_in. intros k I. apply in_seq in I.
  destruct (nth_error_lt _ l k) as [a Ea]; [lia|]. destruct (nth_error_lt _ m k) as [b Eb]; [lia|]. rewrite Ea, Eb. eauto.
Qed.
Lemma reversed_ids : forall s fs fs', reversed_by s fs fs' ->
  triangles_ids fs' = triangles_ids fs /\ quadrangles_ids fs' = quadrangles_ids fs.
Proof.
  intros s fs fs' R. split; apply where_map_same; try apply R; intros k a b Ea Eb;
  rewrite (reversed_face _ _ _ _ _ R Eb) in Ea; injection Ea as <-; rewrite flip_if_triangle; auto.
Qed.
Lemma reversed_valid : forall s nv fs fs', reversed_by s fs fs' -> Forall (valid_face nv) fs -> Forall (valid_face nv) fs'.
Proof. intros s nv fs fs' R. apply (reversed_forall _ s); auto. apply P_mesh.valid_flip. Qed.

(** What heal_normals returns, on meshes where it makes sense. *)
Definition heave_of (m : mesh) (zmax : R) : R := heave zmax (map (props_of (verts m)) (faces m)).
Lemma heal_normals_ok : forall order m c, iteration order -> valid m -> simple m -> share_edges (faces m) ->
  orientable (faces m) -> faces m <> [] -> mesh_connectivity order m = Ok c ->
  exists s fs zmax, reversed_by s (faces m) fs /\ oriented fs /\
    heal_normals order m = Ok (mkMesh (verts m)
      (match c_bounds c with [] => if Rltb (heave_of (mkMesh (verts m) fs) zmax) 0 then map flip_face fs else fs | _ => fs end)).
Proof.
  intros order m c O V S SH OR NE E. unfold heal_normals. rewrite E. cbn [bind].
  destruct (connectivity_inv order O _ _ V S c E) as (NC & be & CS).
  destruct (flood_faces_ok order _ (faces m) c be O V S CS SH OR NE) as (s & st & EF & R & OF).
  unfold heal_normals_with. rewrite EF. cbn [bind]. exists s, (fl_faces st).
  assert (NV : map vz (verts m) <> []).
  { clear - V NE. unfold valid in V. destruct (faces m) as [|f l]; [congruence|]. apply Forall_inv in V. destruct V as [L _].
    destruct (verts m); [simpl in L; lia|discriminate]. }
  destruct (arr_max_spec _ NV) as (zmax & EM & _). exists zmax. split; auto. split; auto.
  destruct (c_bounds c).
  - rewrite EM. cbn [bind]. destruct (reversed_ids _ _ _ R) as [T Q]. rewrite <- T, <- Q.
    change (faces_properties_with (triangles_ids (fl_faces st)) (quadrangles_ids (fl_faces st)) (verts m) (fl_faces st))
      with (faces_properties (mkMesh (verts m) (fl_faces st))).
    rewrite faces_properties_ok by (eapply reversed_valid; eauto). reflexivity.
  - reflexivity.
Qed.
Lemma oriented_flip : forall fs, Forall simple_face fs -> share_edges fs -> oriented fs -> oriented (map flip_face fs).
Proof.
  intros fs S SH O. assert (R : reversed_by (fun _ => true) fs (map flip_face fs)) by apply (reversed_all _ _ _ (reversed_refl fs)).
  intros i j f' g' A Ef Eg. apply (reversed_adjacent _ _ _ _ _ R) in A.
  destruct (reversed_inv _ _ _ _ _ R Ef) as (f & E1 & ->). destruct (reversed_inv _ _ _ _ _ R Eg) as (g & E2 & ->).
  rewrite Forall_forall in S. apply (consistent_parity f g true true); [apply S; eapply nth_error_In; eauto..|eauto|]. exact (O _ _ _ _ A E1 E2).
Qed.
Lemma heal_orients : forall order m, iteration order -> valid m -> simple m -> ~ crowded (faces m) -> share_edges (faces m) ->
  orientable (faces m) -> faces m <> [] ->
  exists m' s, heal_normals order m = Ok m' /\ verts m' = verts m /\ reversed_by s (faces m) (faces m') /\ oriented (faces m').
Proof.
  intros order m O V S NC SH OR NE. destruct (connectivity_sound order O _ _ V S NC) as (c & be & E & CS).
  destruct (heal_normals_ok order m c O V S SH OR NE E) as (s & fs & zmax & R & OF & H).
  pose proof (oriented_flip fs (reversed_forall _ _ _ _ flip_simple R S) (reversed_share _ _ _ R SH) OF) as OF'.
  rewrite H. destruct (c_bounds c); [destruct (Rltb _ _)|];
  [exists (mkMesh (verts m) (map flip_face fs)), (fun k => negb (s k))|exists (mkMesh (verts m) fs), s|exists (mkMesh (verts m) fs), s];
  cbn [verts faces]; auto using reversed_all.
Qed.

(** ** An oriented surface without border is closed *)
Lemma where_filter_length : forall A (p : A -> bool) l, length (where_ p l) = length (filter p l).
Proof.
  induction l as [|a l IH]; [reflexivity|]. rewrite where_cons. rewrite app_length, map_length, IH. simpl. destruct (p a); reflexivity.
Qed.
Definition has_edge (e : nat * nat) (f : face) : bool := if in_dec edge_eq_dec e (cycle_edges f) then true else false.
Lemma has_edge_true : forall e f, has_edge e f = true <-> In e (cycle_edges f).
Proof. intros e f. unfold has_edge. destruct (in_dec edge_eq_dec e (cycle_edges f)); split; auto; discriminate. Qed.
Lemma count_one : forall f u v, simple_face f -> u <> v -> count_occ edge_eq_dec (face_edges f) (u, v) = if has_edge (u, v) f then 1 else 0.
Proof.
  intros f u v S N.
  assert (E : count_occ edge_eq_dec (face_edges f) (u, v) = count_occ edge_eq_dec (cycle_edges f) (u, v)).
  { unfold face_edges, cycle_edges. destruct (Nat.eq_dec (f0 f) (f3 f)) as [E|E]; auto. rewrite <- E.
    change [(f0 f, f1 f); (f1 f, f2 f); (f2 f, f0 f); (f0 f, f0 f)] with ([(f0 f, f1 f); (f1 f, f2 f); (f2 f, f0 f)] ++ [(f0 f, f0 f)]).
    rewrite count_occ_app. rewrite (proj1 (count_occ_not_In edge_eq_dec [(f0 f, f0 f)] (u, v))); [apply Nat.add_0_r|].
    intros [X|[]]. apply N. congruence. }
  rewrite E. unfold has_edge. destruct (in_dec edge_eq_dec (u, v) (cycle_edges f)) as [I|I].
  - apply NoDup_count_occ'; auto. clear - S. unfold simple_face, cycle_edges in *.
    destruct (Nat.eq_dec (f0 f) (f3 f)); apply (NoDup_map_inv fst); exact S.
  - apply count_occ_not_In. auto.
Qed.
Lemma count_faces : forall fs u v, Forall simple_face fs -> u <> v ->
  count_occ edge_eq_dec (mesh_edges fs) (u, v) = length (where_ (has_edge (u, v)) fs).
Proof.
  intros fs u v S N. rewrite where_filter_length. induction S as [|f fs Sf S IH]; auto.
  unfold mesh_edges in *. cbn [flat_map filter]. rewrite count_occ_app, IH, count_one by auto.
  destruct (has_edge (u, v) f); reflexivity.
Qed.
Lemma where_single : forall A (p : A -> bool) l a, (forall k, In k (where_ p l) <-> k = a) -> length (where_ p l) = 1.
Proof.
  intros A p l a H. pose proof (sorted_NoDup _ (where_sorted _ p l)) as N.
  assert (P : Permutation (where_ p l) [a]).
  { apply NoDup_Permutation; auto; [constructor; auto; constructor|]. intros k. rewrite H. simpl. intuition. }
  apply Permutation_length in P. auto.
Qed.
Lemma where_none : forall A (p : A -> bool) l, (forall k, ~ In k (where_ p l)) -> length (where_ p l) = 0.
Proof. intros A p l H. destruct (where_ p l) as [|k t]; auto. exfalso. apply (H k). left; auto. Qed.

Lemma holds_dec_two : forall nv fs u v, Forall (valid_face nv) fs -> linked fs u v -> ~ crowded fs -> (forall a b, ~ border fs a b) ->
  Forall simple_face fs -> exists a b, adjacent fs a b /\ forall k, holds_both fs u v k <-> k = a \/ k = b.
Proof.
  intros nv fs u v V L NC NB S. destruct (vertex_tables_sound nv fs V) as (vv & vf & E & T).
  pose proof (proj1 (crowded_manifold nv fs vv vf V T) NC u v L) as M.
  pose proof (both_spec nv fs V vv vf T u v) as BS. pose proof (both_nodup nv fs vv vf T (u, v)) as ND.
  pose proof (both_nonempty nv fs V vv vf T u v L) as NE. pose proof (single_border nv fs V S vv vf T u v) as SB.
  destruct (both vf (u, v)) as [|a [|b [|c l]]]; [congruence| | |simpl in M; lia].
  - exfalso. destruct (SB a L eq_refl) as (f & o & t & N & _ & C & W). apply (NB t o). exists a, f. split; auto. split; auto.
    intros k H. assert (H' : holds_both fs u v k) by (destruct H; destruct W as [[-> ->]|[-> ->]]; split; auto).
    apply BS in H'; auto. destruct H' as [|[]]; auto.
  - exists a, b. inversion ND as [|? ? Na _]; subst. simpl in Na.
    assert (HH : forall k, holds_both fs u v k <-> k = a \/ k = b) by (intros k; rewrite <- BS by auto; simpl; intuition).
    split; auto. split; [intros ->; tauto|]. exists u, v. auto.
Qed.
Lemma uses_face_at : forall fs k f v, nth_error fs k = Some f -> (face_at fs k v <-> uses [f] v).
Proof. intros fs k f v E. split; [intros (g & E' & U); congruence|]. intros U. exists f. auto. Qed.

Lemma oriented_closed : forall nv fs, Forall (valid_face nv) fs -> Forall simple_face fs -> ~ crowded fs -> (forall u v, ~ border fs u v) ->
  share_edges fs -> oriented fs -> closed_surface fs.
Proof.
  intros nv fs V S NC NB SH O i j. unfold net_edge. destruct (Nat.eq_dec i j) as [->|N]; [lia|].
  rewrite !count_faces by auto. 
  assert (H : forall a b, a <> b -> linked fs a b -> length (where_ (has_edge (a, b)) fs) = 1).
  { clear i j N. intros u v N L. destruct (holds_dec_two nv fs u v V L NC NB S) as (a & b & A & H).
    destruct (adjacent_lt fs a b A) as [La Lb].
    destruct (nth_error_lt _ fs a La) as [f Ef]. destruct (nth_error_lt _ fs b Lb) as [g Eg].
    pose proof (SH _ _ _ _ A Ef Eg) as (p & q & Npq & C & Pf & Pg). pose proof (O _ _ _ _ A Ef Eg) as K.
    assert (Ha : holds_both fs u v a) by (apply H; auto). assert (Hb : holds_both fs u v b) by (apply H; auto).
    destruct Ha as [Hau Hav], Hb as [Hbu Hbv].
    apply (uses_face_at _ _ _ _ Ef) in Hau. apply (uses_face_at _ _ _ _ Ef) in Hav.
    apply (uses_face_at _ _ _ _ Eg) in Hbu. apply (uses_face_at _ _ _ _ Eg) in Hbv.
    assert (W : u = p /\ v = q \/ u = q /\ v = p).
    { assert (Hu : u = p \/ u = q) by (apply C; auto). assert (Hv : v = p \/ v = q) by (apply C; auto). destruct Hu, Hv; subst; tauto. }
    assert (Sf : simple_face f) by (rewrite Forall_forall in S; apply S; eapply nth_error_In; eauto).
    assert (Sg : simple_face g) by (rewrite Forall_forall in S; apply S; eapply nth_error_In; eauto).
    assert (Pf' : In (u, v) (cycle_edges f) \/ In (v, u) (cycle_edges f)) by (destruct W as [[-> ->]|[-> ->]]; tauto).
    assert (Pg' : In (u, v) (cycle_edges g) \/ In (v, u) (cycle_edges g)) by (destruct W as [[-> ->]|[-> ->]]; tauto).
    assert (Only : forall k, In k (where_ (has_edge (u, v)) fs) -> k = a \/ k = b).
    { intros k I. apply in_where in I. destruct I as (h & Eh & Hh). apply has_edge_true in Hh. apply H.
      apply cycle_uses in Hh. destruct Hh. split; exists h; auto. }
    pose proof (proj1 A) as Nab.
    destruct Pf' as [X|X].
    - apply (where_single _ _ _ a). intros k. split.
      + intros I. destruct (Only k I) as [->| ->]; auto. exfalso. apply in_where in I. destruct I as (h & Eh & Hh).
        rewrite Eg in Eh. injection Eh as <-. apply has_edge_true in Hh. eapply K; eauto.
      + intros ->. apply in_where. exists f. split; auto. apply has_edge_true. auto.
    - destruct Pg' as [Y|Y]; [|exfalso; eapply K; eauto].
      apply (where_single _ _ _ b). intros k. split.
      + intros I. destruct (Only k I) as [->| ->]; auto. exfalso. apply in_where in I. destruct I as (h & Eh & Hh).
        rewrite Ef in Eh. injection Eh as <-. apply has_edge_true in Hh. eapply K; eauto.
      + intros ->. apply in_where. exists g. split; auto. apply has_edge_true. auto. }
  assert (Z : forall a b, ~ linked fs a b -> length (where_ (has_edge (a, b)) fs) = 0).
  { intros a b NL. apply where_none. intros k I. apply in_where in I. destruct I as (h & Eh & Hh). apply has_edge_true in Hh.
    apply NL. exists h. split; auto. eapply nth_error_In; eauto. }
  assert (D : linked fs i j \/ ~ linked fs i j).
  { destruct (Exists_dec (fun f => In (i, j) (cycle_edges f) \/ In (j, i) (cycle_edges f)) fs) as [X|X].
    - intros f. destruct (in_dec edge_eq_dec (i, j) (cycle_edges f)); [left; auto|].
      destruct (in_dec edge_eq_dec (j, i) (cycle_edges f)); [left; auto|right; tauto].
    - left. apply Exists_exists in X. destruct X as (f & I & X). exists f; auto.
    - right. intros (f & I & Y). apply X. apply Exists_exists. exists f; auto. }
  destruct D as [L|L].
  - rewrite !H by (auto; apply linked_sym; auto). lia.
  - rewrite !Z by (auto; intros X; apply L; apply linked_sym; auto). lia.
Qed.

(** ** The heave force is the volume *)
Open Scope R_scope.
Definition zheave (zmax : R) (a b c : vec) : R := ((vz a + vz b + vz c) / 3 - zmax) * (vz (triangle_normal a b c) / 2).
Lemma heave_face : forall zmax vs f, flat_face vs f ->
  (vz (fp_center (props_of vs f)) - zmax) * fp_area (props_of vs f) * vz (fp_normal (props_of vs f)) = surface_sum (zheave zmax) vs [f].
Proof.
  intros zmax vs f F. unfold props_of, flat_face in *. destruct (is_triangle f) eqn:T.
  - rewrite surface_sum_tri by auto. apply is_triangle_true in T. destruct (Nat.eq_dec (f0 f) (f3 f)); [|congruence].
    unfold triangle_props, cor, zheave. cbn [p0 p1 p2 p3 fp_area fp_normal fp_center].
    fold (triangle_normal (point vs (f0 f)) (point vs (f1 f)) (point vs (f2 f))).
    pose proof (norm_pos _ F). cbn [vdiv vadd vz]. field. lra.
  - rewrite surface_sum_quad by auto. apply is_triangle_false in T. destruct (Nat.eq_dec (f0 f) (f3 f)); [congruence|].
    destruct F as (u & k & l & U & K & L & KL & E1 & E2).
    unfold quad_props, cor, zheave. cbn [p0 p1 p2 p3 fp_area fp_normal fp_center].
    rewrite (flat_quad_normal _ _ _ _ u k l) by auto.
    rewrite (norm_cross_sym (vsub (point vs (f3 f)) (point vs (f0 f)))).
    fold (triangle_normal (point vs (f0 f)) (point vs (f1 f)) (point vs (f2 f))).
    fold (triangle_normal (point vs (f0 f)) (point vs (f2 f)) (point vs (f3 f))). rewrite E1, E2.
    rewrite !cross_norm_split by auto. cbn [vdiv vadd vscale vz]. field. lra.
Qed.
Lemma heave_sum : forall m zmax, flat_mesh m -> heave_of m zmax = surface_sum (zheave zmax) (verts m) (faces m).
Proof.
  intros m zmax F. unfold heave_of, heave. rewrite map_map. rewrite <- surface_sum_faces. apply Rsum_map_ext.
  intros f I. apply heave_face. unfold flat_mesh in F. rewrite Forall_forall in F. auto.
Qed.
Definition zedge (zmax : R) (a b : vec) : R := (vx a * vy b - vy a * vx b) * ((vz a + vz b) / 6 - zmax / 2).
Lemma heave_volume : forall m zmax, closed_surface (faces m) -> flat_mesh m -> heave_of m zmax = signed_volume vzero m.
Proof.
  intros m zmax C F. rewrite heave_sum by auto. unfold signed_volume.
  rewrite (surface_sum_ext (zheave zmax) (fun a b c => tetra vzero a b c + (zedge zmax a b + zedge zmax b c + zedge zmax c a))).
  - rewrite surface_sum_add. rewrite (closed_triangle_edges (zedge zmax)); auto; [lra|]. intros. unfold zedge. field.
  - intros. unfold zheave, zedge, tetra, triangle_normal. vunfold. field.
Qed.
Lemma planar_flip_face : forall vs f, planar_face vs f -> planar_face vs (flip_face f).
Proof.
  intros vs f P. assert (H : planar_mesh (flip_normals (mkMesh vs [f]))) by (apply planar_flip; constructor; auto).
  unfold planar_mesh, flip_normals in H. cbn [verts faces map] in H. inversion H; auto.
Qed.

Lemma heal_volume : forall order m, iteration order -> valid m -> simple m -> ~ crowded (faces m) -> share_edges (faces m) ->
  orientable (faces m) -> (forall u v, ~ border (faces m) u v) -> planar_mesh m -> faces m <> [] ->
  exists m' V, heal_normals order m = Ok m' /\ closed_surface (faces m') /\ volume m' = Ok V /\ 0 <= V.
Proof.
  intros order m O V S NC SH OR NB P NE. destruct (connectivity_sound order O _ _ V S NC) as (c & be & E & CS).
  destruct (heal_normals_ok order m c O V S SH OR NE E) as (s & fs & zmax & R & OF & H).
  rewrite (bounds_closed _ _ _ _ CS NB) in H.
  assert (V' : valid (mkMesh (verts m) fs)) by (apply (reversed_valid s _ _ _ R V)).
  assert (P' : planar_mesh (mkMesh (verts m) fs)) by (apply (reversed_forall _ s _ _ (planar_flip_face (verts m)) R P)).
  assert (C : closed_surface fs).
  { apply (oriented_closed (length (verts m))); auto.
    - apply (reversed_forall _ s _ _ flip_simple R S).
    - intros X. apply NC. eapply reversed_crowded; eauto.
    - eapply reversed_no_border; eauto.
    - eapply reversed_share; eauto. }
  rewrite heave_volume in H by (auto using planar_flat).
  destruct (volume_flip _ V' P') as (W & EW & EW'). pose proof (volume_exact _ V' (planar_flat _ P')) as EV. rewrite EW in EV.
  injection EV as EV. rewrite <- EV in H. unfold Rltb in H. destruct (Rlt_dec W 0).
  - exists (flip_normals (mkMesh (verts m) fs)), (- W). split; [exact H|]. split; [|split; [auto|lra]].
    intros i j. unfold flip_normals. cbn [faces]. rewrite net_flip, (C i j). reflexivity.
  - exists (mkMesh (verts m) fs), W. split; [exact H|]. split; auto. split; auto. lra.
Qed.

(** ** Healing twice *)
Open Scope nat_scope.
Definition kept (s0 : list nat) (j0 : nat) (st : flood) : Prop :=
  nth_error (fl_ff st) 0 = Some s0 /\ nth_error (fl_vis st) 0 = Some true /\
  exists l, nth_error (fl_ff st) j0 = Some l /\ mem 0 l = false.
Lemma set_remove_inv : forall x l l', set_remove x l = Ok l' -> l' = filter (fun y => negb (x =? y)) l.
Proof. intros x l l' E. unfold set_remove in E. destruct (mem x l); congruence. Qed.
Lemma mem_filter : forall p x l, mem x l = false -> mem x (filter p l) = false.
Proof. intros p x l H. apply mem_false. intros I. apply filter_In in I. apply mem_false in H. tauto. Qed.
Lemma visit_inv : forall order types i st j st', visit order types i st j = Ok st' ->
  st' = st \/ (nth_error (fl_vis st) j = Some false /\ exists l, nth_error (fl_ff st) j = Some l /\
               fl_ff st' = set_nth (fl_ff st) j (filter (fun y => negb (i =? y)) l) /\ fl_vis st' = set_nth (fl_vis st) j true).
Proof.
  intros order types i st j st' E. unfold visit in E. step E. destruct a; [injection E as <-; auto|]. right.
  apply get_inv in B. split; auto. step E. step E. apply set_remove_inv in B1. subst.
  unfold dget in B0. destruct (nth_error (fl_ff st) j) as [l|]; [|discriminate]. injection B0 as <-. exists l. split; auto.
  step E. step E. step E. step E. step E. match goal with r : option bool |- _ => destruct r end; injection E as <-; auto.
Qed.
Lemma visit_kept : forall order types i s0 j0 st j st', kept s0 j0 st -> visit order types i st j = Ok st' -> kept s0 j0 st'.
Proof.
  intros order types i s0 j0 st j st' (F & V0 & l0 & E0 & M0) E. apply visit_inv in E.
  destruct E as [->|(Vj & l & El & EF & EV)]; [repeat split; eauto|].
  assert (N : j <> 0) by (intros ->; congruence). unfold kept. rewrite EF, EV. rewrite !set_nth_other by auto.
  split; auto. split; auto. destruct (Nat.eq_dec j j0) as [<-|NJ].
  - rewrite set_nth_same by (eapply nth_error_bound; eauto). eexists. split; [reflexivity|].
    rewrite E0 in El. injection El as <-. apply mem_filter. auto.
  - rewrite set_nth_other by auto. eauto.
Qed.
Lemma refill_kept : forall s0 j0 st i st', kept s0 j0 st -> refill st = Some (i, st') -> kept s0 j0 st'.
Proof.
  intros s0 j0 st i st' (F & V0 & X) E. unfold refill in E. unfold kept. destruct (fl_stack st).
  - destruct (where_ negb (fl_vis st)) eqn:W; [discriminate|]. injection E as <- <-. cbn [fl_ff fl_vis].
    apply in_where_negb in W. rewrite set_nth_other by congruence. auto.
  - injection E as <- <-. auto.
Qed.
Lemma flood_kept : forall order types s0 j0 fuel st st', kept s0 j0 st -> flood_loop order types fuel st = Ok st' -> kept s0 j0 st'.
Proof.
  induction fuel as [|n IH]; intros st st' K E; cbn [flood_loop] in E; destruct (refill st) as [[i st1]|] eqn:R;
  try (injection E as <-; auto); try discriminate.
  apply (refill_kept s0 j0) in R; auto. step E. step E. eapply IH; [|eauto].
  eapply foldM_inv; [|exact R|eauto]. intros; eapply visit_kept; eauto.
Qed.
Lemma flood_faces_kept : forall order tri ff fs st s0 j0 t, nth_error ff 0 = Some s0 -> order s0 = j0 :: t -> j0 <> 0 ->
  flood_faces order tri ff fs = Ok st ->
  nth_error (fl_ff st) 0 = Some s0 /\ j0 < length fs /\ exists l, nth_error (fl_ff st) j0 = Some l /\ mem 0 l = false.
Proof.
  intros order tri ff fs st s0 j0 t F O N E. unfold flood_faces in E. destruct (forallb _ tri); [|discriminate].
  destruct (Nat.ltb_spec 0 (length fs)) as [L|]; [|discriminate].
  destruct (length fs) as [|n] eqn:EL; [lia|]. rewrite <- EL in *. cbn [flood_loop] in E.
  set (types := set_all _ _ _) in E. clearbody types. rewrite EL in E at 1. cbn [flood_loop refill fl_stack fl_faces fl_ff fl_vis] in E.
  unfold dget in E. cbn [fl_ff] in E. rewrite F in E. cbn [bind] in E. rewrite O in E. step E. cbn [foldM] in B.
  step B. pose proof (visit_inv _ _ _ _ _ _ B0) as VI. cbn [fl_vis fl_ff] in VI.
  assert (LJ : nth_error (set_nth (repeat false (length fs)) 0 true) j0 = Some false /\ j0 < length fs).
  { unfold visit in B0. cbn [fl_vis] in B0. destruct (get (set_nth (repeat false (length fs)) 0 true) j0) as [b|] eqn:G; [|discriminate].
    apply get_inv in G. pose proof (nth_error_bound _ _ _ _ G) as L2. rewrite set_nth_length, repeat_length in L2. split; auto.
    rewrite set_nth_other by auto. apply nth_error_repeat. auto. }
  destruct LJ as [VJ LJ].
  assert (K : kept s0 j0 a0).
  { destruct VI as [->|(_ & l & El & EF & EV)].
    - exfalso. clear - B0 VJ. unfold visit in B0. cbn [fl_vis fl_ff fl_faces fl_stack] in B0. rewrite (get_some _ _ _ _ VJ) in B0. cbn [bind] in B0.
      step B0. step B0. step B0. step B0. step B0. step B0. step B0.
      assert (X : set_nth (set_nth (repeat false (length fs)) 0 true) j0 true = set_nth (repeat false (length fs)) 0 true)
        by (apply (f_equal (fun r => match r with Ok s => fl_vis s | Raise _ => [] end)) in B0;
            match goal with r : option bool |- _ => destruct r end; exact B0).
      assert (Y : nth_error (set_nth (set_nth (repeat false (length fs)) 0 true) j0 true) j0 = Some true)
        by (apply set_nth_same; eapply nth_error_bound; eauto). congruence.
    - unfold kept. rewrite EF, EV. rewrite !set_nth_other by auto. split; auto. split; [apply set_nth_same; rewrite repeat_length; lia|].
      eexists. split; [apply set_nth_same; eapply nth_error_bound; eauto|]. apply mem_false. intros I. apply in_filter_remove in I. tauto. }
  assert (K2 : kept s0 j0 a) by (eapply foldM_inv; [|exact K|exact B]; intros; eapply visit_kept; eauto).
  destruct (flood_kept _ _ _ _ _ _ _ K2 E) as (A1 & _ & A3). auto.
Qed.
Lemma flood_faces_again : forall order tri ff fs s0 j0 t l, nth_error ff 0 = Some s0 -> order s0 = j0 :: t -> j0 <> 0 -> j0 < length fs ->
  nth_error ff j0 = Some l -> mem 0 l = false -> forallb (fun i => i <? length fs) tri = true ->
  flood_faces order tri ff fs = Raise KeyError.
Proof.
  intros order tri ff fs s0 j0 t l F O N L El M T. unfold flood_faces. rewrite T.
  destruct (Nat.ltb_spec 0 (length fs)) as [L0|]; [|lia]. set (types := set_all _ _ _). clearbody types.
  destruct (length fs) as [|n] eqn:EL; [lia|]. cbn [flood_loop refill fl_stack fl_faces fl_ff fl_vis].
  unfold dget. cbn [fl_ff]. rewrite F. cbn [bind]. rewrite O. cbn [foldM]. unfold visit at 1. cbn [fl_vis fl_ff].
  rewrite (get_some _ _ j0 false) by (rewrite set_nth_other by auto; apply nth_error_repeat; auto). cbn [bind].
  unfold dget. rewrite El. cbn [bind]. unfold set_remove. rewrite M. reflexivity.
Qed.
Lemma heal_twice : forall order m c tri quad props m1 ff1 g tri2 quad2 props2, iteration order -> valid m -> simple m ->
  mesh_connectivity order m = Ok c -> adjacent (faces m) 0 g ->
  heal_normals_with order c tri quad props m = Ok (m1, ff1) ->
  Forall (fun i => i < length (faces m1)) tri2 ->
  heal_normals_with order (mkConn (c_vv c) (c_vf c) ff1 (c_bounds c)) tri2 quad2 props2 m1 = Raise KeyError.
Proof.
  intros order m c tri quad props m1 ff1 g tri2 quad2 props2 O V S EC A H T.
  destruct (connectivity_inv order O _ _ V S c EC) as (_ & be & CS).
  destruct (adjacent_lt _ _ _ A) as [L0 Lg].
  assert (F : nth_error (c_ff c) 0 = Some (nth 0 (c_ff c) [])) by (apply nth_error_nth'; rewrite (cs_ff_length _ _ _ _ CS); auto).
  set (s0 := nth 0 (c_ff c) []) in *.
  assert (Ig : In g s0) by (apply (cs_ff _ _ _ _ CS); auto).
  destruct (order s0) as [|j0 t] eqn:EO.
  { exfalso. apply (Permutation_in _ (Permutation_sym (O s0))) in Ig. rewrite EO in Ig. auto. }
  assert (AJ : adjacent (faces m) 0 j0).
  { apply (cs_ff _ _ _ _ CS); auto. apply (Permutation_in _ (O s0)). rewrite EO. left; auto. }
  assert (NJ : j0 <> 0) by (intros ->; apply AJ; auto).
  pose proof (heal_reverses _ _ _ _ _ _ _ _ H) as (_ & s & R & _).
  unfold heal_normals_with in H. step H.
  destruct (flood_faces_kept _ _ _ _ _ _ _ _ F EO NJ B) as (K1 & LJ & l & K2 & K3).
  assert (E1 : ff1 = fl_ff a).
  { destruct (c_bounds c); [step H; step H|]; congruence. }
  subst ff1. unfold heal_normals_with. cbn [c_ff].
  rewrite (flood_faces_again order tri2 (fl_ff a) (faces m1) s0 j0 t l); auto; [rewrite R; auto|].
  apply forallb_forall. rewrite Forall_forall in T. intros i I. apply Nat.ltb_lt. auto.
Qed.

(** ** Conformity *)
Open Scope R_scope.
Lemma normalize_axis : normalize (V3 0 0 1) = V3 0 0 1 /\ normalize (V3 1 0 0) = V3 1 0 0 /\ normalize (V3 0 1 0) = V3 0 1 0.
Proof.
  assert (A : forall x y z, x * x + y * y + z * z = 1 -> norm (V3 x y z) = 1).
  { intros x y z H. unfold norm. cbn [vx vy vz]. rewrite H. apply sqrt_1. }
  unfold normalize. cbn [vx vy vz]. rewrite !A by ring. repeat split; f_equal; field.
Qed.
Lemma Rsum_zero : forall A (g : A -> R) l, (forall a, In a l -> g a = 0) -> Rsum (map g l) = 0.
Proof. induction l as [|a l IH]; intros H; [reflexivity|]. change (g a + Rsum (map g l) = 0). rewrite H by (left; auto). rewrite IH; [ring|]. intros; apply H; right; auto. Qed.
Lemma pairs_map : forall A (h : nat -> A) (l : list nat) x, combine (h x :: map h l) (map h l) = map (fun e => (h (fst e), h (snd e))) (pairs (x :: l)).
Proof.
  induction l as [|y l IH]; intros x; [reflexivity|]. change (pairs (x :: y :: l)) with ((x, y) :: pairs (y :: l)).
  cbn [map combine]. f_equal. apply IH.
Qed.
Lemma combine_last : forall A (l : list A) x z, combine (x :: l) (l ++ [z]) = combine (x :: l) l ++ [(last (x :: l) z, z)].
Proof.
  induction l as [|y l IH]; intros x z; [reflexivity|].
  change (combine (x :: y :: l) ((y :: l) ++ [z])) with ((x, y) :: combine (y :: l) (l ++ [z])). rewrite IH. reflexivity.
Qed.
Lemma telescope : forall (h : nat -> R) l x, Rsum (map (fun e => h (snd e) - h (fst e)) (pairs (x :: l))) = h (last (x :: l) 0%nat) - h x.
Proof.
  induction l as [|y l IH]; intros x; [cbn; ring|]. change (pairs (x :: y :: l)) with ((x, y) :: pairs (y :: l)).
  change (last (x :: y :: l) 0%nat) with (last (y :: l) 0%nat). cbn [map Rsum fold_right fst snd].
  change (fold_right Rplus 0 (map (fun e => h (snd e) - h (fst e)) (pairs (y :: l)))) with
    (Rsum (map (fun e => h (snd e) - h (fst e)) (pairs (y :: l)))). rewrite IH. ring.
Qed.
Lemma last_map : forall A (h : nat -> A) l x d, last (map h (x :: l)) d = h (last (x :: l) 0%nat).
Proof. induction l as [|y l IH]; intros x d; [reflexivity|]. change (last (h y :: map h l) d = h (last (y :: l) 0%nat)). rewrite <- (IH y d). reflexivity. Qed.
Lemma curve_area_closed : forall (a b : vec -> R) (h : nat -> vec) l x, last (x :: l) 0%nat = x ->
  curve_area a b (map h (x :: l)) = Rsum (map (fun e => b (h (fst e)) * a (h (snd e)) - b (h (snd e)) * a (h (fst e))) (pairs (x :: l))).
Proof.
  intros a b h l x L. unfold curve_area. cbn [map roll_next]. rewrite combine_last.
  rewrite map_app, Rsum_app. change (h x :: map h l) with (map h (x :: l)) at 2. rewrite last_map, L.
  cbn [map Rsum fold_right fst snd]. rewrite (pairs_map vec h l x), map_map.
  rewrite (Rsum_map_ext _ _ (fun e => (b (h (fst e)) * a (h (snd e)) - b (h (snd e)) * a (h (fst e))) +
     (a (h (snd e)) * b (h (snd e)) - a (h (fst e)) * b (h (fst e))))).
  - rewrite Rsum_map_add. rewrite (telescope (fun i => a (h i) * b (h i)) l x), L. ring.
  - intros e _. cbn [fst snd]. ring.
Qed.
Lemma curve_area_null : forall a b l, (forall p, In p l -> a p = 0) \/ (forall p, In p l -> b p = 0) -> curve_area a b l = 0.
Proof.
  intros a b l H. unfold curve_area. apply Rsum_zero. intros [p q] I. cbn [fst snd].
  assert (Ip : In p l) by (eapply in_combine_l; eauto).
  assert (Iq : In q l). { apply in_combine_r in I. destruct l as [|x t]; [auto|]. cbn [roll_next] in I. apply in_app_or in I. simpl in *. intuition. }
  destruct H as [H|H]; rewrite (H p), (H q) by auto; ring.
Qed.
Lemma conformal_verdict : forall vs b bs, Forall (fun i => (i < length vs)%nat) b -> b <> [] -> hd 0%nat b = last b 0%nat ->
  exists v, is_mesh_conformal_with (b :: bs) vs = Ok (Some v) /\ (v = true <-> 1 / 10000000 <= Rabs (horizontal_area vs b)).
Proof.
  intros vs b bs F NE HL. unfold is_mesh_conformal_with.
  rewrite (mapM_total _ _ (get vs) (point vs)) by (intros i I; apply get_point; rewrite Forall_forall in F; auto). cbn [bind].
  destruct b as [|x l]; [congruence|]. cbn [hd] in HL. destruct normalize_axis as (NZ & NX & NY).
  assert (P0 : forall p, projection (plane_new (V3 0 0 1) 0) p = V3 (vx p) (vy p) 0).
  { intros p. unfold projection, plane_new. rewrite NZ. destruct (orientation_wrt_z (V3 0 0 1)) as [tx ty].
    unfold plane_dist. cbn [p_normal p_scalar]. vfield. }
  assert (P1 : forall pl p, p_scalar pl = 0 -> projection (set_normal pl (V3 1 0 0)) p = V3 0 (vy p) (vz p)).
  { intros pl p E. unfold projection, set_normal, plane_dist. cbn [p_normal p_scalar]. rewrite NX, E. vfield. }
  assert (P2 : forall pl p, p_scalar pl = 0 -> projection (set_normal pl (V3 0 1 0)) p = V3 (vx p) 0 (vz p)).
  { intros pl p E. unfold projection, set_normal, plane_dist. cbn [p_normal p_scalar]. rewrite NY, E. vfield. }
  assert (S0 : p_scalar (plane_new (V3 0 0 1) 0) = 0).
  { unfold plane_new. destruct (orientation_wrt_z _). reflexivity. }
  set (pl0 := plane_new (V3 0 0 1) 0) in *. clearbody pl0.
  rewrite (curve_area_null vx vy (map (projection (set_normal pl0 (V3 1 0 0))) _))
    by (left; intros p I; apply in_map_iff in I; destruct I as (q & <- & _); rewrite P1 by auto; reflexivity).
  rewrite (curve_area_null vx vy (map (projection (set_normal (set_normal pl0 (V3 1 0 0)) (V3 0 1 0))) _))
    by (right; intros p I; apply in_map_iff in I; destruct I as (q & <- & _); rewrite P2 by auto; reflexivity).
  rewrite map_map, (curve_area_closed vy vx) by auto.
  eexists. split; [reflexivity|]. unfold horizontal_area.
  rewrite (map_ext _ (fun e => vx (point vs (fst e)) * vy (point vs (snd e)) - vx (point vs (snd e)) * vy (point vs (fst e))))
    by (intros e; rewrite !P0; reflexivity).
  set (A := Rsum _). rewrite Rabs_R0. unfold Rltb. destruct (Rlt_dec 0 (1 / 10000000)); [|exfalso; lra].
  destruct (Rlt_dec (Rabs A) (1 / 10000000)); cbn [andb negb]; split; intros X; try lra; try discriminate; try reflexivity; exfalso; lra.
Qed.
