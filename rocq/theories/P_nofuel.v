(** The bodies of hydrostatics_old never report that the model ran short, but in the search of the equilibrium. *)
From Coq Require Import Reals List Arith ZArith Bool Lia Lra.
From Verif Require Import M_base M_merge M_plane M_mesh M_connectivity M_inertia M_geometry M_clipper M_hydro M_rotations M_hsold P_hsold.
Import ListNotations.
Open Scope R_scope.

Definition nf {A} (x : res A) : Prop := x <> Raise OutOfFuel.
Lemma nf_bind : forall A B (x : res A) (f : A -> res B), nf x -> (forall a, nf (f a)) -> nf (bind x f).
Proof. intros A B [a|e] f H K; cbn [bind]; [apply K|]. intros E. apply H. congruence. Qed.
Lemma nf_mapM : forall A B (f : A -> res B) l, (forall a, nf (f a)) -> nf (mapM f l).
Proof. intros A B f l H. induction l; cbn [mapM]; [discriminate|]. apply nf_bind; auto. intros b. apply nf_bind; auto. discriminate. Qed.
Lemma nf_get : forall A (l : list A) i, nf (get l i).
Proof. intros. unfold get. destruct (nth_error l i); discriminate. Qed.
Lemma nf_foldM : forall A B (f : A -> B -> res A) l a, (forall a b, nf (f a b)) -> nf (foldM f l a).
Proof. intros A B f l. induction l; intros s H; cbn [foldM]; [discriminate|]. apply nf_bind; auto. Qed.
Ltac nf_step := match goal with
  | |- nf (Ok _) => discriminate
  | |- nf (Raise _) => discriminate
  | |- nf (bind _ _) => apply nf_bind; [|intros ?]
  | |- nf (get _ _) => apply nf_get
  | |- nf (mapM _ _) => apply nf_mapM; intros ?
  | |- nf (foldM _ _ _) => apply nf_foldM; intros ? ?
  | |- nf (let '(_, _) := ?x in _) => destruct x
  | |- nf (if ?x then _ else _) => destruct x
  | |- nf (match ?x with _ => _ end) => destruct x
  end.
Ltac head t := match t with ?f _ => head f | _ => t end.
Create HintDb nf_db.
Ltac nf := repeat (cbv zeta; first [nf_step|solve [auto with nf_db nocore]|match goal with |- nf ?t => let h := head t in progress unfold h end]).
Lemma nf_set_mask : forall l m, nf (set_mask m l).
Proof. induction l; intros; cbn [set_mask]; nf. Qed.
#[local] Hint Resolve nf_set_mask : nf_db.
Lemma nf_merge : forall argsort atol A (cols : list (A -> R)) arr, nf (merge_duplicate_rows argsort atol cols arr).
Proof. intros. unfold merge_duplicate_rows. nf. Qed.
#[local] Hint Resolve nf_merge : nf_db.
Lemma nf_clipper : forall argsort p tol b m, nf (mesh_clipper argsort p tol b m).
Proof. intros. nf. Qed.
Lemma nf_polygons : forall vs b c ps s, nf (add_polygons vs b c s ps).
Proof. intros vs b c. induction ps; intros; cbn [add_polygons]; nf. Qed.
#[local] Hint Resolve nf_polygons : nf_db.
Lemma nf_properties : forall k rho rhog zg, nf (properties k rho rhog zg).
Proof. intros. nf. Qed.
Lemma nf_volume : forall m, nf (volume m).
Proof. intros. nf. Qed.

Section Methods.
  Variable argsort : list R -> list nat.
  Definition mnf {A} (m : method A) (u : hull) : Prop := nf (fst (m u)).
  Lemma mnf_seq : forall A B (m : method A) (f : A -> method B) u, mnf m u -> (forall a u', m u = (Ok a, u') -> mnf (f a) u') -> mnf (seq_ m f) u.
  Proof.
    intros A B m f u H K. unfold mnf, seq_ in *. destruct (m u) as [[a|e] u'] eqn:E; [apply (K a u' eq_refl)|]. cbn in *. intros X. apply H. congruence.
  Qed.
  Lemma mnf_modify : forall f u, mnf (modify f) u.
  Proof. intros f u. unfold mnf, modify. discriminate. Qed.
  Lemma mnf_update : forall u, mnf (update_properties argsort) u.
  Proof.
    intros u. apply mnf_seq.
    - unfold mnf, the_clipper. destruct (u_clipper u); [discriminate|]. pose proof (nf_clipper argsort water vicinity_tol true (u_mesh u)) as H. unfold clip_mesh.
      destruct (mesh_clipper _ _ _ _ _); [discriminate|]. cbn. intros X. apply H. congruence.
    - intros k u' _. unfold mnf. pose proof (nf_properties k (u_rho u') (u_rhog u') (zg u')) as H. destruct (properties _ _ _ _); [discriminate|]. cbn. intros X. apply H. congruence.
  Qed.
  Lemma mnf_mass : forall t u, mnf (set_mass t) u.
  Proof.
    intros t u. apply mnf_seq; [apply mnf_modify|]. intros _ u' _. apply mnf_seq.
    - unfold mnf, is_sinking. destruct (existsb _ _); [discriminate|]. pose proof (nf_volume (u_mesh u')) as H. destruct (volume (u_mesh u')); [discriminate|]. cbn. intros X. apply H. congruence.
    - intros b u2 _. destruct b; discriminate.
  Qed.
  Lemma mnf_displace : forall n dz zc u, mnf (displace argsort n dz zc) u.
  Proof.
    induction n as [|n IH]; intros dz zc u; [discriminate|]. cbn [displace]. apply mnf_seq; [apply mnf_modify|]. intros _ u1 _. apply mnf_seq; [apply mnf_modify|]. intros _ u2 _. apply mnf_seq; [apply mnf_update|].
    intros _ u3 _. unfold mnf. destruct (ratio_below _ _ _); [discriminate|]. apply IH.
  Qed.
  Lemma mnf_displacement : forall t u, mnf (set_displacement argsort t) u.
  Proof. intros t u. apply mnf_seq; [apply mnf_mass|]. intros _ u' _. apply mnf_displace. Qed.
  Lemma mnf_move : forall dz tx ty u, mnf (move argsort dz tx ty) u.
  Proof. intros dz tx ty u. unfold mnf. rewrite move_eq. apply mnf_update. Qed.
  Lemma mnf_restart : forall rnd n u, mnf (restart argsort rnd n) u.
  Proof.
    intros rnd n u. unfold restart. cbv zeta. apply mnf_seq; [apply mnf_modify|]. intros _ u1 _. apply mnf_seq; [apply mnf_modify|]. intros _ u2 _. apply mnf_seq; [apply mnf_update|].
    intros _ u3 _. apply mnf_modify.
  Qed.
  Lemma mnf_search : forall rnd M N fuel iter nb unst dz tx ty v, (p_itermax (u_solver v) - 1)%nat = M -> (1 <= M)%nat -> (p_max_restart (u_solver v) - 1)%nat = N ->
    (nb <= N)%nat -> (iter <= (nb + 1) * M)%nat -> ((N + 1) * M + 1 <= fuel + iter)%nat -> mnf (search argsort rnd fuel iter nb unst dz tx ty) v.
  Proof.
    intros rnd M N fuel. induction fuel as [|fuel IH]; intros iter nb unst dz tx ty v EM LM EN LN LI F1; [exfalso; nia|]. unfold mnf. rewrite search_S. unfold limit_met. rewrite EM, EN.
    assert (PASS : forall nb' dz tx ty v1, u_solver v1 = u_solver v -> (nb' <= N)%nat -> (iter + 1 <= (nb' + 1) * M)%nat ->
      mnf (seq_ (move argsort dz tx ty) (fun _ => after argsort rnd fuel iter nb' dz tx ty)) v1).
    { intros nb' dz' tx' ty' v1 SV L1 L2. apply mnf_seq; [apply mnf_move|]. intros [] v2 Mv.
      assert (S2 : u_solver v2 = u_solver v) by (rewrite <- SV; eapply move_solver; eauto).
      assert (E2 : forall b x y z, mnf (search argsort rnd fuel (S iter) nb' b x y z) v2).
      { intros. apply IH; rewrite ?S2; auto; lia. }
      unfold mnf, after. destruct (is_at_equilibrium v2), (isstable v2), (p_stop_at_unstable (u_solver v2)); try discriminate; try apply E2; destruct (solve3 _ _) as [d|e] eqn:So; try (cbv zeta; apply E2);
        unfold solve3 in So; destruct (Reqb _ _); try discriminate So; injection So as <-; discriminate. }
    destruct (unst || (iter =? (nb + 1) * M)%nat) eqn:Cd.
    - destruct (Nat.ltb_spec nb N); [|discriminate]. apply mnf_seq; [apply mnf_restart|]. intros [] v1 Rs. apply PASS; [eapply restart_solver; eauto|lia|nia].
    - apply orb_false_iff in Cd. destruct Cd as [_ Cd]. apply Nat.eqb_neq in Cd. apply PASS; auto. lia.
  Qed.
  (** Enough passes for the search *)
  Definition enough (s : solver) : nat := (max 1 (p_max_restart s) * (p_itermax s - 1) + 1)%nat.
  Lemma displace_solver : forall n dz zc u a u', displace argsort n dz zc u = (Ok a, u') -> u_solver u' = u_solver u.
  Proof.
    induction n as [|n IH]; intros dz zc u a u' H; [cbn in H; injection H as _ <-; auto|]. cbn [displace] in H. apply seq_inv in H. destruct H as ([] & u1 & E1 & H). injection E1 as <-.
    apply seq_inv in H. destruct H as ([] & u2 & E2 & H). injection E2 as <-. apply seq_inv in H. destruct H as ([] & u3 & E3 & H). apply update_solver in E3. cbn in E3.
    destruct (ratio_below _ _ _); [injection H as _ <-; auto|]. apply IH in H. congruence.
  Qed.
  Lemma equilibrate_ends : forall rnd init fuel fuel' u, (2 <= p_itermax (u_solver u))%nat -> (enough (u_solver u) <= fuel)%nat -> (enough (u_solver u) <= fuel')%nat ->
    equilibrate argsort rnd init fuel u = equilibrate argsort rnd init fuel' u /\ mnf (equilibrate argsort rnd init fuel) u.
  Proof.
    intros rnd init fuel fuel' u I F1 F2. unfold enough in *. set (s := u_solver u) in *.
    assert (EN : (max 1 (p_max_restart s) = p_max_restart s - 1 + 1)%nat) by lia. rewrite EN in F1, F2.
    assert (SV : forall a u', (if init then (fun u => (run _ <- set_displacement argsort (mass u); return_ tt) u) else return_ tt) u = (Ok a, u') -> u_solver u' = s).
    { intros [] u' H. destruct init; [|injection H as <-; auto]. apply seq_inv in H. destruct H as (z & u1 & H & E). injection E as <-. unfold set_displacement in H. apply seq_inv in H.
      destruct H as ([] & u2 & H & D). apply set_mass_inv in H. apply displace_solver in D. rewrite D, H. reflexivity. }
    split.
    - unfold equilibrate. apply seq_same. intros a u1 E. specialize (SV a u1 E). set (f := fun code => seq_ (modify recenter) (fun _ => return_ code)).
      assert (X : search argsort rnd fuel 0 0 false 0 0 0 u1 = search argsort rnd fuel' 0 0 false 0 0 0 u1) by (apply (search_fuel argsort rnd (p_itermax s - 1) (p_max_restart s - 1)); rewrite ?SV; auto; lia).
      fold f. change (match search argsort rnd fuel 0 0 false 0 0 0 u1 with (Ok a, u') => f a u' | (Raise e, u') => (Raise e, u') end = match search argsort rnd fuel' 0 0 false 0 0 0 u1 with (Ok a, u') => f a u' | (Raise e, u') => (Raise e, u') end).
      rewrite X. reflexivity.
    - unfold equilibrate. apply mnf_seq.
      + destruct init; [|discriminate]. change (mnf (seq_ (set_displacement argsort (mass u)) (fun _ => return_ tt)) u). apply mnf_seq; [apply mnf_displacement|]. discriminate.
      + intros a u1 E. specialize (SV a u1 E). apply mnf_seq; [apply (mnf_search rnd (p_itermax s - 1) (p_max_restart s - 1)); rewrite ?SV; auto; lia|]. intros c u2 _. apply mnf_seq; [apply mnf_modify|]. discriminate.
  Qed.
End Methods.
