(** Proofs about what is exchanged through the VTK and h5py libraries. *)
From Coq Require Import Reals Lra Lia List Arith Bool ZArith Ascii String.
From Flocq Require Import Core Relative.
From Verif Require Import M_base M_merge M_mesh M_text M_regex S_merge P_base P_merge P_mesh P_regex M_vtk S_vtk.
Import ListNotations.
Local Open Scope nat_scope.

(** ** Single precision *)
Lemma single_nearly : forall x, nearly x (single x).
Proof.
  intros x. destruct (error_N_FLT radix2 (-149) 24 ltac:(lia) (fun x => negb (Z.even x)) x) as (e & h & E & H & Z & R).
  unfold nearly, single. rewrite R. change (bpow radix2 (- (24) + 1)) with (/ IZR (2 ^ 23))%R in E. cbn [bpow] in H.
  change (Zpower_pos radix2 149) with (2 ^ 149)%Z in H.
  apply Rmult_integral in Z. destruct Z as [-> | ->].
  - right. replace (x * (1 + 0) + h - x)%R with h by lra. replace (1 / 2 ^ 150)%R with (/2 * / IZR (2 ^ 149))%R; [exact H|].
    replace (IZR (2 ^ 149)) with (2 ^ 149)%R; [|exact (pow_IZR 2 149)].
    change (2 ^ 150)%R with (2 * 2 ^ 149)%R. field; try (apply pow_nonzero; lra).
  - left. replace (x * (1 + e) + 0 - x)%R with (x * e)%R by lra. rewrite Rabs_mult. unfold Rdiv. apply Rmult_le_compat_l; [apply Rabs_pos|].
    apply Rle_trans with (1 := E). apply Req_le. replace (IZR (2 ^ 23)) with (2 ^ 23)%R; [|exact (pow_IZR 2 23)].
    change (2 ^ 24)%R with (2 * 2 ^ 23)%R. field.
Qed.

Lemma short_format : forall x, short x <-> generic_format radix2 (FLT_exp (-149) 24) x.
Proof.
  intros x. split.
  - intros (m & e & M & E & ->). apply generic_format_FLT. exists (Float radix2 m e); auto.
    unfold F2R. cbn [Fnum Fexp]. rewrite bpow_powerRZ. reflexivity.
  - intros F. apply FLT_format_generic in F; [|unfold Prec_gt_0; lia]. destruct F as [[m e] X M E]. exists m, e. cbn in M, E. repeat split; auto.
    rewrite X. unfold F2R. cbn [Fnum Fexp]. rewrite bpow_powerRZ. reflexivity.
Qed.
Lemma single_short : forall x, short (single x).
Proof. intros x. apply short_format. apply generic_format_round; [apply FLT_exp_valid; unfold Prec_gt_0; lia|apply valid_rnd_N]. Qed.
Lemma short_single : forall x, short x -> single x = x.
Proof. intros x S. apply round_generic; [apply valid_rnd_N|]. apply short_format. auto. Qed.
Lemma single_again : forall v, single_vec (single_vec v) = single_vec v.
Proof. intros [x y z]. unfold single_vec. cbn. f_equal; apply short_single, single_short. Qed.

(** 1 + 2^-30 is kept as 1. *)
Lemma single_one : single (1 + 1 / 2 ^ 30)%R = 1%R.
Proof.
  unfold single, round, scaled_mantissa, cexp, FLT_exp.
  assert (M : mag radix2 (1 + 1 / 2 ^ 30)%R = 1%Z :> Z).
  { apply mag_unique. change (bpow radix2 (1 - 1)) with 1%R. change (bpow radix2 1) with 2%R. rewrite Rabs_pos_eq; cbn; lra. }
  rewrite M. change (Z.max (1 - 24) (-149))%Z with (-23)%Z. unfold F2R. cbn [Fnum Fexp].
  replace (ZnearestE _) with (2 ^ 23)%Z.
  - cbn. lra.
  - symmetry. apply Znearest_imp. cbn [Z.opp bpow]. change (Z.pow_pos radix2 23) with 8388608%Z. change (2 ^ 23)%Z with 8388608%Z. cbn [pow].
    unfold Rabs. destruct Rcase_abs; lra.
Qed.

(** ** Cells *)
Lemma cell_polygon : forall f c, polygon f c -> cell_face c = Ok f.
Proof.
  intros [a b c d] l [[E ->]|[E ->]]; cbn in E; subst; reflexivity.
Qed.
Lemma cell_large : forall c, 4 < List.length c -> cell_face c = Raise IndexError.
Proof. intros c H. unfold cell_face. apply Nat.ltb_lt in H. rewrite H. auto. Qed.
Lemma cell_ok : forall c f, cell_face c = Ok f -> 3 <= List.length c -> f3 f = f0 f \/ List.length c = 4.
Proof.
  intros c f H L. destruct c as [|x0 [|x1 [|x2 [|x3 [|x4 c]]]]]; cbn in L; try lia; cbn in H; try discriminate.
  - injection H as <-. auto.
  - auto.
Qed.

Lemma mapM_Forall2 : forall A B (f : A -> res B) l l', Forall2 (fun a b => f a = Ok b) l l' -> mapM f l = Ok l'.
Proof. intros A B f l l' H. induction H as [|a b l l' E H IH]; cbn; auto. rewrite E, IH. auto. Qed.
Lemma mapM_Forall2_inv : forall A B (f : A -> res B) l l', mapM f l = Ok l' -> Forall2 (fun a b => f a = Ok b) l l'.
Proof.
  intros A B f l. induction l as [|a l IH]; cbn; intros l' H; [injection H as <-; constructor|].
  destruct (f a) eqn:E; cbn in H; try discriminate. destruct (mapM f l) eqn:M; cbn in H; try discriminate. injection H as <-. constructor; auto.
Qed.
Lemma mapM_first_fail : forall A B (f : A -> res B) l e a, In a l -> f a = Raise e -> (forall b, In b l -> (exists x, f b = Ok x) \/ f b = Raise e) -> mapM f l = Raise e.
Proof.
  intros A B f l e a I F H. induction l as [|b l IH]; [destruct I|]. cbn.
  destruct (H b (or_introl eq_refl)) as [[x E]|E]; rewrite E; cbn; auto.
  rewrite IH; auto.
  - destruct I as [<-|I]; auto. rewrite F in E. discriminate.
  - intros c C. apply H. right. auto.
Qed.

(** ** STL *)
Lemma renumber_ok : forall ids f a b c, nth_error ids (f0 f) = Some a -> nth_error ids (f1 f) = Some b -> nth_error ids (f2 f) = Some c -> f3 f = f0 f ->
  renumber ids f = Ok (F4 a b c a).
Proof. intros ids [x y z w] a b c A B C D. cbn in *. subst. unfold renumber, get. cbn. rewrite A, B, C. auto. Qed.

(** ** MED *)
Lemma nth_flat : forall X A (gs : list (X -> A)) (l : list X) j i g x, nth_error gs j = Some g -> nth_error l i = Some x ->
  nth_error (flat_map (fun f => map f l) gs) (j * List.length l + i) = Some (g x).
Proof.
  intros X A gs l. induction gs as [|h gs IH]; intros j i g x J I; [destruct j; discriminate|].
  assert (Li : i < List.length l) by (apply nth_error_Some; congruence).
  destruct j as [|j]; cbn in *.
  - injection J as <-. rewrite nth_error_app1; [|rewrite map_length; auto]. rewrite nth_error_map, I. auto.
  - rewrite nth_error_app2; rewrite map_length; [|lia].
    replace (List.length l + j * List.length l + i - List.length l) with (j * List.length l + i) by lia. apply IH; auto.
Qed.
Lemma flat_length : forall X A (gs : list (X -> A)) (l : list X), List.length (flat_map (fun f => map f l) gs) = List.length gs * List.length l.
Proof. induction gs as [|g gs IH]; intros l; cbn; auto. rewrite app_length, map_length, IH. auto. Qed.
Lemma flat_map_single : forall A B (f : A -> list B) (g : A -> B) l, (forall a, In a l -> f a = [g a]) -> flat_map f l = map g l.
Proof. induction l as [|a l IH]; intros H; auto. cbn. rewrite H by (left; auto). cbn. rewrite IH; auto. intros b I. apply H. right. auto. Qed.
Lemma map_seq_nth : forall A B (f : nat -> B) (g : A -> B) l, (forall i a, nth_error l i = Some a -> f i = g a) -> map f (seq 0 (List.length l)) = map g l.
Proof.
  intros A B f g l. revert f. induction l as [|a l IH]; intros f H; auto. cbn. rewrite (H 0 a) by auto. f_equal.
  rewrite <- seq_shift, map_map. apply IH. intros i b E. apply (H (S i)). auto.
Qed.
Lemma reshape_rows : forall X A (gs : list (X -> A)) (l : list X), gs <> [] ->
  reshape_T (List.length gs) (flat_map (fun f => map f l) gs) = Ok (map (fun x => map (fun f => f x) gs) l).
Proof.
  intros X A gs l N. unfold reshape_T. rewrite flat_length.
  assert (G : List.length gs <> 0) by (destruct gs; cbn; congruence).
  rewrite (Nat.mul_comm _ (List.length l)), Nat.div_mul by auto. rewrite (Nat.mul_comm _ (List.length l)), Nat.eqb_refl. f_equal.
  apply map_seq_nth. intros i x I.
  destruct gs as [|g0 gs']; [congruence|]. set (gs := g0 :: gs') in *.
  rewrite (flat_map_single _ _ _ (fun j => nth j gs g0 x)).
  - apply map_seq_nth. intros j g J. erewrite nth_error_nth; eauto.
  - intros j J. apply in_seq in J. erewrite nth_flat; eauto. apply nth_error_nth'. lia.
Qed.

Lemma begins_spec : forall p t, begins p t = true <-> exists b, t = p ++ b.
Proof.
  induction p as [|a p IH]; intros t; cbn; [split; eauto|].
  destruct t as [|b t]; [split; [discriminate|intros (c & C); discriminate]|].
  rewrite andb_true_iff, Ascii.eqb_eq, IH. split.
  - intros [-> (c & ->)]. eauto.
  - intros (c & C). injection C as -> ->. eauto.
Qed.
Lemma inside_occurs : forall p t, inside p t = true <-> occurs p t.
Proof.
  intros p t. induction t as [|c t IH].
  - cbn. rewrite orb_false_r, begins_spec. split.
    + intros (b & E). exists [], b. auto.
    + intros (a & b & E). symmetry in E. apply app_eq_nil in E. destruct E as [-> E]. exists b. auto.
  - cbn [inside]. rewrite orb_true_iff, begins_spec, IH. split.
    + intros [(b & ->)|(a & b & ->)]; [exists [], b|exists (c :: a), b]; auto.
    + intros ([|x a] & b & E); [left; exists b; auto|right]. injection E as -> ->. exists a, b. auto.
Qed.
Lemma not_inside : forall p t, ~ occurs p t -> inside p t = false.
Proof. intros p t N. destruct (inside p t) eqn:E; auto. apply inside_occurs in E. contradiction. Qed.

(** What the loop holds for a name: the value of the last item with that name *)
Definition kept {A} (p : text) (g : item -> A) (st : option A) (l : list (text * item)) : option A :=
  fold_left (fun st x => if inside p (fst x) then Some (g (snd x)) else st) l st.
Lemma kept_none : forall A p (g : item -> A) l st, (forall y, In y l -> ~ occurs p (fst y)) -> kept p g st l = st.
Proof.
  intros A p g l. induction l as [|y l IH]; intros st H; auto. unfold kept in *. cbn. rewrite not_inside by (apply H; left; auto).
  apply IH. intros z Z. apply H. right. auto.
Qed.
Lemma kept_last : forall A p (g : item -> A) l st x, last_named p l x -> kept p g st l = Some (g x).
Proof.
  intros A p g l st x (b & n & a & -> & O & N). unfold kept. rewrite fold_left_app. cbn. apply inside_occurs in O. rewrite O. apply kept_none. auto.
Qed.

Definition rows3 (i : item) : list (list R) := match i with Floats l => match reshape_T 3 l with Ok r => r | _ => [] end | _ => [] end.
Definition rowsz (n : nat) (i : item) : list (list Z) := match i with Ints l => match reshape_T n l with Ok r => map (map (fun n => n - 1)%Z) r | _ => [] end | _ => [] end.

Definition med_ok (x : text * item) : Prop :=
  (occurs (s "/NOE/COO") (fst x) -> exists vs, snd x = Floats (stored_vertices vs)) /\
  (occurs (s "/MAI/TR3/NOD") (fst x) -> exists ts, snd x = Ints (stored_triangles ts)) /\
  (occurs (s "/MAI/QU4/NOD") (fst x) -> exists qs, snd x = Ints (stored_quadrangles qs)).

Lemma reshape_vertices : forall vs, reshape_T 3 (stored_vertices vs) = Ok (rows_of vs).
Proof.
  intros vs. pose proof (reshape_rows _ _ [vx; vy; vz] vs ltac:(discriminate)) as H. cbn [List.length flat_map] in H. rewrite app_nil_r in H. exact H.
Qed.
Lemma reshape_triangles : forall ts, reshape_T 3 (stored_triangles ts) =
  Ok (map (fun t => let '(a, b, c) := t in map (fun n => Z.of_nat (S n)) [a; b; c]) ts).
Proof.
  intros ts. pose proof (reshape_rows _ _ [fun t : nat * nat * nat => Z.of_nat (S (fst (fst t))); fun t => Z.of_nat (S (snd (fst t))); fun t => Z.of_nat (S (snd t))] ts ltac:(discriminate)) as H.
  cbn [List.length flat_map] in H. rewrite app_nil_r in H. unfold stored_triangles. rewrite H. f_equal. apply map_ext. intros [[a b] c]. auto.
Qed.
Lemma reshape_quadrangles : forall qs, reshape_T 4 (stored_quadrangles qs) = Ok (map (fun q => map (fun n => Z.of_nat (S n)) [f0 q; f1 q; f2 q; f3 q]) qs).
Proof.
  intros qs. pose proof (reshape_rows _ _ [fun q => Z.of_nat (S (f0 q)); fun q => Z.of_nat (S (f1 q)); fun q => Z.of_nat (S (f2 q)); fun q => Z.of_nat (S (f3 q))] qs ltac:(discriminate)) as H.
  cbn [List.length flat_map] in H. rewrite app_nil_r in H. unfold stored_quadrangles. rewrite H. f_equal.
Qed.

Lemma med_loop_kept : forall l v t q, Forall med_ok l ->
  med_loop (v, t, q) l = Ok (kept (s "/NOE/COO") rows3 v l, kept (s "/MAI/TR3/NOD") (rowsz 3) t l, kept (s "/MAI/QU4/NOD") (rowsz 4) q l).
Proof.
  induction l as [|[n x] l IH]; intros v t q F; auto. inversion F as [|? ? (V & T & Q) F']; subst. cbn [fst snd] in *. cbn [med_loop]. unfold med_step. cbn [fst snd].
  assert (EV : (if inside (s "/NOE/COO") n then do l <- med_floats x; do rows <- reshape_T 3 l; Ok (Some rows) else Ok v) =
               Ok (if inside (s "/NOE/COO") n then Some (rows3 x) else v)).
  { destruct (inside (s "/NOE/COO") n) eqn:E; auto. apply inside_occurs in E. destruct (V E) as (vs & ->). cbn [med_floats bind rows3]. rewrite reshape_vertices. auto. }
  assert (ET : (if inside (s "/MAI/TR3/NOD") n then do l <- med_ints x; do rows <- reshape_T 3 l; Ok (Some (map (map (fun n => n - 1)%Z) rows)) else Ok t) =
               Ok (if inside (s "/MAI/TR3/NOD") n then Some (rowsz 3 x) else t)).
  { destruct (inside (s "/MAI/TR3/NOD") n) eqn:E; auto. apply inside_occurs in E. destruct (T E) as (ts & ->). cbn [med_ints bind rowsz]. rewrite reshape_triangles. auto. }
  assert (EQ : (if inside (s "/MAI/QU4/NOD") n then do l <- med_ints x; do rows <- reshape_T 4 l; Ok (Some (map (map (fun n => n - 1)%Z) rows)) else Ok q) =
               Ok (if inside (s "/MAI/QU4/NOD") n then Some (rowsz 4 x) else q)).
  { destruct (inside (s "/MAI/QU4/NOD") n) eqn:E; auto. apply inside_occurs in E. destruct (Q E) as (qs & ->). cbn [med_ints bind rowsz]. rewrite reshape_quadrangles. auto. }
  rewrite EV. cbn [bind]. rewrite ET. cbn [bind]. rewrite EQ. cbn [bind]. rewrite IH; auto.
Qed.
