(** STL files, and bounds on what is read *)
From Coq Require Import Ascii String List Arith NArith ZArith QArith Qabs Qpower Bool Lia Lqa.
From Verif Require Import M_base M_merge M_mesh M_text M_mmio S_text P_text P_mmio P_columns P_formats.
Import ListNotations.
Local Open Scope nat_scope.

Section STL.
  Variable dbl : N -> Z -> N * positive.
  Variable normal_text : vertex -> vertex -> vertex -> text.
  Hypothesis NL : forall a b c, nonl (normal_text a b c).
  Definition row_e (v : vertex) : list text := map (scientific "e" 6) (coordinates v).
  Definition stl_line (v : vertex) : text := s "      vertex" ++ fields3 (sci_field "e" 15 6) v.
  Lemma stl_line_words : forall v, (forall x, In x (coordinates v) -> exponent_room 6 3 x) -> words (stl_line v) = s "vertex" :: row_e v.
  Proof.
    intros [[x y] z] H. unfold stl_line.
    replace (s "      vertex" ++ fields3 (sci_field "e" 15 6) (x, y, z)) with
      (join [(s "      ", s "vertex"); cell 15 (scientific "e" 6 x); cell 15 (scientific "e" 6 y); cell 15 (scientific "e" 6 z)])
      by (unfold join; cbn [map concat fst snd cell fields3]; rewrite app_nil_r; reflexivity).
    assert (L : forall x', In x' (coordinates (x, y, z)) -> length (scientific "e" 6 x') < 15).
    { intros x' X. pose proof (scientific_length "e" 6 3 x' ltac:(lia) (H x' X)). lia. }
    rewrite words_join; [reflexivity|]. split; [repeat constructor|]. split; [split; [discriminate|repeat constructor]|].
    repeat constructor; try apply spaces_repeat; try apply sci_word; try reflexivity; cbn [fst cell];
      (match goal with |- repeat _ (15 - length (scientific _ _ ?u)) <> [] => pose proof (L u ltac:(cbn; auto)); destruct (15 - length (scientific "e" 6 u)) eqn:E; [lia|discriminate] end).
  Qed.
  Lemma stl_line_nonl : forall v, nonl (stl_line v). Proof. intros v. apply nonl_app; [repeat constructor|]. apply nat_vertex_nonl. reflexivity. Qed.
  Definition pick (l : text) : list (list text) := match words l with w :: ws => if list_eq_dec ascii_dec w (s "vertex") then [ws] else [] | [] => [] end.
  Lemma pick_line : forall v, (forall x, In x (coordinates v) -> exponent_room 6 3 x) -> pick (stl_line v) = [row_e v].
  Proof. intros v H. unfold pick. rewrite stl_line_words by auto. destruct (list_eq_dec ascii_dec (s "vertex") (s "vertex")); [auto|congruence]. Qed.
  Lemma pick_normal : forall t, pick (s "  facet normal " ++ t) = [].
  Proof.
    intros t. unfold pick. replace (s "  facet normal " ++ t) with (s "  " ++ s "facet" ++ (s " normal " ++ t)) by reflexivity.
    rewrite words_spaces by (repeat constructor). rewrite words_word; [|split; [discriminate|repeat constructor]|right; cbn; eauto].
    destruct (list_eq_dec ascii_dec (s "facet") (s "vertex")); [discriminate|auto].
  Qed.
  Definition block (a b c : vertex) : list text :=
    [s "  facet normal " ++ normal_text a b c; s "    outer loop"; stl_line a; stl_line b; stl_line c; s "    endloop"; s "  endfacet"].
  Lemma lines_block : forall a b c r, lines ((line (s "  facet normal " ++ normal_text a b c) ++ line (s "    outer loop") ++ line (s "      vertex" ++ fields3 (sci_field "e" 15 6) a) ++
          line (s "      vertex" ++ fields3 (sci_field "e" 15 6) b) ++ line (s "      vertex" ++ fields3 (sci_field "e" 15 6) c) ++ line (s "    endloop") ++ line (s "  endfacet")) ++ r) = block a b c ++ lines r.
  Proof.
    intros a b c r. rewrite <- !app_assoc. rewrite lines_line by (apply nonl_app; [repeat constructor|apply NL]). rewrite lines_line by (repeat constructor).
    rewrite (lines_line (s "      vertex" ++ fields3 (sci_field "e" 15 6) a)) by apply stl_line_nonl. rewrite (lines_line (s "      vertex" ++ fields3 (sci_field "e" 15 6) b)) by apply stl_line_nonl.
    rewrite (lines_line (s "      vertex" ++ fields3 (sci_field "e" 15 6) c)) by apply stl_line_nonl. do 2 rewrite lines_line by (repeat constructor). reflexivity.
  Qed.
  Definition triangle_of (f : face) : nat * nat * nat := (f0 f, f1 f, f2 f).
  Definition corners_of (vs : list vertex) (t : nat * nat * nat) (cs : list vertex) : Prop := let '(i, j, k) := t in Forall2 (fun i v => nth_error vs i = Some v) [i; j; k] cs.
  Lemma blocks_vertices : forall vs fs cs, Forall (fun f => f0 f = f3 f) fs -> (forall v x, In v vs -> In x (coordinates v) -> exponent_room 6 3 x) ->
    Forall2 (corners_of vs) (map triangle_of fs) cs ->
    exists blocks, mapM (stl_block normal_text vs) fs = Ok blocks /\ forall r, flat_map pick (lines (concat blocks ++ r)) = map row_e (concat cs) ++ flat_map pick (lines r).
  Proof.
    intros vs. induction fs as [|f fs IH]; intros cs T R C; inversion C as [|? c ? cs' C1 C2]; subst.
    - exists []. split; auto.
    - inversion T as [|? ? T1 T2]; subst. destruct (IH cs' T2 R C2) as (blocks & B & L).
      unfold triangle_of, corners_of in C1. inversion C1 as [|? a ? ? N0 C3]; subst. inversion C3 as [|? b ? ? N1 C4]; subst. inversion C4 as [|? c ? ? N2 C5]; subst. inversion C5; subst.
      pose proof (proj2 (get_nth_error _ _ _ _) N0) as G0. pose proof (proj2 (get_nth_error _ _ _ _) N1) as G1. pose proof (proj2 (get_nth_error _ _ _ _) N2) as G2.
      cbn [mapM]. unfold stl_block at 1. rewrite <- T1, Nat.eqb_refl, G0. cbn [bind]. rewrite G1. cbn [bind]. rewrite G2. cbn [bind]. rewrite B. cbn [bind]. eexists. split; [reflexivity|]. intros r.
      cbn [concat]. rewrite <- (app_assoc _ (concat blocks) r). rewrite lines_block. unfold block. cbn [app flat_map]. rewrite pick_normal. change (pick (s "    outer loop")) with (@nil (list text)).
      assert (P : forall v, In v vs -> pick (stl_line v) = [row_e v]) by (intros v V; apply pick_line; intros x; apply (R v x V)).
      rewrite (P a), (P b), (P c) by (eapply nth_error_In; eauto). change (pick (s "    endloop")) with (@nil (list text)). change (pick (s "  endfacet")) with (@nil (list text)).
      cbn [app map]. rewrite L. auto.
  Qed.
  Definition word_lines (a b c : vertex) : list (list text) :=
    [s "facet" :: s "normal" :: words (normal_text a b c); [s "outer"; s "loop"]; s "vertex" :: row_e a; s "vertex" :: row_e b; s "vertex" :: row_e c; [s "endloop"]; [s "endfacet"]].
  Lemma normal_words : forall t, words (s "  facet normal " ++ t) = s "facet" :: s "normal" :: words t.
  Proof. reflexivity. Qed.
  Lemma blocks_layout : forall vs fs cs, Forall (fun f => f0 f = f3 f) fs -> (forall v x, In v vs -> In x (coordinates v) -> exponent_room 6 3 x) ->
    Forall2 (corners_of vs) (map triangle_of fs) cs ->
    exists blocks ws, mapM (stl_block normal_text vs) fs = Ok blocks /\ Forall2 (fun c w => exists a b d, c = [a; b; d] /\ w = word_lines a b d) cs ws /\
      forall r, map words (lines (concat blocks ++ r)) = concat ws ++ map words (lines r).
  Proof.
    intros vs. induction fs as [|f fs IH]; intros cs T R C; inversion C as [|? c ? cs' C1 C2]; subst.
    - exists [], []. repeat split; auto.
    - inversion T as [|? ? T1 T2]; subst. destruct (IH cs' T2 R C2) as (blocks & ws & B & W & L).
      unfold triangle_of, corners_of in C1. inversion C1 as [|? a ? ? N0 C3]; subst. inversion C3 as [|? b ? ? N1 C4]; subst. inversion C4 as [|? c ? ? N2 C5]; subst. inversion C5; subst.
      pose proof (proj2 (get_nth_error _ _ _ _) N0) as G0. pose proof (proj2 (get_nth_error _ _ _ _) N1) as G1. pose proof (proj2 (get_nth_error _ _ _ _) N2) as G2.
      cbn [mapM]. unfold stl_block at 1. rewrite <- T1, Nat.eqb_refl, G0. cbn [bind]. rewrite G1. cbn [bind]. rewrite G2. cbn [bind]. rewrite B. cbn [bind]. eexists. exists (word_lines a b c :: ws). split; [reflexivity|].
      split; [constructor; auto; exists a, b, c; auto|]. intros r.
      cbn [concat]. rewrite <- (app_assoc _ (concat blocks) r). rewrite lines_block. rewrite map_app, L. rewrite <- app_assoc. f_equal. unfold block, word_lines. cbn [map]. rewrite normal_words.
      assert (P : forall v, In v vs -> words (stl_line v) = s "vertex" :: row_e v) by (intros v V; apply stl_line_words; intros x; apply (R v x V)).
      rewrite (P a), (P b), (P c) by (eapply nth_error_In; eauto). reflexivity.
  Qed.
  Lemma stl_facets_triangles : forall fs, map triangle_of (stl_facets fs) = stl_triangles fs /\ Forall (fun f => f0 f = f3 f) (stl_facets fs).
  Proof.
    intros fs. unfold stl_facets, stl_triangles. split.
    - rewrite map_app, !map_map. f_equal. apply map_ext. intros f. unfold stl_kept, triangle_of. change (stl_quad f) with (is_quad f). destruct (is_quad f); auto.
    - apply Forall_app. split; apply Forall_map_intro; intros f _; auto. unfold stl_kept, stl_quad. destruct (Nat.eqb_spec (f0 f) (f3 f)); auto.
  Qed.
  Lemma write_STL_vertices : forall vs fs cs, (forall v x, In v vs -> In x (coordinates v) -> exponent_room 6 3 x) -> Forall2 (corners_of vs) (stl_triangles fs) cs ->
    exists t, fst (write_STL normal_text vs fs) = Ok t /\ stl_vertices t = map row_e (concat cs).
  Proof.
    intros vs fs cs R C. destruct (stl_facets_triangles fs) as [E T]. rewrite <- E in C. destruct (blocks_vertices vs (stl_facets fs) cs T R C) as (blocks & B & L).
    unfold write_STL. cbn [fst]. rewrite B. cbn [bind]. eexists. split; [reflexivity|]. unfold stl_vertices. change (fun l => match words l with [] => [] | w :: ws => if list_eq_dec ascii_dec w (s "vertex") then [ws] else [] end) with pick.
    rewrite lines_line by (repeat constructor). cbn [flat_map]. change (pick (s "solid meshmagick")) with (@nil (list text)). cbn [app]. rewrite L.
    change (flat_map pick (lines (line (s "endsolid meshmagick")))) with (@nil (list text)). apply app_nil_r.
  Qed.
  Lemma write_STL_layout : forall vs fs cs, (forall v x, In v vs -> In x (coordinates v) -> exponent_room 6 3 x) -> Forall2 (corners_of vs) (stl_triangles fs) cs ->
    exists t ws, fst (write_STL normal_text vs fs) = Ok t /\ Forall2 (fun c w => exists a b d, c = [a; b; d] /\ w = word_lines a b d) cs ws /\
      map words (lines t) = [s "solid"; s "meshmagick"] :: concat ws ++ [[s "endsolid"; s "meshmagick"]; []].
  Proof.
    intros vs fs cs R C. destruct (stl_facets_triangles fs) as [E T]. rewrite <- E in C. destruct (blocks_layout vs (stl_facets fs) cs T R C) as (blocks & ws & B & W & L).
    unfold write_STL. cbn [fst]. rewrite B. cbn [bind]. eexists. exists ws. split; [reflexivity|]. split; auto.
    rewrite lines_line by (repeat constructor). cbn [map]. rewrite L. reflexivity.
  Qed.
  Lemma write_STL_invalid : forall vs fs f n, In f fs -> In n (corners f) -> length vs <= n -> fst (write_STL normal_text vs fs) = Raise IndexError.
  Proof.
    intros vs fs f n F I L.
    assert (S : forall g, f0 g = f3 g -> stl_block normal_text vs g = Raise IndexError \/ (exists t, stl_block normal_text vs g = Ok t) /\ forall m, In m (corners g) -> m < length vs).
    { intros g G. unfold stl_block. rewrite G, Nat.eqb_refl.
      assert (K : forall i, get vs i = Raise IndexError \/ exists v, get vs i = Ok v /\ i < length vs).
      { intros i. unfold get. destruct (nth_error vs i) as [v|] eqn:E; [right; exists v; split; auto; apply nth_error_Some; congruence|left; auto]. }
      destruct (K (f3 g)) as [->|(a & -> & A)]; [left; auto|]. cbn [bind]. destruct (K (f1 g)) as [->|(b & -> & B)]; [left; auto|]. cbn [bind]. destruct (K (f2 g)) as [->|(c & -> & C)]; [left; auto|].
      right. split; [eexists; reflexivity|]. intros m M. cbn in M. destruct M as [<-|[<-|[<-|[<-|[]]]]]; auto. rewrite G. auto. }
    assert (E : exists g, In g (stl_facets fs) /\ In n (corners g)).
    { unfold stl_facets. cbn in I. destruct (stl_quad f) eqn:Q.
      - destruct I as [<-|[<-|[<-|[<-|[]]]]].
        + exists (stl_kept f). split; [apply in_or_app; left; apply in_map; auto|]. unfold stl_kept. rewrite Q. cbn. auto.
        + exists (stl_new f). split; [apply in_or_app; right; apply in_map, filter_In; auto|]. cbn. auto.
        + exists (stl_new f). split; [apply in_or_app; right; apply in_map, filter_In; auto|]. cbn. auto.
        + exists (stl_kept f). split; [apply in_or_app; left; apply in_map; auto|]. unfold stl_kept. rewrite Q. cbn. auto.
      - exists (stl_kept f). split; [apply in_or_app; left; apply in_map; auto|]. unfold stl_kept. rewrite Q. exact I. }
    destruct E as (g & G & GN). pose proof (proj2 (stl_facets_triangles fs)) as T. rewrite Forall_forall in T.
    unfold write_STL. cbn [fst]. revert G T. generalize (stl_facets fs). clear F. intros l. induction l as [|h l IH]; intros G T; [destruct G|]. cbn [mapM].
    destruct (S h (T h ltac:(cbn; auto))) as [->|[(t & ->) V]]; auto. cbn [bind]. destruct G as [->|G]; [specialize (V n GN); lia|].
    specialize (IH G ltac:(intros; apply T; cbn; auto)). destruct (mapM (stl_block normal_text vs) l); [discriminate|]. cbn [bind] in *. auto.
  Qed.
End STL.

(** ** Bounds *)
Lemma value_diff : forall x y, neg y = neg x -> (Qabs (value y - value x) == Qabs (magnitude y - magnitude x))%Q.
Proof.
  intros x y H. unfold value. rewrite H. destruct (neg x); [|reflexivity].
  setoid_replace (- magnitude y - - magnitude x)%Q with (- (magnitude y - magnitude x))%Q by ring. apply Qabs_opp.
Qed.
Lemma decimal_near : forall dbl n m e, doubles dbl -> (m < 2 ^ 52)%N -> (-300 <= e <= 280)%Z -> (Qabs (magnitude (read_as dbl n m e) - decimal m e) <= decimal m e * (1 # 2 ^ 53))%Q.
Proof.
  intros dbl n m e D M E. pose proof (read_error dbl n m e D M E) as R. pose proof (ten_pos e) as P. pose proof (ten_inv e) as I. unfold decimal.
  set (y := magnitude _) in *. clearbody y.
  assert (X : (y - of_N m * 10 ^ e == (y * 10 ^ (- e) - of_N m) * 10 ^ e)%Q).
  { setoid_replace ((y * 10 ^ (- e) - of_N m) * 10 ^ e)%Q with (y * (10 ^ e * 10 ^ (- e)) - of_N m * 10 ^ e)%Q by ring. rewrite I. ring. }
  rewrite X, Qabs_Qmult, (Qabs_pos (10 ^ e)) by (apply Qlt_le_weak; auto).
  setoid_replace (of_N m * 10 ^ e * (1 # 2 ^ 53))%Q with (of_N m * (1 # 2 ^ 53) * 10 ^ e)%Q by ring. apply Qmult_le_compat_r; auto. apply Qlt_le_weak; auto.
Qed.
Lemma rounded_near : forall q m e, nearest_to (q * 10 ^ (- e)) m -> (Qabs (decimal m e - q) <= (1 # 2) * 10 ^ e)%Q.
Proof.
  intros q m e [N _]. pose proof (ten_pos e) as P. pose proof (ten_inv e) as I. unfold decimal.
  assert (X : (of_N m * 10 ^ e - q == - ((q * 10 ^ (- e) - of_N m) * 10 ^ e))%Q).
  { setoid_replace ((q * 10 ^ (- e) - of_N m) * 10 ^ e)%Q with (q * (10 ^ e * 10 ^ (- e)) - of_N m * 10 ^ e)%Q by ring. rewrite I. ring. }
  rewrite X, Qabs_opp, Qabs_Qmult, (Qabs_pos (10 ^ e)) by (apply Qlt_le_weak; auto). apply Qmult_le_compat_r; auto. apply Qlt_le_weak; auto.
Qed.
Lemma fixed_near : forall k x m, fixed_digits k x m -> (Qabs (decimal m (- Z.of_nat k) - magnitude x) <= (1 # 2) * 10 ^ (- Z.of_nat k))%Q.
Proof. intros k x m H. apply rounded_near. rewrite Z.opp_involutive. exact H. Qed.
Lemma sci_near : forall k x m e, sci_digits k x m e -> (Qabs (decimal m (e - Z.of_nat k) - magnitude x) <= (1 # 2) * 10 ^ (- Z.of_nat k) * magnitude x)%Q.
Proof.
  intros k x m e [(A & -> & ->)|(e0 & m0 & [B1 B2] & N & H)].
  - unfold decimal. change (of_N 0) with 0%Q. setoid_replace (0 * 10 ^ (0 - Z.of_nat k) - magnitude x)%Q with (- magnitude x)%Q by ring. rewrite A. rewrite Qmult_0_r. discriminate.
  - assert (R : (Qabs (decimal m0 (e0 - Z.of_nat k) - magnitude x) <= (1 # 2) * 10 ^ (e0 - Z.of_nat k))%Q).
    { apply rounded_near. replace (- (e0 - Z.of_nat k))%Z with (Z.of_nat k - e0)%Z by lia. auto. }
    assert (E : (decimal m (e - Z.of_nat k) == decimal m0 (e0 - Z.of_nat k))%Q).
    { destruct H as [(_ & -> & ->)|(-> & -> & ->)]; [reflexivity|]. unfold decimal. replace (e0 + 1 - Z.of_nat k)%Z with (1 + (e0 - Z.of_nat k))%Z by lia. rewrite (ten_add 1).
      rewrite Nnat.Nat2N.inj_succ, N.pow_succ_r', of_N_mul. change (of_N 10) with 10%Q. change (10 ^ 1)%Q with 10%Q. ring. }
    rewrite E. eapply Qle_trans; [exact R|]. replace (e0 - Z.of_nat k)%Z with (- Z.of_nat k + e0)%Z by lia. rewrite ten_add.
    setoid_replace ((1 # 2) * (10 ^ (- Z.of_nat k) * 10 ^ e0))%Q with (10 ^ e0 * ((1 # 2) * 10 ^ (- Z.of_nat k)))%Q by ring.
    setoid_replace ((1 # 2) * 10 ^ (- Z.of_nat k) * magnitude x)%Q with (magnitude x * ((1 # 2) * 10 ^ (- Z.of_nat k)))%Q by ring.
    apply Qmult_le_compat_r; auto. apply Qmult_le_0_compat; [discriminate|]. apply Qlt_le_weak, ten_pos.
Qed.
Lemma triangle : forall a b c : Q, (Qabs (a - c) <= Qabs (a - b) + Qabs (b - c))%Q.
Proof. intros. setoid_replace (a - c)%Q with ((a - b) + (b - c))%Q by ring. apply Qabs_triangle. Qed.
Lemma room_range : forall k p x, (2 <= p) -> (- (10 ^ Z.of_nat (p - 1) - 1) <= value x)%Q -> (value x <= 10 ^ Z.of_nat p - 1)%Q -> room k p x.
Proof.
  intros k p x P L U m M. unfold value in *.
  assert (W : forall q : nat, (magnitude x <= 10 ^ Z.of_nat q - 1)%Q -> (decimal m (- Z.of_nat k) < 10 ^ Z.of_nat q)%Q).
  { intros q Q. eapply Qle_lt_trans with (magnitude x + (1 # 2) * 10 ^ (- Z.of_nat k))%Q.
    - pose proof (fixed_near k x m M) as N. apply Qabs_Qle_condition in N. lra.
    - assert (T : (10 ^ (- Z.of_nat k) <= 1)%Q) by (change 1%Q with (10 ^ 0)%Q; apply ten_le; lia). lra. }
  destruct (neg x).
  - replace (Z.of_nat p - 1)%Z with (Z.of_nat (p - 1)) by lia. apply W. lra.
  - rewrite Z.sub_0_r. apply W. auto.
Qed.
