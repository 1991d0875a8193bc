(** C96: Gmsh .msh files of version 2. There is no writer: the theorems are about the files of the format. *)
From Coq Require Import Ascii String List Arith NArith ZArith QArith Bool Lia.
From Verif Require Import M_base M_merge M_mesh M_text M_mmio S_text S_files P_text P_mmio P_formats M_regex M_files P_regex P_hst P_tec P_layout P_dat P_msh T_mmio.
Import ListNotations.
Local Open Scope nat_scope.

Lemma below_value : forall x n, (0 < n)%N -> below x n = true <-> (value x < of_N n)%Q.
Proof.
  intros [ng a b] n L. unfold below, value, magnitude, of_N, Qlt. cbn [neg top bot]. destruct ng; cbn [orb Qopp inject_Z Qnum Qden].
  - split; [intros _|auto]. nia.
  - rewrite N.ltb_lt. split; intros H; nia.
Qed.
Lemma below_false : forall x n, (0 < n)%N -> below x n = false <-> (of_N n <= value x)%Q.
Proof.
  intros x n L. pose proof (below_value x n L) as B. destruct (below x n).
  - split; [discriminate|]. intros Q. exfalso. apply (Qlt_not_le _ _ (proj1 B eq_refl) Q).
  - split; auto. intros _. apply Qnot_lt_le. intros K. apply B in K. discriminate.
Qed.
(** The version is the first word of three characters after $MeshFormat, two digits and something between. *)
Definition gives_version (dbl : N -> Z -> N * positive) (format : text) (x : num) : Prop :=
  ~ In "$"%char format /\ exists d1 c d2 more, format = [d1; c; d2] ++ more /\ is_digit d1 = true /\ is_digit d2 = true /\ to_float dbl [d1; c; d2] = Ok x.
Definition version_2 (dbl : N -> Z -> N * positive) (format : text) : Prop := exists x, gives_version dbl format x /\ (2 <= value x < 3)%Q.
Lemma msh_2 : forall dbl load41 o0 format o1 nodes o2 els o3, other_text o0 -> other_text o1 -> other_text o2 -> other_text o3 -> version_2 dbl format -> Forall plain nodes ->
  load_MSH dbl load41 (msh_file o0 format o1 nodes o2 els o3) = load_MSH22 dbl (msh_file o0 format o1 nodes o2 els o3).
Proof.
  intros dbl load41 o0 format o1 nodes o2 els o3 H0 H1 H2 H3 (x & (_ & d1 & c & d2 & more & F & D1 & D2 & X) & V2 & V3) P.
  rewrite (load_msh_version dbl load41 o0 format o1 nodes o2 els o3 d1 c d2 more x) by auto.
  rewrite (proj2 (below_false x 2 eq_refl) V2), (proj2 (below_value x 3 eq_refl) V3). reflexivity.
Qed.
Lemma nodes_plain : forall dbl nodes ps, Forall2 (node_line dbl) nodes ps -> Forall plain nodes.
Proof. intros dbl nodes ps H. induction H as [|l p ls ps A _ IH]; constructor; auto. apply A. Qed.

(** The vertices are the nodes in the order of the file, whatever their numbers; the faces are the triangles, then the
    quadrangles; the other elements are left out. *)
Theorem C96_reads : forall dbl load41 o0 format o1 nodes o2 els o3 ps, other_text o0 -> other_text o1 -> other_text o2 -> other_text o3 -> version_2 dbl format ->
  Forall2 (node_line dbl) nodes ps -> nodes <> [] -> els <> [] -> Forall element_ok els ->
  load_MSH dbl load41 (msh_file o0 format o1 nodes o2 els o3) = Ok (Arr2 ps, table (map element_face (surface els))).
Proof.
  intros dbl load41 o0 format o1 nodes o2 els o3 ps H0 H1 H2 H3 V HN NN NE HE. rewrite msh_2; auto; [|apply (nodes_plain dbl nodes ps); auto]. apply load_msh22; auto. destruct V as (x & (P & _) & _). exact P.
Qed.
(** When the nodes are numbered from one in the order of the file, the corners of the faces are the nodes of the elements. *)
Theorem C96_corners : forall dbl load41 o0 format o1 nodes o2 els o3 ps, other_text o0 -> other_text o1 -> other_text o2 -> other_text o3 -> version_2 dbl format ->
  Forall2 (node_line dbl) nodes ps -> nodes <> [] -> els <> [] -> Forall element_ok els ->
  (forall i l, nth_error nodes i = Some l -> exists w, hd_error (words l) = Some w /\ writes_nat (S i) w) ->
  Forall (fun e => Forall (fun n => 1 <= n <= length nodes) (el_nodes e)) els ->
  exists rows, load_MSH dbl load41 (msh_file o0 format o1 nodes o2 els o3) = Ok (Arr2 ps, table rows) /\
    Forall2 (fun e row => Forall2 (fun n i => exists l p w, nth_error nodes (Z.to_nat i) = Some l /\ nth_error ps (Z.to_nat i) = Some p /\ hd_error (words l) = Some w /\ writes_nat n w)
                            (el_nodes e ++ (if el_type e =? 2 then firstn 1 (el_nodes e) else [])) row) (surface els) rows.
Proof.
  intros dbl load41 o0 format o1 nodes o2 els o3 ps H0 H1 H2 H3 V HN NN NE HE HI HR. eexists. split; [apply C96_reads; auto|].
  assert (K : forall n, 1 <= n <= length nodes -> exists l p w, nth_error nodes (Z.to_nat (Z.of_nat n - 1)) = Some l /\ nth_error ps (Z.to_nat (Z.of_nat n - 1)) = Some p /\ hd_error (words l) = Some w /\ writes_nat n w).
  { intros n L. replace (Z.to_nat (Z.of_nat n - 1)) with (n - 1) by lia. destruct (nth_error nodes (n - 1)) as [l|] eqn:E; [|apply nth_error_None in E; lia].
    destruct (nth_error ps (n - 1)) as [p|] eqn:E2; [|apply nth_error_None in E2; rewrite <- (Forall2_len _ _ _ _ _ HN) in E2; lia].
    destruct (HI _ _ E) as (w & W1 & W2). replace (S (n - 1)) with n in W2 by lia. exists l, p, w. auto. }
  assert (G : forall l, Forall (fun n => 1 <= n <= length nodes) l -> Forall2 (fun n i => exists l p w, nth_error nodes (Z.to_nat i) = Some l /\ nth_error ps (Z.to_nat i) = Some p /\ hd_error (words l) = Some w /\ writes_nat n w) l (map (fun n => (Z.of_nat n - 1)%Z) l)).
  { intros l F. induction F; cbn [map]; constructor; auto. }
  assert (S : forall e, In e (surface els) -> In e els /\ (el_type e = 2 \/ el_type e = 3)).
  { intros e I. apply in_app_or in I as [I|I]; apply filter_In in I as [I T]; apply Nat.eqb_eq in T; auto. }
  revert S. generalize (surface els). induction l as [|e l IH]; intros S; cbn [map]; constructor; [|apply IH; intros; apply S; right; auto].
  destruct (S e (or_introl eq_refl)) as [I T]. pose proof (proj1 (Forall_forall _ _) HE e I) as [O2 O3]. pose proof (proj1 (Forall_forall _ _) HR e I) as R. cbv beta in R. unfold element_face. destruct T as [T|T]; rewrite T; cbn [Nat.eqb].
  - specialize (O2 T). destruct (el_nodes e) as [|a [|b [|c [|]]]]; try discriminate. cbn [firstn app]. apply G. rewrite Forall_forall in R. apply Forall_forall. intros n J. apply R. cbn in J |- *. tauto.
  - specialize (O3 T). rewrite app_nil_r. destruct (el_nodes e) as [|a [|b [|c [|d [|]]]]]; try discriminate. apply G. auto.
Qed.
(** Without nodes, or without elements, the sections are not found. *)
Theorem C96_empty : forall dbl load41 o0 format o1 nodes o2 els o3, other_text o0 -> other_text o1 -> other_text o2 -> other_text o3 -> version_2 dbl format ->
  Forall (fun l => ~ In "$"%char l) nodes -> nodes = [] \/ els = [] ->
  load_MSH dbl load41 (msh_file o0 format o1 nodes o2 els o3) = Raise AttributeError.
Proof.
  intros dbl load41 o0 format o1 nodes o2 els o3 H0 H1 H2 H3 V P E. rewrite msh_2; auto. destruct V as (x & (F & _) & _). unfold load_MSH22.
  destruct nodes as [|l nodes].
  - rewrite no_nodes_block; auto.
  - destruct E as [E|E]; [discriminate|]. destruct (nodes_block o0 format o1 o2 o3 (l :: nodes) els) as (ns & -> & _); auto; [discriminate|]. rewrite no_elements_block; auto.
Qed.
(** Other versions: those from 4 on are read by another function, the others are refused; so is a file without version. *)
Theorem C96_version : forall dbl load41 o0 format o1 nodes o2 els o3 x, other_text o0 -> other_text o1 -> other_text o2 -> other_text o3 -> gives_version dbl format x ->
  Forall (fun l => ~ In "$"%char l) nodes ->
  ((4 <= value x < 5)%Q -> load_MSH dbl load41 (msh_file o0 format o1 nodes o2 els o3) = load41 (msh_file o0 format o1 nodes o2 els o3)) /\
  (~ (2 <= value x < 3)%Q -> ~ (4 <= value x < 5)%Q -> load_MSH dbl load41 (msh_file o0 format o1 nodes o2 els o3) = Raise RuntimeError).
Proof.
  intros dbl load41 o0 format o1 nodes o2 els o3 x H0 H1 H2 H3 (_ & d1 & c & d2 & more & F & D1 & D2 & X) P.
  rewrite (load_msh_version dbl load41 o0 format o1 nodes o2 els o3 d1 c d2 more x) by auto. split.
  - intros [V4 V5]. rewrite (proj2 (below_false x 4 eq_refl) V4), (proj2 (below_value x 5 eq_refl) V5).
    assert (B : below x 3 = false) by (apply (below_false x 3 eq_refl); eapply Qle_trans; [|exact V4]; discriminate). rewrite B, andb_false_r. reflexivity.
  - intros N2 N4. destruct (below x 2) eqn:B2, (below x 3) eqn:B3, (below x 4) eqn:B4, (below x 5) eqn:B5; cbn [negb andb]; auto; exfalso;
    try (apply N2; split; [apply (below_false x 2 eq_refl); auto|apply (below_value x 3 eq_refl); auto]; fail);
    (apply N4; split; [apply (below_false x 4 eq_refl); auto|apply (below_value x 5 eq_refl); auto]).
Qed.
Theorem C96_no_version : forall dbl load41 t, ~ occurs (s "$MeshFormat") t -> load_MSH dbl load41 t = Raise AttributeError.
Proof.
  intros dbl load41 t N. unfold load_MSH, search. assert (E : scan msh_version None t = None); [|rewrite E; reflexivity].
  apply (absent_nil (s "$MeshFormat")); [discriminate|]. apply absent_fresh; [cbn; intuition discriminate|exact N|left; reflexivity].
Qed.

(** ** Examples *)
Lemma other_checked : forall o, forallb (fun w => absent w o []) msh_words = true -> other_text o.
Proof.
  intros o F. apply Forall_forall. intros w W. rewrite forallb_forall in F. specialize (F w W). assert (NW : w <> []) by (intros ->; cbn in W; intuition discriminate).
  rewrite <- (app_nil_r o). apply absent_contains; auto. apply contains_nil. auto.
Qed.
(** A pyramid on a square, with points and lines that are left out and with names of groups *)
Definition pyr_names : text := concat (map line [[]; s "$PhysicalNames"; s "1"; s "2 1 ""hull of $Nodes"""; s "$EndPhysicalNames"]).
Definition pyr_nodes : list text := [s "1 0 0 -0.5"; s "2 2 0 -0.5"; s "3 2 2 -0.5"; s "4 0 2 -0.5"; s "5 1 1 1e-1"].
Definition pyr_els : list element :=
  [Element 1 15 [0; 1] [1]; Element 2 1 [1; 5] [1; 2]; Element 3 2 [1; 7] [1; 2; 5]; Element 4 3 [1; 6] [4; 3; 2; 1]; Element 5 2 [1; 7] [2; 3; 5];
   Element 6 2 [] [3; 4; 5]; Element 7 20 [0; 1] [1; 2; 3]; Element 8 2 [1; 7; 9] [4; 1; 5]].
Definition pyr : text := msh_file [] (s "2.2 0 8") pyr_names pyr_nodes [newline] pyr_els [newline].
Example pyr_ok : other_text [] /\ other_text pyr_names /\ other_text [newline] /\ version_2 exact_dbl (s "2.2 0 8") /\ Forall element_ok pyr_els /\ (exists ps, Forall2 (node_line exact_dbl) pyr_nodes ps) /\
  (forall i l, nth_error pyr_nodes i = Some l -> exists w, hd_error (words l) = Some w /\ writes_nat (S i) w) /\ Forall (fun e => Forall (fun n => 1 <= n <= length pyr_nodes) (el_nodes e)) pyr_els.
Proof.
  split; [apply other_checked; reflexivity|]. split; [apply other_checked; vm_compute; reflexivity|]. split; [apply other_checked; reflexivity|].
  split; [exists (Num false 22 10); split; [split; [cbn; intuition discriminate|]; exists "2"%char, "."%char, "2"%char, (s " 0 8"); repeat split|split; [discriminate|reflexivity]]|].
  split; [repeat constructor; discriminate|]. split.
  - eexists. repeat (apply Forall2_cons; [split; [cbn; intuition discriminate|]; do 3 eexists; split; [vm_compute; reflexivity|]; split; [vm_compute; reflexivity|]; split; vm_compute; reflexivity|]). apply Forall2_nil.
  - split; [|cbn; repeat constructor].
    intros i l E. do 5 (destruct i as [|i]; [injection E as <-; eexists; split; vm_compute; reflexivity|]). destruct i; discriminate.
Qed.
Example pyr_read : load_MSH exact_dbl (fun _ => Raise RuntimeError) pyr =
  Ok (Arr2 [[Num false 0 1; Num false 0 1; Num true 5 10]; [Num false 2 1; Num false 0 1; Num true 5 10]; [Num false 2 1; Num false 2 1; Num true 5 10]; [Num false 0 1; Num false 2 1; Num true 5 10]; [Num false 1 1; Num false 1 1; Num false 1 10]],
      Arr2 [[0; 1; 4; 0]; [1; 2; 4; 1]; [2; 3; 4; 2]; [3; 0; 4; 3]; [3; 2; 1; 0]]%Z).
Proof. vm_compute. reflexivity. Qed.
(** The numbers of the nodes are not used: when they do not count the nodes from one in the order of the file, which the
    format allows, faces get the wrong corners, without error. *)
Theorem C96_numbering_refuted : exists nodes els ps rows e row, other_text [newline] /\ Forall2 (node_line exact_dbl) nodes ps /\ Forall element_ok els /\
  NoDup (map (fun l => hd_error (words l)) nodes) /\
  (forall n, In n (flat_map el_nodes els) -> exists l w, In l nodes /\ hd_error (words l) = Some w /\ writes_nat n w) /\
  load_MSH exact_dbl (fun _ => Raise RuntimeError) (msh_file [] (s "2.2 0 8") [newline] nodes [newline] els [newline]) = Ok (Arr2 ps, Arr2 rows) /\
  surface els = [e] /\ rows = [row] /\
  exists k n i l w, nth_error (el_nodes e) k = Some n /\ nth_error row k = Some i /\ nth_error nodes (Z.to_nat i) = Some l /\ hd_error (words l) = Some w /\ ~ writes_nat n w.
Proof.
  exists [s "3 0 0 0"; s "1 1 0 0"; s "2 0 1 0"], [Element 1 2 [0; 1] [1; 2; 3]]. do 2 eexists. exists (Element 1 2 [0; 1] [1; 2; 3]). eexists.
  split; [apply other_checked; reflexivity|]. split.
  { repeat (apply Forall2_cons; [split; [cbn; intuition discriminate|]; do 3 eexists; split; [vm_compute; reflexivity|]; split; [vm_compute; reflexivity|]; split; vm_compute; reflexivity|]). apply Forall2_nil. }
  split; [repeat constructor; discriminate|]. split; [vm_compute; repeat constructor; cbn; intuition discriminate|]. split.
  { intros n I. cbn in I. destruct I as [<-|[<-|[<-|[]]]]; [exists (s "1 1 0 0"), (s "1")|exists (s "2 0 1 0"), (s "2")|exists (s "3 0 0 0"), (s "3")]; (split; [cbn; tauto|]; split; reflexivity). }
  split; [vm_compute; reflexivity|]. split; [reflexivity|]. split; [reflexivity|]. exists 0, 1, 0%Z, (s "3 0 0 0"), (s "3"). repeat split. discriminate.
Qed.
(** Nothing but the words of the format is looked for: elements of no type of surface give no face. *)
Example lines_only : load_MSH exact_dbl (fun _ => Raise RuntimeError) (msh_file [] (s "2.2 0 8") [newline] pyr_nodes [newline] [Element 1 1 [] [1; 2]; Element 2 22 [2] [3; 4]] [newline]) =
  Ok (Arr2 (map (fun l => match mapM (to_float exact_dbl) (skipn 1 (words l)) with Ok p => p | Raise _ => [] end) pyr_nodes), Arr1 []).
Proof. vm_compute. reflexivity. Qed.
Print Assumptions C96_reads. Print Assumptions C96_corners. Print Assumptions C96_empty. Print Assumptions C96_version. Print Assumptions C96_no_version. Print Assumptions C96_numbering_refuted.
