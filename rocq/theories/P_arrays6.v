(** Proofs about arrays of the caller, ids and names. *)
From Coq Require Import Ascii String Reals List Arith NArith Bool Lia.
From Verif Require Import M_base M_merge M_plane M_rotations M_mesh M_inertia M_geometry M_connectivity M_cache M_text M_arrays
  S_merge S_arrays P_base P_merge P_mesh P_curves P_geometry P_text P_arrays P_arrays2 P_arrays3 P_arrays4 P_arrays5.
Import ListNotations.
Local Open Scope nat_scope.

Section Programs.
  Variable argsort : list R -> list nat.
  Variable order : list nat -> list nat.
  Local Notation act := (act argsort order).
  Local Notation exec := (exec argsort order).

  Lemma reached_wf : forall w, reached argsort order w -> wf w.
  Proof. intros w (p & l & E); exact (exec_wf argsort order p start w l wf_start E). Qed.
  Lemma exec_app : forall p q w w1 l1, exec p w = Ok (w1, l1) -> exec (p ++ q) w = do (w2, l2) <- exec q w1; Ok (w2, l1 ++ l2).
  Proof.
  induction p as [|a p IH]; intros q w w1 l1 E; cbn in *.
  - injection E as <- <-; destruct (exec q w) as [[w2 l2]|e]; reflexivity.
  - destruct (act a w) as [[w' x]|e]; cbn in *; [|discriminate]. destruct (exec p w') as [[w'' l]|e] eqn:R; cbn in *; [|discriminate].
    injection E as <- <-. rewrite (IH _ _ _ _ R); destruct (exec q w'') as [[w2 l2]|e]; reflexivity.
  Qed.
  Lemma reached_exec : forall p w w' l, reached argsort order w -> exec p w = Ok (w', l) -> reached argsort order w'.
  Proof. intros p w w' l (q & l0 & E) F; exists (q ++ p), (l0 ++ l). rewrite (exec_app _ _ _ _ _ E), F; reflexivity. Qed.
  Lemma reached_act : forall a w w' x, reached argsort order w -> act a w = Ok (w', x) -> reached argsort order w'.
  Proof. intros a w w' x R E; apply (reached_exec [a] w w' [x] R); cbn; rewrite E; reflexivity. Qed.

  (** A call *)
  Lemma act_call : forall w k o c, wf w -> nth_error (w_meshes w) k = Some o ->
    match act (Call k c) w with
    | Ok (w', x) => exists z, h_step argsort order c (w_heap w, o) = Ok (z, x) /\ w' = with_self w k z /\
        good z /\ framed (w_heap w, o) z /\ step argsort order c (view (w_heap w) o) = Ok (view (fst z) (snd z), x)
    | Raise e => step argsort order c (view (w_heap w) o) = Raise e
    end.
  Proof.
  intros w k o c W K; cbn [M_arrays.act]. unfold mesh_at; rewrite K; cbn [bind].
  assert (G : good (w_heap w, o)) by (apply W with k, K).
  pose proof (calls argsort order c (w_heap w, o) G) as H. unfold vw in H; cbn [fst snd] in H.
  destruct (h_step argsort order c (w_heap w, o)) as [[z x]|e]; cbn [bind].
  - destruct (step argsort order c (view (w_heap w) o)) as [[s y]|e]; [|contradiction H]. destruct H as (<- & G' & F & <-).
    exists z; auto.
  - destruct (step argsort order c (view (w_heap w) o)) as [[s y]|e']; [contradiction H|]; cbn in H; congruence.
  Qed.
  Lemma framed_others : forall h o z, framed (h, o) z -> others_same h (fst z) o.
  Proof.
  intros h o z ([_ A _] & [_ B _] & [_ C _]); split; [|split]; intros a x E N; cbn in *;
  [rewrite A|rewrite B|rewrite C]; try assumption; apply nth_error_Some; congruence.
  Qed.

  (** ** Loose arrays *)
  Definition still_points (a : nat) (w w' : world) : Prop := loose_points w' a /\ points (w_heap w') a = points (w_heap w) a.
  Lemma still_self : forall a w k o z, loose_points w a -> nth_error (w_meshes w) k = Some o -> framed (w_heap w, o) z -> still_points a w (with_self w k z).
  Proof.
  intros a w k o z [L N] K ([A B C] & _); cbn in A, B, C. pose proof (N _ _ K) as NK.
  split; [split; cbn; [lia|]|apply nth_same, B; assumption].
  intros j o' J; destruct (Nat.eq_dec j k) as [->|D].
  - rewrite set_nth_same in J by (apply nth_error_Some; congruence); injection J as <-. intros I; apply C in I as [I|I]; [exact (NK I)|lia].
  - rewrite set_nth_other in J by congruence; exact (N _ _ J).
  Qed.
  Lemma still_grown : forall a w h ms n, loose_points w a -> P_arrays2.grown (w_heap w) h ->
    (forall o, In o ms -> (exists k, nth_error (w_meshes w) k = Some o) \/ all_new (w_heap w) o) -> still_points a w (mkWorld h ms n).
  Proof.
  intros a w h ms n [L N] ((x & A) & _) M; split; [split; cbn|unfold points; cbn; rewrite A; apply nth_app_old, L].
  - rewrite A, app_length; lia.
  - intros k o E I; destruct (M o (nth_error_In _ _ E)) as [(j & J)|(Q & _)]; [exact (N _ _ J I)|apply Q in I; lia].
  Qed.
  Lemma added : forall w o o', all_new (w_heap w) o -> In o' (w_meshes w ++ [o]) ->
    (exists k, nth_error (w_meshes w) k = Some o') \/ all_new (w_heap w) o'.
  Proof. intros w o o' N I; apply in_app_or in I as [I|[<-|[]]]; [left; apply In_nth_error, I|right; exact N]. Qed.
  Lemma make_still : forall a w m name, loose_points w a -> still_points a w (make m name w).
  Proof.
  intros a w m name L; destruct (make_spec m name w) as (o & M & Gr & G & N & _). rewrite M. apply still_grown; [exact L|exact Gr|].
  intros o'; apply added, N.
  Qed.
  Lemma act_still : forall a x w w' y, wf w -> loose_points w a -> writes_points a x = false -> act x w = Ok (w', y) -> still_points a w w'.
  Proof.
  intros a x w w' y W L N E; destruct x as [u|u|b u|b u|b u|v f name|k|k l|k ids|k b|k b|k c]; cbn [M_arrays.act] in E.
  - injection E as <- <-. apply still_grown; [exact L| |intros o I; left; apply In_nth_error, I].
    split; [eexists; reflexivity|split; exists []; symmetry; apply app_nil_r].
  - injection E as <- <-. apply still_grown; [exact L| |intros o I; left; apply In_nth_error, I].
    split; [exists []; symmetry; apply app_nil_r|split; [eexists; reflexivity|exists []; symmetry; apply app_nil_r]].
  - apply bind_ok in E as (y0 & A & E); destruct (length u =? length y0); [|discriminate E]. injection E as <- <-.
    cbn in N; apply Nat.eqb_neq in N. destruct L as [L M]; split; [split; cbn; [rewrite set_nth_length; exact L|exact M]|].
    unfold points; cbn; apply nth_set_other; congruence.
  - apply bind_ok in E as (y0 & A & E); destruct (length u =? length y0); [|discriminate E]. injection E as <- <-.
    split; [exact L|reflexivity].
  - apply bind_ok in E as (y0 & A & E); destruct (length u =? length y0); [|discriminate E]. injection E as <- <-.
    split; [exact L|reflexivity].
  - apply bind_ok in E as (vs & A & E); apply bind_ok in E as (fs & B & E); injection E as <- <-; apply make_still, L.
  - apply bind_ok in E as (o & A & E); apply mesh_at_ok in A; cbv zeta in E; injection E as <- <-.
    destruct (copied_spec (w_heap w) o) as (Gr & G & Nw & _); [apply W with k, A|].
    apply still_grown; [exact L|exact Gr|intros o'; apply added, Nw].
  - apply bind_ok in E as (o & A & E); apply bind_ok in E as (o' & B & E); apply bind_ok in E as (m & C & E); injection E as <- <-; apply make_still, L.
  - apply bind_ok in E as (o & A & E); apply bind_ok in E as ((m & idv) & C & E); injection E as <- <-; apply make_still, L.
  - apply bind_ok in E as (o & A & E); apply mesh_at_ok in A; apply bind_ok in E as (u & B & E); injection E as <- <-.
    apply (still_self a w k o); [exact L|exact A|].
    pose proof (calls argsort order (SetVertices u) (w_heap w, o)) as (_ & _ & F & _); [apply W with k, A|exact F].
  - apply bind_ok in E as (o & A & E); apply mesh_at_ok in A; apply bind_ok in E as (u & B & E); injection E as <- <-.
    apply (still_self a w k o); [exact L|exact A|].
    pose proof (calls argsort order (SetFaces u) (w_heap w, o)) as (_ & _ & F & _); [apply W with k, A|exact F].
  - destruct (nth_error (w_meshes w) k) as [o|] eqn:K; [|unfold mesh_at in E; rewrite K in E; discriminate E].
    pose proof (act_call w k o c W K) as H; cbn [M_arrays.act] in H; rewrite E in H; destruct H as (z & _ & -> & _ & F & _).
    apply (still_self a w k o); assumption.
  Qed.
  Lemma exec_still : forall a p w w' l, wf w -> loose_points w a -> existsb (writes_points a) p = false -> exec p w = Ok (w', l) -> still_points a w w'.
  Proof.
  intros a p; induction p as [|x p IH]; intros w w' l W L N E; cbn in *; [injection E as <- <-; split; [exact L|reflexivity]|].
  apply orb_false_iff in N as [N1 N2]. apply bind_ok in E as ((w1 & y) & A & E); apply bind_ok in E as ((w2 & l') & B & E); injection E as <- <-.
  destruct (act_still _ _ _ _ _ W L N1 A) as [L1 P1].
  destruct (IH w1 w2 l') as [L2 P2]; [apply (act_fine _ _ _ _ _ _ W A)|exact L1|exact N2|exact B|]. split; [exact L2|congruence].
  Qed.
  (** The same of arrays of faces *)
  Definition still_faces (a : nat) (w w' : world) : Prop := loose_faces w' a /\ rows (w_heap w') a = rows (w_heap w) a.
  Lemma fstill_self : forall a w k o z, loose_faces w a -> nth_error (w_meshes w) k = Some o -> framed (w_heap w, o) z -> still_faces a w (with_self w k z).
  Proof.
  intros a w k o z [L N] K (_ & [A B C] & _); cbn in A, B, C. pose proof (N _ _ K) as NK.
  split; [split; cbn; [lia|]|apply nth_same, B; assumption].
  intros j o' J; destruct (Nat.eq_dec j k) as [->|D].
  - rewrite set_nth_same in J by (apply nth_error_Some; congruence); injection J as <-. intros I; apply C in I as [I|I]; [exact (NK I)|lia].
  - rewrite set_nth_other in J by congruence; exact (N _ _ J).
  Qed.
  Lemma fstill_grown : forall a w h ms n, loose_faces w a -> P_arrays2.grown (w_heap w) h ->
    (forall o, In o ms -> (exists k, nth_error (w_meshes w) k = Some o) \/ all_new (w_heap w) o) -> still_faces a w (mkWorld h ms n).
  Proof.
  intros a w h ms n [L N] (_ & (x & A) & _) M; split; [split; cbn|unfold rows; cbn; rewrite A; apply nth_app_old, L].
  - rewrite A, app_length; lia.
  - intros k o E I; destruct (M o (nth_error_In _ _ E)) as [(j & J)|(_ & Q & _)]; [exact (N _ _ J I)|apply Q in I; lia].
  Qed.
  Lemma fmake_still : forall a w m name, loose_faces w a -> still_faces a w (make m name w).
  Proof.
  intros a w m name L; destruct (make_spec m name w) as (o & M & Gr & G & N & _). rewrite M. apply fstill_grown; [exact L|exact Gr|].
  intros o'; apply added, N.
  Qed.
  Lemma fact_still : forall a x w w' y, wf w -> loose_faces w a -> writes_faces a x = false -> act x w = Ok (w', y) -> still_faces a w w'.
  Proof.
  intros a x w w' y W L N E; destruct x as [u|u|b u|b u|b u|v f name|k|k l|k ids|k b|k b|k c]; cbn [M_arrays.act] in E.
  - injection E as <- <-. apply fstill_grown; [exact L| |intros o I; left; apply In_nth_error, I].
    split; [eexists; reflexivity|split; exists []; symmetry; apply app_nil_r].
  - injection E as <- <-. apply fstill_grown; [exact L| |intros o I; left; apply In_nth_error, I].
    split; [exists []; symmetry; apply app_nil_r|split; [eexists; reflexivity|exists []; symmetry; apply app_nil_r]].
  - apply bind_ok in E as (y0 & A & E); destruct (length u =? length y0); [|discriminate E]. injection E as <- <-.
    split; [exact L|reflexivity].
  - apply bind_ok in E as (y0 & A & E); destruct (length u =? length y0); [|discriminate E]. injection E as <- <-.
    cbn in N; apply Nat.eqb_neq in N. destruct L as [L M]; split; [split; cbn; [rewrite set_nth_length; exact L|exact M]|].
    unfold rows; cbn; apply nth_set_other; congruence.
  - apply bind_ok in E as (y0 & A & E); destruct (length u =? length y0); [|discriminate E]. injection E as <- <-.
    split; [exact L|reflexivity].
  - apply bind_ok in E as (vs & A & E); apply bind_ok in E as (fs & B & E); injection E as <- <-; apply fmake_still, L.
  - apply bind_ok in E as (o & A & E); apply mesh_at_ok in A; cbv zeta in E; injection E as <- <-.
    destruct (copied_spec (w_heap w) o) as (Gr & G & Nw & _); [apply W with k, A|].
    apply fstill_grown; [exact L|exact Gr|intros o'; apply added, Nw].
  - apply bind_ok in E as (o & A & E); apply bind_ok in E as (o' & B & E); apply bind_ok in E as (m & C & E); injection E as <- <-; apply fmake_still, L.
  - apply bind_ok in E as (o & A & E); apply bind_ok in E as ((m & idv) & C & E); injection E as <- <-; apply fmake_still, L.
  - apply bind_ok in E as (o & A & E); apply mesh_at_ok in A; apply bind_ok in E as (u & B & E); injection E as <- <-.
    apply (fstill_self a w k o); [exact L|exact A|].
    pose proof (calls argsort order (SetVertices u) (w_heap w, o)) as (_ & _ & F & _); [apply W with k, A|exact F].
  - apply bind_ok in E as (o & A & E); apply mesh_at_ok in A; apply bind_ok in E as (u & B & E); injection E as <- <-.
    apply (fstill_self a w k o); [exact L|exact A|].
    pose proof (calls argsort order (SetFaces u) (w_heap w, o)) as (_ & _ & F & _); [apply W with k, A|exact F].
  - destruct (nth_error (w_meshes w) k) as [o|] eqn:K; [|unfold mesh_at in E; rewrite K in E; discriminate E].
    pose proof (act_call w k o c W K) as H; cbn [M_arrays.act] in H; rewrite E in H; destruct H as (z & _ & -> & _ & F & _).
    apply (fstill_self a w k o); assumption.
  Qed.
  Lemma fexec_still : forall a p w w' l, wf w -> loose_faces w a -> existsb (writes_faces a) p = false -> exec p w = Ok (w', l) -> still_faces a w w'.
  Proof.
  intros a p; induction p as [|x p IH]; intros w w' l W L N E; cbn in *; [injection E as <- <-; split; [exact L|reflexivity]|].
  apply orb_false_iff in N as [N1 N2]. apply bind_ok in E as ((w1 & y) & A & E); apply bind_ok in E as ((w2 & l') & B & E); injection E as <- <-.
  destruct (fact_still _ _ _ _ _ W L N1 A) as [L1 P1].
  destruct (IH w1 w2 l') as [L2 P2]; [apply (act_fine _ _ _ _ _ _ W A)|exact L1|exact N2|exact B|]. split; [exact L2|congruence].
  Qed.

  (** ** Ids and names *)
  Definition label (o : obj) := (o_id o, o_name o).
  Definition named (z z' : self) : Prop := label (snd z') = label (snd z).
  Lemma named_query : forall A (q : cmesh -> res (A * cmesh)) z x z', query q z = Ok (x, z') -> named z z'.
  Proof.
  intros A q z x z' E; unfold query in E; apply bind_ok in E as ([y s] & _ & E); injection E as <- <-.
  destruct z as [h o]; cbn; destruct (o_props o) as [p|]; [reflexivity|]. destruct (c_props s); reflexivity.
  Qed.
  Lemma named_trans : forall z z' z'', named z z' -> named z' z'' -> named z z''.
  Proof. unfold named; congruence. Qed.
  Lemma named_props : forall z, named z (on_obj remove_props_if_any z).
  Proof. intros z; parts z; reflexivity. Qed.
  Lemma named_flip : forall z, named z (h_flip_normals z).
  Proof. intros z; parts z; reflexivity. Qed.
  Lemma named_unused : forall z z', h_remove_unused z = Ok z' -> named z z'.
  Proof. intros z z' E; apply bind_ok in E as (m & _ & E); destruct (_ <? _); injection E as <-; reflexivity. Qed.
  Lemma named_merge : forall atol z z', h_merge argsort atol z = Ok z' -> named z z'.
  Proof. intros atol z z' E; apply bind_ok in E as (m & _ & E); destruct (keeps_array argsort _ _); injection E as <-; reflexivity. Qed.
  Lemma named_degenerated : forall rtol z z', h_remove_degenerated rtol z = Ok z' -> named z z'.
  Proof.
  intros rtol z z' E; unfold h_remove_degenerated in E; destruct (Rltb 0 _); [|discriminate E].
  apply bind_ok in E as ([p z2] & Q & E). apply bind_ok in E as (fs & _ & E); injection E as <-.
  eapply named_trans; [exact (named_query _ _ _ _ _ Q)|exact (named_props (replace_faces fs z2))].
  Qed.
  Lemma named_heal_normals : forall z z', h_heal_normals order z = Ok z' -> named z z'.
  Proof.
  intros z z' E; unfold h_heal_normals in E; apply bind_ok in E as ([c z1] & Q1 & E).
  apply bind_ok in E as ([[tri quad] z2] & Q2 & E). apply bind_ok in E as (st & _ & E). apply bind_ok in E as (z5 & E & F); injection F as <-.
  eapply named_trans; [exact (named_query _ _ _ _ _ Q1)|]. eapply named_trans; [exact (named_query _ _ _ _ _ Q2)|].
  eapply named_trans; [|apply named_props]. destruct (c_bounds c) as [|b bs]; [|injection E as <-; reflexivity].
  apply bind_ok in E as (zmax & _ & E); apply bind_ok in E as ([p z4] & Q & E).
  apply named_query in Q. eapply named_trans; [exact Q|]. destruct (Rltb _ 0); injection E as <-; [apply named_flip|reflexivity].
  Qed.
  Lemma named_scaling : forall op z z', h_scaling op z = Ok z' -> named z z'.
  Proof. intros op z z' E; apply bind_ok in E as (m & _ & E); injection E as <-. exact (named_props (replace_verts (verts m) z)). Qed.
  Lemma named_step : forall c z z' v, h_step argsort order c z = Ok (z', v) -> named z z'.
  Proof.
  intros c z z' v E; destruct c; cbn [h_step] in E; try (injection E as <- <-).
  all: try (apply bind_ok in E as ([u z1] & Q & E); injection E as <- <-; exact (named_query _ _ _ _ _ Q)).
  - reflexivity.
  - reflexivity.
  - parts z; reflexivity.
  - parts z; reflexivity.
  - parts z; reflexivity.
  - parts z; reflexivity.
  - parts z; reflexivity.
  - parts z; reflexivity.
  - apply bind_ok in E as (z1 & E & F); injection F as <- <-; exact (named_scaling _ _ _ E).
  - apply bind_ok in E as (z1 & E & F); injection F as <- <-; exact (named_scaling _ _ _ E).
  - apply bind_ok in E as (z1 & E & F); injection F as <- <-; exact (named_scaling _ _ _ E).
  - apply bind_ok in E as (z1 & E & F); injection F as <- <-; exact (named_scaling _ _ _ E).
  - apply named_flip.
  - apply bind_ok in E as (z1 & E & F); injection F as <- <-; exact (named_merge _ _ _ E).
  - apply bind_ok in E as (z1 & E & F); injection F as <- <-; exact (named_heal_normals _ _ E).
  - apply bind_ok in E as (z1 & E & F); injection F as <- <-; exact (named_unused _ _ E).
  - exact (named_props z).
  - apply bind_ok in E as (z1 & E & F); injection F as <- <-; exact (named_degenerated _ _ _ E).
  - apply bind_ok in E as (z1 & E & F); injection F as <- <-. unfold h_heal_mesh in E.
    apply bind_ok in E as (y1 & E1 & E); apply bind_ok in E as (y2 & E2 & E); apply bind_ok in E as (y3 & E3 & E).
    apply named_unused in E1; apply named_degenerated in E2; apply named_merge in E3; apply named_heal_normals in E.
    pose proof (named_props z) as N1. pose proof (named_props y3) as N2.
    exact (named_trans _ _ _ N1 (named_trans _ _ _ E1 (named_trans _ _ _ E2 (named_trans _ _ _ E3 (named_trans _ _ _ N2 E))))).
  - apply bind_ok in E as (z1 & E & F); injection F as <- <-. unfold h_triangulate in E.
    apply bind_ok in E as ([[t q] z2] & Q & E). apply bind_ok in E as (fs & _ & E); injection E as <-. exact (named_query _ _ _ _ _ Q).
  - apply bind_ok in E as (z1 & E & F); injection F as <- <-. unfold h_symmetrize in E; apply bind_ok in E as (m & _ & E); injection E as <-.
    reflexivity.
  - unfold h_mirror; set (y := fill_verts _ z). exact (named_flip y).
  - apply bind_ok in E as ([u z1] & Q & E); apply bind_ok in E as (b & _ & E); injection E as <- <-; exact (named_query _ _ _ _ _ Q).
  - apply bind_ok in E as (b & _ & E); injection E as <- <-; reflexivity.
  - apply bind_ok in E as (b & _ & E); injection E as <- <-; reflexivity.
  Qed.

  Lemma labels_nth : forall w k o, nth_error (w_meshes w) k = Some o -> nth k (labels w) (0, []) = (o_id o, o_name o).
  Proof. intros w k o E; apply nth_error_nth. unfold labels. exact (map_nth_error (fun o => (o_id o, o_name o)) _ _ E). Qed.
  Lemma labels_self : forall w k o z, nth_error (w_meshes w) k = Some o -> named (w_heap w, o) z -> labels (with_self w k z) = labels w.
  Proof.
  intros w k o z K N; unfold labels; cbn. revert k K; induction (w_meshes w) as [|x l IH]; intros [|k] K; cbn in *; try discriminate.
  - injection K as ->. unfold named, label in N; cbn in N; congruence.
  - f_equal; apply IH, K.
  Qed.
  Lemma labels_make : forall m name w, w_next (make m name w) = S (w_next w) /\
    labels (make m name w) = labels w ++ [(w_next w, if List.length name =? 0 then automatic (w_next w) else name)].
  Proof. intros m name w; split; [reflexivity|]. unfold labels, make; cbn. rewrite map_app; cbn. destruct name; reflexivity. Qed.
  Lemma act_labels : forall a w w' x, wf w -> act a w = Ok (w', x) -> (w_next w', labels w') = relabel a (w_next w, labels w).
  Proof.
  intros a w w' x W E; destruct a as [u|u|b u|b u|b u|v f name|k|k l|k ids|k b|k b|k c]; cbn [M_arrays.act] in E; cbn [relabel].
  - injection E as <- <-; reflexivity.
  - injection E as <- <-; reflexivity.
  - apply bind_ok in E as (y0 & A & E); destruct (length u =? length y0); [|discriminate E]; injection E as <- <-; reflexivity.
  - apply bind_ok in E as (y0 & A & E); destruct (length u =? length y0); [|discriminate E]; injection E as <- <-; reflexivity.
  - apply bind_ok in E as (y0 & A & E); destruct (length u =? length y0); [|discriminate E]; injection E as <- <-; reflexivity.
  - apply bind_ok in E as (vs & A & E); apply bind_ok in E as (fs & B & E).
    destruct (labels_make (mkMesh vs fs) name w) as [N L]. assert (w' = make (mkMesh vs fs) name w) as -> by congruence; rewrite N, L; reflexivity.
  - apply bind_ok in E as (o & A & E); apply mesh_at_ok in A; cbv zeta in E; injection E as <- <-. rewrite (labels_nth _ _ _ A).
    destruct (copied_spec (w_heap w) o) as (_ & _ & _ & _ & I & J); [apply W with k, A|].
    unfold labels; cbn [w_next w_meshes]; rewrite map_app; cbn [map]; rewrite I, J; reflexivity.
  - apply bind_ok in E as (o & A & E); apply mesh_at_ok in A; apply bind_ok in E as (o' & B & E); apply mesh_at_ok in B; apply bind_ok in E as (m & C & E).
    unfold label_name; rewrite (labels_nth _ _ _ A), (labels_nth _ _ _ B); cbn [snd].
    destruct (labels_make m (o_name o ++ M_text.s "_" ++ o_name o') w) as [N L]. assert (w' = make m (o_name o ++ M_text.s "_" ++ o_name o') w) as -> by congruence; rewrite N, L.
    replace (List.length _ =? 0) with false; [reflexivity|]. rewrite !app_length; cbn [M_text.s list_ascii_of_string List.length]. symmetry; apply Nat.eqb_neq; cbn; lia.
  - apply bind_ok in E as (o & A & E); apply mesh_at_ok in A; apply bind_ok in E as ((m & idv) & C & E).
    unfold label_name; rewrite (labels_nth _ _ _ A); cbn [snd].
    destruct (labels_make m (M_text.s "mesh_extracted_from_" ++ o_name o) w) as [N L]. assert (w' = make m (M_text.s "mesh_extracted_from_" ++ o_name o) w) as -> by congruence; rewrite N, L; reflexivity.
  - apply bind_ok in E as (o & A & E); apply mesh_at_ok in A; apply bind_ok in E as (u & B & E); injection E as <- <-.
    rewrite (labels_self w k o); [reflexivity|exact A|reflexivity].
  - apply bind_ok in E as (o & A & E); apply mesh_at_ok in A; apply bind_ok in E as (u & B & E); injection E as <- <-.
    rewrite (labels_self w k o); [reflexivity|exact A|reflexivity].
  - apply bind_ok in E as (o & A & E); apply mesh_at_ok in A; apply bind_ok in E as ((z & u) & B & E); injection E as <- <-.
    rewrite (labels_self w k o); [reflexivity|exact A|exact (named_step _ _ _ _ B)].
  Qed.
  Lemma exec_labels : forall p w w' l, wf w -> exec p w = Ok (w', l) -> (w_next w', labels w') = fold_left (fun c a => relabel a c) p (w_next w, labels w).
  Proof.
  induction p as [|a p IH]; intros w w' l W E; cbn [fold_left M_arrays.exec] in *; [congruence|].
  apply bind_ok in E as ((w1 & y) & A & E); apply bind_ok in E as ((w2 & l') & B & E); injection E as <- <-.
  rewrite <- (act_labels _ _ _ _ W A). apply (IH w1 w2 l'); [apply (act_fine _ _ _ _ _ _ W A)|exact B].
  Qed.

  (** Ids and origins *)
  Definition matching (n : nat) (ids og : list nat) : Prop := length ids = length og /\
    (forall i, i < length ids -> nth i ids 0 < n) /\ (forall i, i < length og -> nth i og 0 < length og) /\
    forall i j, i < length ids -> j < length ids -> (nth i ids 0 = nth j ids 0 <-> nth i og 0 = nth j og 0).
  Lemma nth_snoc : forall (l : list nat) x i, i < S (length l) -> nth i (l ++ [x]) 0 = if i =? length l then x else nth i l 0.
  Proof.
  intros l x i H; destruct (Nat.eqb_spec i (length l)) as [->|N]; [rewrite app_nth2, Nat.sub_diag by lia; reflexivity|apply app_nth1; lia].
  Qed.
  Lemma matching_new : forall n ids og, matching n ids og -> matching (S n) (ids ++ [n]) (og ++ [length og]).
  Proof.
  intros n ids og (L & A & B & C). unfold matching; rewrite !app_length; cbn; rewrite !Nat.add_1_r.
  split; [lia|split; [|split]].
  - intros i H; rewrite nth_snoc by exact H; destruct (Nat.eqb_spec i (length ids)); [lia|]. specialize (A i); lia.
  - intros i H; rewrite nth_snoc by exact H; destruct (Nat.eqb_spec i (length og)); [lia|]. specialize (B i); lia.
  - intros i j H K; rewrite !nth_snoc by lia. rewrite <- L.
    destruct (Nat.eqb_spec i (length ids)) as [I|I], (Nat.eqb_spec j (length ids)) as [J|J]; [tauto| | |apply C; lia].
    + pose proof (A j); pose proof (B j); lia.
    + pose proof (A i); pose proof (B i); lia.
  Qed.
  Lemma matching_copy : forall n ids og k, k < length ids -> matching n ids og -> matching n (ids ++ [nth k ids 0]) (og ++ [nth k og 0]).
  Proof.
  intros n ids og k K (L & A & B & C). unfold matching; rewrite !app_length; cbn; rewrite !Nat.add_1_r.
  split; [lia|split; [|split]].
  - intros i H; rewrite nth_snoc by exact H; destruct (Nat.eqb_spec i (length ids)); apply A; lia.
  - intros i H; rewrite nth_snoc by exact H. pose proof (B k); pose proof (B i); destruct (Nat.eqb_spec i (length og)); lia.
  - intros i j H J; rewrite !nth_snoc by lia. rewrite <- L.
    destruct (Nat.eqb_spec i (length ids)), (Nat.eqb_spec j (length ids)); try tauto; apply C; lia.
  Qed.
  Definition ids (w : world) : list nat := map o_id (w_meshes w).
  Lemma ids_labels : forall w, ids w = map fst (labels w).
  Proof. intros w; unfold ids, labels; rewrite map_map; reflexivity. Qed.
  Definition origin (a : action) (l : list nat) : list nat := origins [a] l.
  Lemma act_ids : forall a w w' x og, wf w -> act a w = Ok (w', x) -> matching (w_next w) (ids w) og -> matching (w_next w') (ids w') (origin a og).
  Proof.
  intros a w w' x og W E M. pose proof (act_labels _ _ _ _ W E) as L. rewrite ids_labels in *.
  assert (K : forall k, a = Copy k -> k < length (labels w)).
  { intros k ->; cbn [M_arrays.act] in E. apply bind_ok in E as (o & A & E); apply mesh_at_ok in A.
    unfold labels; rewrite map_length; apply nth_error_Some; congruence. }
  destruct a; cbn [relabel] in L; injection L as -> ->; cbn [origin origins]; try exact M; rewrite ?map_app; cbn [map fst]; try (apply matching_new, M).
  change (fst (nth k (labels w) (0, []))) with (fst (nth k (labels w) (0, @nil ascii))).
  replace (fst (nth k (labels w) (0, []))) with (nth k (map fst (labels w)) 0) by (exact (map_nth fst (labels w) (0, []) k)).
  apply matching_copy; [rewrite map_length; apply K; reflexivity|exact M].
  Qed.
  Lemma exec_ids : forall p w w' l og, wf w -> exec p w = Ok (w', l) -> matching (w_next w) (ids w) og -> matching (w_next w') (ids w') (origins p og).
  Proof.
  induction p as [|a p IH]; intros w w' l og W E M; cbn [M_arrays.exec] in E; [injection E as <- <-; exact M|].
  apply bind_ok in E as ((w1 & y) & A & E); apply bind_ok in E as ((w2 & l') & B & E); injection E as <- <-.
  pose proof (act_ids _ _ _ _ _ W A M) as M1.
  replace (origins (a :: p) og) with (origins p (origin a og)) by (destruct a; reflexivity).
  apply (IH w1 w2 l'); [apply (act_fine _ _ _ _ _ _ W A)|exact B|exact M1].
  Qed.
  Lemma exec_start : forall p w l, exec p start = Ok (w, l) -> matching (w_next w) (ids w) (origins p []).
  Proof.
  intros p w l E; apply (exec_ids p start w l []); [exact wf_start|exact E|].
  split; [reflexivity|split; [|split]]; intros; cbn in *; lia.
  Qed.
  Lemma origins_own : forall p l, existsb is_copy p = false -> (forall i, i < length l -> nth i l 0 = i) ->
    forall i, i < length (origins p l) -> nth i (origins p l) 0 = i.
  Proof.
  assert (S : forall l i, (forall i, i < length l -> nth i l 0 = i) -> i < length (l ++ [length l]) -> nth i (l ++ [length l]) 0 = i).
  { intros l i H I; rewrite app_length in I; cbn in I. rewrite nth_snoc by lia. destruct (Nat.eqb_spec i (length l)); [congruence|apply H; lia]. }
  induction p as [|a p IH]; intros l N H i I; [apply H, I|]. cbn [existsb] in N; apply orb_false_iff in N as [N1 N2].
  destruct a; cbn [origins] in *; try discriminate N1; apply IH; auto.
  Qed.
  Lemma digits_inj : forall i j, digits (N.of_nat i) = digits (N.of_nat j) -> i = j.
  Proof. intros i j E; apply Nat2N.inj; rewrite <- (digits_value_digits (N.of_nat i)), E; apply digits_value_digits. Qed.
  Lemma automatic_inj : forall i j, automatic i = automatic j -> i = j.
  Proof. intros i j E; apply app_inv_head in E; exact (digits_inj _ _ E). Qed.
  Lemma act_unnamed : forall a w w' x, wf w -> act a w = Ok (w', x) -> unnamed a = true ->
    (forall n t, In (n, t) (labels w) -> t = automatic n) -> forall n t, In (n, t) (labels w') -> t = automatic n.
  Proof.
  intros a w w' x W E U H n t I; pose proof (act_labels _ _ _ _ W E) as L.
  destruct a; cbn [relabel unnamed] in *; try discriminate U; injection L as _ L; rewrite L in I; try (exact (H _ _ I)).
  rewrite U in I; apply in_app_or in I as [I|[I|[]]]; [exact (H _ _ I)|injection I as <- <-; reflexivity].
  Qed.
  Lemma exec_unnamed : forall p w w' l, wf w -> exec p w = Ok (w', l) -> forallb unnamed p = true ->
    (forall n t, In (n, t) (labels w) -> t = automatic n) -> forall n t, In (n, t) (labels w') -> t = automatic n.
  Proof.
  induction p as [|a p IH]; intros w w' l W E U H; cbn in *; [injection E as <- <-; exact H|].
  apply andb_true_iff in U as [U1 U2].
  apply bind_ok in E as ((w1 & y) & A & E); apply bind_ok in E as ((w2 & l') & B & E); injection E as <- <-.
  apply (IH w1 w2 l'); [apply (act_fine _ _ _ _ _ _ W A)|exact B|exact U2|exact (act_unnamed _ _ _ _ W A U1 H)].
  Qed.
End Programs.
