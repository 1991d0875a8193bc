(** Putting together the meshes named in .inp files. *)
From Coq Require Import Ascii String List Arith NArith ZArith Bool Lia.
From Verif Require Import M_base M_merge M_mesh M_text M_mmio S_text S_files P_text P_mmio P_formats M_regex M_files P_regex P_hst P_tec P_layout P_dat P_msh M_formats M_inp S_inp P_inp P_inp2.
Import ListNotations.
Local Open Scope nat_scope.

Section Assembly.
  Variable add : num -> num -> num.
  Variable frames : list (text * list num).
  Variable bodies : list (text * body).
  Variable idx : nat.
  Lemma translate_three : forall x y z rows, translate add [x; y; z] rows = Ok (map (moved add [x; y; z]) rows). Proof. reflexivity. Qed.
  (** A line *NODE, with its file and its frame *)
  Definition node_field (f g : text) (opts : list opt) : Prop := Forall opt_ok opts /\ gives "INPUT" f opts /\ gives "FRAME" g opts.
  Definition elem_field (f : text) (opts : list opt) : Prop := Forall opt_ok opts /\ gives "INPUT" f opts.
  Definition knows_frame (g : text) (v : list num) : Prop := length v = 3 /\ lookup g frames = Some v.
  Lemma node_step : forall f g v b opts st, node_field f g opts -> knows_frame g v -> lookup f bodies = Some b ->
    step add frames bodies idx (dict_of (true, opts)) st =
    let rows := map (moved add v) (nodes b) in
    match a_vertices st with
    | None => Ok (Asm (Some rows) (a_faces st) (Some false) (used st))
    | Some [] => Ok (Asm (Some rows) (a_faces st) (Some false) (used st))
    | Some vs =>
        do inc <- item "INCREMENT" (dict_of (true, opts));
        if list_eq_dec ascii_dec inc (s "NO")
        then do vs' <- assign_row idx rows vs; Ok (Asm (Some vs') (a_faces st) (Some false) (used st))
        else Ok (Asm (Some (vs ++ rows)) (a_faces st) (Some true) (used st))
    end.
  Proof.
    intros f g v b opts st (O & F & G) [L E] B. unfold step. rewrite (given _ _ true _ F), (typed true _ O), (given _ _ true _ G). cbn [bind type_of]. rewrite B. cbn [bind]. destruct (list_eq_dec ascii_dec (s "NODE") (s "NODE")); [|congruence]. rewrite E. cbn [bind].
    destruct v as [|x [|y [|z [|? ?]]]]; try discriminate. rewrite translate_three. reflexivity.
  Qed.
  Definition counter (f : text) (st : assembly) : nat := match lookup f (used st) with Some n => n | None => 0 end.
  Definition shifted (inc : bool) (n : nat) (rows : list (list Z)) : list (list Z) := if inc then map (map (fun z => (z + Z.of_nat n)%Z)) rows else rows.
  Definition more_faces (st : assembly) : list (list Z) := match a_faces st with Some fs => fs | None => [] end.
  Lemma elem_step : forall f b opts st inc, elem_field f opts -> lookup f bodies = Some b -> increment st = Some inc -> counter f st < length (sections b) ->
    step add frames bodies idx (dict_of (false, opts)) st =
    Ok (Asm (a_vertices st) (Some (more_faces st ++ shifted inc (count (a_vertices st)) (nth (counter f st) (sections b) []))) (Some inc)
            ((f, if S (counter f st) =? length (sections b) then 0 else S (counter f st)) :: used st)).
  Proof.
    intros f b opts st inc (O & F) B I C. unfold step. rewrite (given _ _ false _ F), (typed false _ O). cbn [bind type_of]. rewrite B. cbn [bind]. destruct (list_eq_dec ascii_dec (s "ELEMENT") (s "NODE")); [discriminate|].
    fold (counter f st). rewrite (nth_error_nth' _ [] C), I. unfold more_faces, shifted. destruct (a_faces st), inc; reflexivity.
  Qed.
  Lemma counter_next : forall f b st fs i vs n, counter f (Asm vs fs i ((f, if S n =? length (sections b) then 0 else S n) :: used st)) = if S n =? length (sections b) then 0 else S n.
  Proof. intros. unfold counter. cbn [used lookup]. destruct (list_eq_dec ascii_dec f f); [auto|congruence]. Qed.
  Lemma mod_next : forall n k, n < k -> (if S n =? k then 0 else S n) = S n mod k.
  Proof. intros n k L. destruct (S n =? k) eqn:E; [apply Nat.eqb_eq in E; subst; rewrite Nat.mod_same; auto|apply Nat.eqb_neq in E; rewrite Nat.mod_small; lia]. Qed.
  (** Lines *ELEMENT for one file *)
  Lemma elems_steps : forall f b inc es st rest, Forall (elem_field f) es -> lookup f bodies = Some b -> increment st = Some inc -> counter f st < length (sections b) ->
    exists us, assemble add frames bodies idx (map dict_of (map (pair false) es) ++ rest) st =
      assemble add frames bodies idx rest (Asm (a_vertices st) (match es with [] => a_faces st | _ => Some (more_faces st ++ shifted inc (count (a_vertices st)) (concat (map (fun k => nth ((counter f st + k) mod length (sections b)) (sections b) []) (seq 0 (length es))))) end) (Some inc) us).
  Proof.
    intros f b inc es. induction es as [|e es IH]; intros st rest F B I C; [exists (used st); cbn [map app]; rewrite <- I; destruct st; reflexivity|].
    inversion F; subst. cbn [map app assemble]. rewrite (elem_step f b e st inc H1 B I C). cbn [bind]. set (st' := Asm _ _ _ _).
    assert (C' : counter f st' = S (counter f st) mod length (sections b)) by (unfold st'; rewrite counter_next; apply mod_next; auto).
    destruct (IH st' rest H2 B eq_refl) as (us & E); [rewrite C'; apply Nat.mod_upper_bound; lia|]. exists us. rewrite E. do 2 f_equal.
    assert (M : forall n, shifted inc n (concat (map (fun k => nth ((counter f st + k) mod length (sections b)) (sections b) []) (seq 0 (length (e :: es))))) =
                shifted inc n (nth (counter f st) (sections b) []) ++ shifted inc n (concat (map (fun k => nth ((counter f st' + k) mod length (sections b)) (sections b) []) (seq 0 (length es))))).
    { intros n. cbn [length seq map concat]. rewrite Nat.add_0_r, Nat.mod_small by auto. rewrite <- seq_shift, map_map. rewrite C'.
      assert (Q : map (fun x => nth ((counter f st + S x) mod length (sections b)) (sections b) []) (seq 0 (length es)) = map (fun k => nth ((S (counter f st) mod length (sections b) + k) mod length (sections b)) (sections b) []) (seq 0 (length es))).
      { apply map_ext. intros k. rewrite Nat.add_mod_idemp_l by lia. f_equal. f_equal. lia. }
      rewrite Q. unfold shifted. destruct inc; [rewrite map_app|]; reflexivity. }
    destruct es as [|e' es].
    - unfold st'. cbn [a_faces]. rewrite M. cbn [length seq map concat]. unfold shifted at 3. destruct inc; cbn [map]; rewrite app_nil_r; reflexivity.
    - rewrite M. unfold st' at 1 2. cbn [more_faces a_faces a_vertices]. rewrite <- app_assoc. reflexivity.
  Qed.
  (** Lines *ELEMENT for any files *)
  Definition counters_ok (st : assembly) : Prop := forall f b, lookup f bodies = Some b -> counter f st < length (sections b).
  Lemma counters_next : forall f b st vs fs i, counters_ok st -> lookup f bodies = Some b -> counters_ok (Asm vs fs i ((f, if S (counter f st) =? length (sections b) then 0 else S (counter f st)) :: used st)).
  Proof.
    intros f b st vs fs i C B g b' B'. unfold counter at 1. cbn [used lookup]. destruct (list_eq_dec ascii_dec g f) as [->|N].
    - rewrite B in B'. injection B' as <-. pose proof (C f b B). destruct (S (counter f st) =? length (sections b)) eqn:E; [lia|apply Nat.eqb_neq in E; lia].
    - apply (C g b' B').
  Qed.
  Lemma any_elems_steps : forall es inc st rest, Forall (fun e => exists f b, elem_field f e /\ lookup f bodies = Some b) es -> increment st = Some inc -> counters_ok st ->
    exists us new, counters_ok (Asm None None None us) /\ length new = length es /\
      Forall (fun sec => exists f b, lookup f bodies = Some b /\ In sec (sections b)) new /\
      assemble add frames bodies idx (map dict_of (map (pair false) es) ++ rest) st =
      assemble add frames bodies idx rest (Asm (a_vertices st) (match es with [] => a_faces st | _ => Some (more_faces st ++ shifted inc (count (a_vertices st)) (concat new)) end) (Some inc) us).
  Proof.
    intros es inc. induction es as [|e es IH]; intros st rest F I C.
    - exists (used st), []. split; [intros f b B; apply (C f b B)|]. split; [auto|]. split; [constructor|]. cbn [map app]. rewrite <- I. destruct st; reflexivity.
    - inversion F as [|? ? (f & b & E & B) F']; subst. cbn [map app assemble]. rewrite (elem_step f b e st inc E B I (C f b B)). cbn [bind]. set (st' := Asm _ _ _ _).
      destruct (IH st' rest F' eq_refl) as (us & new & CU & L & N & Q); [apply counters_next; auto|]. exists us, (nth (counter f st) (sections b) [] :: new). split; [auto|]. split; [cbn [length]; rewrite L; auto|].
      split; [constructor; [exists f, b; split; [auto|apply nth_In; apply (C f b B)]|auto]|]. rewrite Q. do 2 f_equal.
      assert (M : forall n, shifted inc n (concat (nth (counter f st) (sections b) [] :: new)) = shifted inc n (nth (counter f st) (sections b) []) ++ shifted inc n (concat new)).
      { intros n. cbn [concat]. unfold shifted. destruct inc; [rewrite map_app|]; reflexivity. }
      rewrite M. destruct es as [|e' es].
      + destruct new; [|discriminate]. unfold st'. cbn [a_faces concat]. unfold shifted at 3. destruct inc; cbn [map]; rewrite app_nil_r; reflexivity.
      + unfold st' at 1 2. cbn [more_faces a_faces a_vertices]. rewrite <- app_assoc. reflexivity.
  Qed.
End Assembly.
