(** Proofs about double precision: translations, scalings, witnesses. *)
From Coq Require Import Reals Lra Lia List Arith Bool ZArith Sorting.Permutation Psatz.
From Flocq Require Import Core.
From Verif Require Import M_base M_rotations M_merge M_plane M_mesh S_merge P_base P_merge P_mesh M_double S_double P_double P_double2 P_double3 P_double4 P_double5.
Import ListNotations.
Open Scope R_scope.

(** ** Translations *)
Lemma back_error : forall x t, double x -> double t -> Rabs (fl (fl (x + t) + - t) - x) <= 3 * u * (Rabs x + Rabs t).
Proof.
  intros x t X T. pose proof (fl_error_add x t X T) as E1.
  pose proof (fl_error_add (fl (x + t)) (- t) (fl_double _) (double_opp t T)) as E2.
  set (y := fl (x + t)) in *. pose proof (Rabs_triang x t) as TR. pose proof ulp1_pos. pose proof ulp1_small.
  assert (D : Rabs (y + - t - x) <= u * Rabs (x + t)) by (replace (y + - t - x) with (y - (x + t)) by ring; auto).
  assert (S : Rabs (y + - t) <= Rabs x + u * Rabs (x + t)).
  { replace (y + - t) with (x + (y + - t - x)) by ring. apply Rle_trans with (1 := Rabs_triang _ _). lra. }
  replace (fl (y + - t) - x) with ((fl (y + - t) - (y + - t)) + (y + - t - x)) by ring.
  apply Rle_trans with (1 := Rabs_triang _ _). pose proof (Rabs_pos x). pose proof (Rabs_pos t). pose proof (Rabs_pos (x + t)).
  assert (u * Rabs (y + - t) <= u * (Rabs x + u * Rabs (x + t))) by (apply Rmult_le_compat_l; lra).
  assert (u * Rabs (x + t) <= u * (Rabs x + Rabs t)) by (apply Rmult_le_compat_l; lra).
  assert (0 <= u * Rabs (x + t)) by (apply Rmult_le_pos; lra).
  assert (u * (u * Rabs (x + t)) <= 1 * (u * Rabs (x + t))) by (apply Rmult_le_compat_r; lra).
  assert (0 <= u * Rabs t) by (apply Rmult_le_pos; lra). lra.
Qed.
Lemma grid_opp : forall e x, on_grid e x -> on_grid e (- x).
Proof. intros e x (k & K & ->). exists (- k)%Z. split; [lia|]. rewrite opp_IZR. ring. Qed.
Lemma grid_sum : forall e x y, (-1074 <= e)%Z -> on_grid e x -> on_grid e y -> fl (x + y) = x + y.
Proof.
  intros e x y E X Y. apply double_fl. replace (x + y) with (x - - y) by ring. apply (grid_double e); auto. apply grid_opp. auto.
Qed.
Lemma grid_translate : forall e t m, (-1074 <= e)%Z -> on_grid e (vx t) -> on_grid e (vy t) -> on_grid e (vz t) ->
  Forall (fun v => on_grid e (vx v) /\ on_grid e (vy v) /\ on_grid e (vz v)) (verts m) -> translate_double t m = translate t m.
Proof.
  intros e t m E TX TY TZ F. unfold translate_double, translate. f_equal. apply map_ext_in. intros v I.
  rewrite Forall_forall in F. destruct (F v I) as (VX & VY & VZ). unfold vadd, fadd. f_equal; apply (grid_sum e); auto.
Qed.

(** ** Scalings *)
Lemma double_shift : forall x k, (0 <= k)%Z -> double x -> double (x * powerRZ 2 k).
Proof.
  intros x k K (m & e & M & E & ->). exists m, (e + k)%Z. split; [auto|]. split; [lia|]. rewrite powerRZ_add by lra. ring.
Qed.
Lemma scale_power : forall k m, (0 <= k)%Z -> Forall double_vec (verts m) -> scale_double (powerRZ 2 k) m = scale (powerRZ 2 k) m.
Proof.
  intros k m K F. unfold scale_double, scale, scaling. destruct (Rltb 0 (powerRZ 2 k)); auto. f_equal. f_equal.
  apply map_ext_in. intros v I. rewrite Forall_forall in F. destruct (F v I) as (VX & VY & VZ). unfold vscale, fmul.
  rewrite !double_fl by (apply double_shift; auto). f_equal; ring.
Qed.

(** ** Witnesses *)
Definition grain : R := 1 / 1152921504606846976.
Global Arguments grain : simpl never.
Lemma grain_double : double grain.
Proof.
  exists 1%Z, (-60)%Z. split; [lia|]. split; [lia|]. unfold grain, powerRZ.
  replace (2 ^ Pos.to_nat 60) with 1152921504606846976; [lra|]. symmetry. exact (pow_IZR 2 60).
Qed.
Lemma bpow_is : forall k n, (0 <= k)%Z -> (2 ^ k)%Z = n -> bpow radix2 k = IZR n.
Proof. intros k n K <-. symmetry. apply (IZR_Zpower radix2). auto. Qed.
Lemma fl_one_grain : fl (1 + grain) = 1.
Proof.
  rewrite (fl_eval 1 4503599627370496 (1 + grain)); [|lia| |].
  - change (1 - 53)%Z with (- (52))%Z. rewrite bpow_opp, (bpow_is 52 4503599627370496) by (auto; lia). field.
  - change (bpow radix2 (1 - 1)) with 1. change (bpow radix2 1) with 2. unfold grain. rewrite Rabs_pos_eq; lra.
  - change (53 - 1)%Z with 52%Z. rewrite (bpow_is 52 4503599627370496) by (auto; lia). unfold grain, Rabs. destruct Rcase_abs; lra.
Qed.
Lemma fl_one_less_grain : fl (1 - grain) = 1.
Proof.
  rewrite (fl_eval 0 9007199254740992 (1 - grain)); [|lia| |].
  - change (0 - 53)%Z with (- (53))%Z. rewrite bpow_opp, (bpow_is 53 9007199254740992) by (auto; lia). field.
  - change (bpow radix2 (0 - 1)) with (/ 2). change (bpow radix2 0) with 1. unfold grain. rewrite Rabs_pos_eq; lra.
  - change (53 - 0)%Z with 53%Z. rewrite (bpow_is 53 9007199254740992) by (auto; lia). unfold grain, Rabs. destruct Rcase_abs; lra.
Qed.
Lemma fl_two_grain : fl (2 + grain) = 2.
Proof.
  rewrite (fl_eval 2 4503599627370496 (2 + grain)); [|lia| |].
  - change (2 - 53)%Z with (- (51))%Z. rewrite bpow_opp, (bpow_is 51 2251799813685248) by (auto; lia). field.
  - change (bpow radix2 (2 - 1)) with 2. change (bpow radix2 2) with 4. unfold grain. rewrite Rabs_pos_eq; lra.
  - change (53 - 2)%Z with 51%Z. rewrite (bpow_is 51 2251799813685248) by (auto; lia). unfold grain, Rabs. destruct Rcase_abs; lra.
Qed.

(** Merging farther than the tolerance. *)
Definition apart_pair : list vec := [V3 1 0 0; V3 (- grain) 0 0].
Lemma apart_merged : forall argsort, sorting argsort ->
  exists uniq ids, merge_double argsort 1 coords apart_pair = Ok (uniq, ids) /\ nth_error ids 0 = nth_error ids 1.
Proof.
  intros argsort S. set (t := widest 1 (differences coords apart_pair)).
  assert (T : 1 + grain <= t).
  { apply widest_in; [|rewrite fl_one_grain; lra].
    replace (1 + grain) with (Rabs (1 - - grain)) by (unfold grain; rewrite Rabs_pos_eq; lra).
    apply in_differences; cbn; auto. }
  assert (G : 0 < grain) by (unfold grain; lra).
  destruct (merge_merged argsort S t ltac:(lra) vec coords apart_pair ltac:(discriminate)) as (uq & ids & M & MM).
  exists uq, ids. rewrite (merge_double_exact argsort vec coords apart_pair 1 double_1). fold t. split; auto.
  assert (W : forall a b c, In a apart_pair -> In b apart_pair -> In c coords -> Rabs (c a - c b) <= t).
  { intros a b c IA IB IC. cbn in IA, IB, IC.
    destruct IA as [<-|[<-|[]]]; destruct IB as [<-|[<-|[]]]; destruct IC as [<-|[<-|[<-|[]]]]; cbn [vx vy vz]; apply Rabs_le; lra. }
  refine (merge_separated argsort S t ltac:(lra) vec coords apart_pair ltac:(discriminate) uq ids 0 1 (V3 1 0 0) (V3 (- grain) 0 0) _ M eq_refl eq_refl _).
  - intros c a b d IC IA IB ID _ _. apply W; auto.
  - intros c IC. apply W; cbn; auto.
Qed.
