(** Keywords, file names, densities *)
From Coq Require Import Ascii String List Arith NArith ZArith Bool Lia.
From Verif Require Import M_base M_merge M_mesh M_text M_mmio M_formats S_formats.
Import ListNotations.
Local Open Scope nat_scope.

(** ** Dictionaries *)
Lemma lookup_some : forall A (d : list (text * A)) k a, lookup k d = Some a -> In (k, a) d.
Proof.
  induction d as [|[k' a'] d IH]; intros k a H; [discriminate|]. cbn in H. destruct (list_eq_dec ascii_dec k k') as [->|N]; [injection H as <-; cbn; auto|]. right. auto.
Qed.
Lemma lookup_none : forall A (d : list (text * A)) k, lookup k d = None <-> forall a, ~ In (k, a) d.
Proof.
  induction d as [|[k' a'] d IH]; intros k; cbn; [split; auto|]. destruct (list_eq_dec ascii_dec k k') as [->|N].
  - split; [discriminate|]. intros H. destruct (H a'). auto.
  - rewrite IH. split; intros H a; [intros [K|K]; [congruence|destruct (H a K)]|]. intros K. apply (H a). auto.
Qed.
Lemma lookup_in : forall A (d : list (text * A)) k a, NoDup (map fst d) -> In (k, a) d -> lookup k d = Some a.
Proof.
  induction d as [|[k' a'] d IH]; intros k a U I; [contradiction|]. cbn in U. inversion U as [|? ? U1 U2]; subst. cbn. destruct (list_eq_dec ascii_dec k k') as [->|N].
  - destruct I as [I|I]; [congruence|]. destruct U1. apply (in_map fst) in I. auto.
  - destruct I as [I|I]; [congruence|]. auto.
Qed.

(** Distinct keys, by computation *)
Definition same (a b : text) : bool := if list_eq_dec ascii_dec a b then true else false.
Fixpoint distinct (l : list text) : bool := match l with [] => true | a :: l' => negb (existsb (same a) l') && distinct l' end.
Lemma distinct_ok : forall l, distinct l = true -> NoDup l.
Proof.
  induction l as [|a l IH]; cbn; intros H; constructor; apply andb_prop in H as [H1 H2]; auto. intros I. apply negb_true_iff in H1.
  assert (E : existsb (same a) l = true) by (apply existsb_exists; exists a; split; auto; unfold same; destruct (list_eq_dec ascii_dec a a); congruence). congruence.
Qed.
Lemma dict_unique : NoDup (map fst extension_dict). Proof. apply distinct_ok. reflexivity. Qed.

Definition all_fmt : list fmt := [MAR; GDF; INP; DAT; HST; NAT; MSH; RAD; STL; VTU; VTP; VTK; TEC; MED; WRL; NEM; PNL; OBJ].
Lemma all_fmt_ok : forall f, In f all_fmt. Proof. intros []; cbn; tauto. Qed.

Lemma keyword_in_dict : forall k f, In k (keywords f) <-> In (k, (f, f)) extension_dict.
Proof.
  intros k f. split.
  - intros H. destruct f; cbn in H; repeat (destruct H as [<-|H]; [unfold extension_dict; cbn; tauto|]); contradiction.
  - intros H. cbn in H. repeat (destruct H as [H|H]; [injection H as <- <-; cbn; tauto|]); contradiction.
Qed.
Lemma dict_diagonal : forall k r w, In (k, (r, w)) extension_dict -> r = w.
Proof. intros k r w H. cbn in H. repeat (destruct H as [H|H]; [congruence|]); contradiction. Qed.
Lemma dict_keyword : forall k f, In k (keywords f) -> lookup k extension_dict = Some (f, f).
Proof. intros k f H. apply lookup_in; [apply dict_unique|]. apply keyword_in_dict. auto. Qed.
Lemma dict_unknown : forall k, (forall f, ~ In k (keywords f)) <-> lookup k extension_dict = None.
Proof.
  intros k. rewrite lookup_none. split; intros H.
  - intros [r w] I. pose proof (dict_diagonal k r w I). subst. apply keyword_in_dict in I. destruct (H _ I).
  - intros f I. apply keyword_in_dict in I. destruct (H _ I).
Qed.
Lemma known : forall k, know_extension k = true <-> exists f, In k (keywords f).
Proof.
  intros k. unfold know_extension. destruct (lookup k extension_dict) as [[r w]|] eqn:E.
  - split; auto. intros _. apply lookup_some in E. pose proof (dict_diagonal k r w E). subst. exists w. apply keyword_in_dict. auto.
  - split; [discriminate|]. intros [f I]. exfalso. exact (proj2 (dict_unknown k) E f I).
Qed.

(** ** Letters *)
Lemma upper_same : forall c d, same_letter c d <-> upper_char c = upper_char d.
Proof.
  intros c d. split.
  - intros [->|[H|H]]; auto; cbn in H; repeat (destruct H as [H|H]; [injection H as <- <-; reflexivity|]); contradiction.
  - assert (A : forall a, upper_char a = a \/ In (a, upper_char a) (combine small_letters capitals)).
    { intros [[] [] [] [] [] [] [] []]; cbn; tauto. }
    intros E. destruct (A c) as [C|C], (A d) as [D|D].
    + left. congruence.
    + right. right. rewrite <- E, C in D. auto.
    + right. left. rewrite E, D in C. auto.
    + rewrite E in C. left. revert C D. generalize (upper_char d). intros u C D. cbn in C, D.
      repeat (destruct C as [C|C]; [injection C as <- <-; repeat (destruct D as [D|D]; [congruence|]); contradiction|]); contradiction.
Qed.
Lemma upper_case : forall t u, same_but_case t u <-> upper t = upper u.
Proof.
  unfold same_but_case, upper. induction t as [|c t IH]; intros [|d u]; cbn; split; intros H; auto; try (inversion H; fail); try discriminate.
  - inversion H as [|? ? ? ? H1 H2]; subst. apply upper_same in H1. apply IH in H2. congruence.
  - injection H as H1 H2. constructor; [apply upper_same; auto|apply IH; auto].
Qed.
Lemma densities_unique : NoDup (map fst densities). Proof. apply distinct_ok. reflexivity. Qed.
Lemma densities_upper : forall k x, In (k, x) densities -> upper k = k.
Proof. intros k x H. cbn in H. repeat (destruct H as [H|H]; [injection H as <- <-; reflexivity|]); contradiction. Qed.

(** ** File names *)
Lemma rfind_none : forall c t, rfind c t = None <-> ~ In c t.
Proof.
  intros c. induction t as [|x t IH]; cbn; [split; auto|]. destruct (rfind c t).
  - split; [discriminate|]. intros H. destruct IH as [_ IH]. discriminate IH. tauto.
  - destruct (Ascii.eqb_spec x c) as [->|N]; split; try discriminate; auto.
    + intros H. exfalso. apply H. auto.
    + intros _ [E|E]; [auto|]. apply (proj1 IH eq_refl E).
Qed.
Lemma rfind_some : forall c t i, rfind c t = Some i <-> exists a b, t = a ++ c :: b /\ ~ In c b /\ length a = i.
Proof.
  intros c. induction t as [|x t IH]; intros i; cbn.
  - split; [discriminate|]. intros ([|] & b & H & _); discriminate.
  - destruct (rfind c t) as [j|] eqn:E.
    + split.
      * intros H. injection H as <-. destruct (proj1 (IH j) eq_refl) as (a & b & -> & N & L). exists (x :: a), b. cbn. auto.
      * intros (a & b & H & N & L). f_equal. destruct a as [|y a]; cbn in H; injection H as -> H.
        -- subst t. destruct (proj1 (IH j) eq_refl) as (a' & b' & H & _). exfalso. apply N. rewrite H. apply in_elt.
        -- enough (Some j = Some (length a)) by (cbn in L; congruence). apply IH. exists a, b. auto.
    + apply rfind_none in E. destruct (Ascii.eqb_spec x c) as [->|D].
      * split; [intros H; injection H as <-; exists [], t; auto|]. intros (a & b & H & N & L). destruct a as [|y a]; [cbn in L; congruence|]. cbn in H. injection H as -> H. destruct E. rewrite H. apply in_elt.
      * split; [discriminate|]. intros (a & b & H & N & L). destruct a as [|y a]; cbn in H; injection H as -> H; [congruence|]. destruct E. rewrite H. apply in_elt.
Qed.

Lemma last_dot_unique : forall (a b a' b' : text) c, a ++ c :: b = a' ++ c :: b' -> ~ In c b -> ~ In c b' -> a = a' /\ b = b'.
Proof.
  induction a as [|x a IH]; intros b a' b' c E N N'; destruct a' as [|x' a']; cbn in E.
  - injection E as ->. auto.
  - injection E as _ E. exfalso. apply N. rewrite E. apply in_elt.
  - injection E as _ E. exfalso. apply N'. rewrite <- E. apply in_elt.
  - injection E as <- E. destruct (IH b a' b' c E N N') as [-> ->]. auto.
Qed.
(** Every path is a directory and a name. *)
Lemma path_split : forall p, let start := match rfind "/" p with Some i => S i | None => 0 end in path (firstn start p) (skipn start p).
Proof.
  intros p start. unfold start. destruct (rfind "/" p) as [i|] eqn:E.
  - apply rfind_some in E as (a & b & -> & N & L). replace (a ++ "/"%char :: b) with ((a ++ s "/") ++ b) by (rewrite <- app_assoc; reflexivity).
    assert (K : length (a ++ s "/") = S i) by (rewrite app_length; cbn; lia). rewrite <- K, firstn_app, skipn_app, Nat.sub_diag, firstn_all, skipn_all. cbn. rewrite app_nil_r. split; auto. right. exists a. auto.
  - apply rfind_none in E. split; auto.
Qed.
Lemma path_unique : forall dir name dir' name', path dir name -> path dir' name' -> dir ++ name = dir' ++ name' -> dir = dir' /\ name = name'.
Proof.
  intros dir name dir' name' [N D] [N' D'] E. destruct D as [->|[d ->]], D' as [->|[d' ->]]; cbn in E.
  - auto.
  - exfalso. apply N. rewrite E, <- app_assoc. apply in_elt.
  - exfalso. apply N'. rewrite <- E, <- app_assoc. apply in_elt.
  - rewrite <- !app_assoc in E. cbn in E. apply last_dot_unique in E as [-> ->]; auto.
Qed.
Lemma has_other : forall t, existsb (fun c => negb (Ascii.eqb c ".")) t = true <-> exists c, In c t /\ c <> "."%char.
Proof.
  intros t. rewrite existsb_exists. split; intros (c & I & H); exists c; split; auto.
  - apply negb_true_iff in H. apply Ascii.eqb_neq in H. auto.
  - apply negb_true_iff. apply Ascii.eqb_neq. auto.
Qed.

Lemma splitext_ok : forall p, extension p (fst (splitext p)) (snd (splitext p)).
Proof.
  intros p. pose proof (path_split p) as P. cbv zeta in P. unfold splitext. set (start := match rfind "/" p with Some i => S i | None => 0 end) in *.
  set (dir := firstn start p) in *. set (name := skipn start p) in *. assert (E : p = dir ++ name) by (symmetry; apply firstn_skipn).
  assert (LD : start <= length p). { unfold start. destruct (rfind "/" p) eqn:F; [|lia]. apply rfind_some in F as (a & b & -> & _ & <-). rewrite app_length. cbn. lia. }
  assert (L : length dir = start) by (unfold dir; rewrite firstn_length; lia).
  destruct (rfind "." p) as [dot|] eqn:F; cbn [fst snd].
  - apply rfind_some in F as (a & b & F & N & LA).
    assert (FA : firstn dot p = a) by (rewrite F, <- LA, firstn_app, Nat.sub_diag, firstn_all; cbn; apply app_nil_r).
    assert (SA : skipn dot p = "."%char :: b) by (rewrite F, <- LA, skipn_app, Nat.sub_diag, skipn_all; reflexivity).
    assert (W : start <= dot -> a = dir ++ firstn (dot - start) name /\ name = firstn (dot - start) name ++ "."%char :: b).
    { intros Q. assert (A : a = dir ++ firstn (dot - start) name).
      { rewrite <- FA. rewrite E at 1. rewrite firstn_app, L. rewrite firstn_all2 by lia. auto. }
      split; auto. apply (app_inv_head dir). rewrite app_assoc, <- A, <- E. auto. }
    destruct ((start <=? dot) && existsb (fun c => negb (Ascii.eqb c ".")) (firstn (dot - start) name)) eqn:C; cbn [fst snd].
    + apply andb_prop in C as [C1 C2]. apply Nat.leb_le in C1. apply has_other in C2. destruct (W C1) as [W1 W2]. split; [symmetry; apply firstn_skipn|].
      exists dir, name. split; [exact P|]. split; [exact E|]. left. exists (firstn (dot - start) name), b. rewrite FA, SA. auto.
    + split; [symmetry; apply app_nil_r|]. exists dir, name. split; [exact P|]. split; [exact E|]. right. split; auto. intros stem e H NE c I.
      destruct (Nat.leb_spec start dot) as [Q|Q].
      * cbn [andb] in C. destruct (W Q) as [W1 W2]. rewrite W2 in H. apply last_dot_unique in H as [H1 H2]; auto. rewrite H1 in C.
        destruct (ascii_dec c "."%char) as [|D]; auto. assert (X : existsb (fun c => negb (Ascii.eqb c ".")) stem = true) by (apply has_other; eauto). congruence.
      * exfalso. assert (X : In "."%char name) by (rewrite H; apply in_elt).
        assert (Y : "."%char :: b = skipn dot dir ++ name) by (rewrite <- SA, E, skipn_app; replace (dot - length dir) with 0 by lia; reflexivity).
        destruct (skipn dot dir) as [|z q] eqn:Z; [apply (f_equal (@length _)) in Z; rewrite skipn_length in Z; cbn in Z; lia|].
        cbn in Y. injection Y as _ Y. apply N. rewrite Y. apply in_or_app. auto.
  - apply rfind_none in F. split; [symmetry; apply app_nil_r|]. exists dir, name. split; [exact P|]. split; [exact E|]. right. split; auto. intros stem e H. exfalso. apply F. rewrite E, H. apply in_or_app. right. apply in_elt.
Qed.
Lemma extension_unique : forall p b e b' e', extension p b e -> extension p b' e' -> b = b' /\ e = e'.
Proof.
  intros p b e b' e' (E & dir & name & P & PE & H) (E' & dir' & name' & P' & PE' & H').
  destruct (path_unique dir name dir' name' P P' (eq_trans (eq_sym PE) PE')) as [<- <-].
  destruct H as [(stem & x & -> & -> & NX & c & CI & CN)|[-> H]], H' as [(stem' & x' & -> & -> & NX' & c' & CI' & CN')|[-> H']].
  - rewrite E in E'. apply last_dot_unique in E' as [E1 ->]; auto.
  - exfalso. apply CN. apply (H' stem x); auto. apply (app_inv_head dir). rewrite <- PE, E, <- app_assoc. auto.
  - exfalso. apply CN'. apply (H stem' x'); auto. apply (app_inv_head dir). rewrite <- PE, E', <- app_assoc. auto.
  - rewrite !app_nil_r in *. split; congruence.
Qed.
Lemma upper_capitals : forall t u, in_capitals t u <-> u = upper t.
Proof.
  unfold in_capitals, upper. assert (C : forall c d, (In (c, d) (combine small_letters capitals) \/ c = d /\ ~ In c small_letters) <-> d = upper_char c).
  { intros c d. split.
    - intros [H|[<- H]]; [cbn in H; repeat (destruct H as [H|H]; [injection H as <- <-; reflexivity|]); contradiction|]. destruct c as [[] [] [] [] [] [] [] []]; try reflexivity; exfalso; apply H; cbn; tauto.
    - intros ->. destruct (in_dec ascii_dec c small_letters) as [I|I]; [left|right; split; auto].
      + cbn in I. repeat (destruct I as [<-|I]; [cbn; tauto|]). contradiction.
      + destruct c as [[] [] [] [] [] [] [] []]; try reflexivity; exfalso; apply I; cbn; tauto. }
  induction t as [|c t IH]; intros u; split; intros H.
  - inversion H. auto.
  - subst. constructor.
  - inversion H as [|? d ? u' H1 H2]; subst. cbn. apply C in H1. apply IH in H2. congruence.
  - subst. cbn. constructor; [apply C; auto|apply IH; auto].
Qed.
Lemma target_ok : forall f name place, written_at f name place <-> place = target f name.
Proof.
  intros f name place. destruct f; try reflexivity. unfold written_at, target. pose proof (splitext_ok name) as S. destruct (splitext name) as [root ext]. cbn [fst snd] in S. split.
  - intros (b & e & c & X & C & ->). destruct (extension_unique _ _ _ _ _ X S) as [-> ->]. apply upper_capitals in C. congruence.
  - intros ->. exists root, ext, (upper ext). split; auto. split; auto. apply upper_capitals. auto.
Qed.
Lemma writer_ok : forall ow date nt f name vs fs r, file_text ow date nt f name vs fs r <-> r = writer ow date nt f name vs fs.
Proof.
  intros ow date nt f name vs fs r. destruct f; try reflexivity. unfold file_text, writer. pose proof (splitext_ok name) as S. destruct (splitext name) as [root ext]. cbn [fst snd] in *. split.
  - intros (b & e & c & X & C & ->). destruct (extension_unique _ _ _ _ _ X S) as [-> ->]. apply upper_capitals in C. congruence.
  - intros ->. exists root, ext, (upper root). split; auto. split; auto. apply upper_capitals. auto.
Qed.
