(** Lemmas about SpecGpos.v: in a plain text every token stands at its position, and so does every part of a document. *)
From Verif Require Import GlexFacts GlayoutFacts CliFacts SpecGpos.
From Verif Require Import BaseFacts.
From Coq Require Import Lia.

Lemma move_app a : forall b p, move_over (a +++ b) p = move_over b (move_over a p).
Proof. induction a as [|c a IH]; intros b p; auto. cbn [String.append move_over]. apply IH. Qed.
Lemma all_app P a b : all P (a +++ b) <-> all P a /\ all P b.
Proof. induction a as [|c a IH]; cbn; [tauto|]. rewrite IH. tauto. Qed.
Lemma plain_app a b : plain_text (a +++ b) -> plain_text a /\ plain_text b.
Proof.
  intros [A O]. apply all_app in A. destruct A as [A B]. split; split; auto; intros (x & y & ->); apply O.
  - exists x, (y +++ b). rewrite !sapp_assoc. reflexivity.
  - exists (a +++ x), y. rewrite !sapp_assoc. reflexivity.
Qed.
Lemma comment_move b : forall p, all (fun d => ~ line_end d) b -> exists q, move_over b p = q /\ pos_line q = pos_line p.
Proof.
  induction b as [|c b IH]; intros p A; [eexists; split; reflexivity|]. cbn [all] in A. destruct A as [C A]. cbn [move_over].
  destruct (N.eqb (code c) 10) eqn:E; [byte E; exfalso; apply C; left; exact E|]. destruct (IH (if tail_byte c then p else at_col 1 p) A) as (q & Q & L).
  exists q. split; auto. rewrite L. destruct (tail_byte c); reflexivity.
Qed.
Lemma gap_move p w q : gap p w q -> plain_text w -> q = move_over w p.
Proof.
  intros G. induction G as [p|p w q G IH|p w q G IH|p w q G IH|p w q G IH|p w q G IH|p w q G IH|p b c w q A C G IH]; intros Pl.
  - reflexivity.
  - apply (plain_app (just " ")) in Pl. exact (IH (proj2 Pl)).
  - apply (plain_app (just ",")) in Pl. exact (IH (proj2 Pl)).
  - destruct Pl as [[[T _] _] _]. exfalso. apply T. reflexivity.
  - apply (plain_app (just (ascii_of_nat 10))) in Pl. exact (IH (proj2 Pl)).
  - destruct Pl as [[[_ T] _] _]. exfalso. apply T. reflexivity.
  - destruct Pl as [_ O]. exfalso. apply O. exists "", w. reflexivity.
  - apply (plain_app (just "#")) in Pl. destruct Pl as [_ Pl]. apply plain_app in Pl. destruct Pl as [_ Pl].
    destruct C as [-> | ->]; [|destruct Pl as [[[_ T] _] _]; exfalso; apply T; reflexivity].
    apply (plain_app (just (ascii_of_nat 10))) in Pl. rewrite (IH (proj2 Pl)).
    change (String "#" (b +++ String (ascii_of_nat 10) w)) with (just "#" +++ (b +++ (just (ascii_of_nat 10) +++ w))). rewrite !move_app.
    destruct (comment_move b (move_over (just "#") p) A) as (q0 & -> & L). f_equal. unfold to_below. cbn. unfold at_line. rewrite L. reflexivity.
Qed.

(** [whole] is what precedes and what remains *)
Lemma tokens_stand ck : forall p text ts, tokens_of ck p text ts -> forall before, plain_text (before +++ text) -> p = move_over before start_pos ->
  forall q t, In (q, t) ts -> exists b x r, before +++ text = b +++ x +++ r /\ SpecGtext.written ck t x r /\ q = move_over b start_pos.
Proof.
  intros p text ts T. induction T as [p w G|p w q t x q' r ts G W S T IH]; intros before Pl Ep q0 t0 I; [destruct I|].
  assert (Eq : q = move_over (before +++ w) start_pos).
  { rewrite move_app, <- Ep. apply gap_move; auto. apply plain_app in Pl. destruct Pl as [_ Pl]. apply plain_app in Pl. apply Pl. }
  destruct I as [E|I].
  - injection E as <- <-. exists (before +++ w), x, r. rewrite !sapp_assoc. auto.
  - destruct (IH (before +++ w +++ x)) with (q := q0) (t := t0) as (b & y & z & E & W' & Q); auto.
    + rewrite !sapp_assoc. auto.
    + apply spans_move in S. rewrite S, Eq, <- sapp_assoc, !move_app. reflexivity.
    + exists b, y, z. rewrite !sapp_assoc in E. auto.
Qed.

(** Where a prefix ends *)
Lemma move_letters x : forall p, lacks_line x -> move_over x p = to_right (letters x) p.
Proof. intros p L. symmetry. apply spans_move. constructor. auto. Qed.
Lemma last_line b : exists above left, b = above +++ left /\ (above = "" \/ exists a, above = a +++ nl) /\ lacks_line left.
Proof.
  induction b as [|c b (u & l & -> & U & L)]; [exists "", ""; cbn; auto|].
  destruct U as [->|(a & ->)].
  - destruct (Ascii.eqb c (ascii_of_nat 10)) eqn:E.
    + apply Ascii.eqb_eq in E. subst c. exists nl, l. repeat split; auto. right. exists "". reflexivity.
    + apply Ascii.eqb_neq in E. exists "", (String c l). repeat split; auto.
  - exists (String c (a +++ nl)), l. repeat split; auto. right. exists (String c a). reflexivity.
Qed.
Lemma move_line x : forall p, pos_line (move_over x p) = pos_line p + count_nl x.
Proof.
  induction x as [|c x IH]; intros p; cbn [move_over count_nl]; [lia|]. rewrite IH.
  destruct (N.eqb (code c) 10) eqn:E.
  - byte E. subst c. cbn. lia.
  - byte E. assert (F : Ascii.eqb c (ascii_of_nat 10) = false) by (apply Ascii.eqb_neq; exact E). rewrite F. destruct (tail_byte c); cbn; lia.
Qed.
Lemma move_stands b x r : stands (b +++ x +++ r) (move_over b start_pos) x.
Proof.
  destruct (last_line b) as (u & l & -> & U & L). exists u, l, r. rewrite !sapp_assoc. repeat split; auto.
  - rewrite move_line. cbn. assert (Z : count_nl l = 0).
    { clear - L. induction l as [|c l IH]; auto. destruct L as [C L]. cbn [count_nl]. apply Ascii.eqb_neq in C. rewrite C, IH; auto. }
    rewrite count_nl_app, Z. lia.
  - rewrite move_app, (move_letters l _ L). cbn. assert (Q : pos_col (move_over u start_pos) = 1).
    { destruct U as [->|(a & ->)]; auto. rewrite move_app. reflexivity. }
    rewrite Q. lia.
Qed.

(** ** Parts of documents and their tokens *)
Definition tok_word (t : gtoken) (x : string) : Prop :=
  match t with GPunct q => x = punct_text q | GName n => x = n | _ => False end.
Definition marks (ts : list ptok) (p : pos) (x : string) : Prop := exists t, In (p, t) ts /\ tok_word t x.
Lemma marks_sub ts ts' p x : marks ts p x -> incl ts ts' -> marks ts' p x.
Proof. intros (t & I & W) S. exists t. auto. Qed.
Lemma written_word ck t x r w : SpecGtext.written ck t x r -> tok_word t w -> x = w.
Proof. intros W T. destruct W; cbn in T; auto; destruct T. Qed.
Lemma dirs_head x l : dirs_toks x l -> match l with [] => x = [] | _ :: _ => exists p r, x = (p, GPunct GAt) :: r end.
Proof. intros S. destruct S as [|ts a ts' l D S]; auto. destruct D. cbn. eauto. Qed.
Definition all_marked (ts : list ptok) (l : list selection) : Prop :=
  forall y, SpecDiag.written l y -> exists x, sel_word y x /\ marks ts (sel_pos y) x.
Definition sel_marked (ts : list ptok) (s : selection) : Prop := all_marked ts [s].
Lemma all_sub ts ts' l : all_marked ts l -> incl ts ts' -> all_marked ts' l.
Proof. intros M S y W. destruct (M y W) as (x & X & K). exists x. split; auto. eapply marks_sub; eauto. Qed.
Lemma nil_marked ts : all_marked ts [].
Proof. intros y W. remember [] as l eqn:E. destruct W; subst; destruct H. Qed.
Lemma one_marked ts s sub : (match s with SField _ _ _ _ _ l | SInline _ _ _ l => l | SSpread _ _ _ => [] end) = sub ->
  (exists x, sel_word s x /\ marks ts (sel_pos s) x) -> all_marked ts sub -> sel_marked ts s.
Proof.
  intros E H M y W. remember [s] as l eqn:El. destruct W as [l x I|l p al n a d sub' x I W|l p c d sub' x I W]; subst l; destruct I as [I|[]]; subst s; auto; subst sub; auto.
Qed.
Lemma cons_marked ts s l : sel_marked ts s -> all_marked ts l -> all_marked ts (s :: l).
Proof.
  intros S M y W. remember (s :: l) as k eqn:Ek. destruct W as [k x I|k p al n a d sub x I W|k p c d sub x I W]; subst k; destruct I as [I|I].
  - subst. apply S. constructor. left. auto.
  - apply M. constructor. auto.
  - subst. apply S. eapply wr_field; eauto. left. auto.
  - apply M. eapply wr_field; eauto.
  - subst. apply S. eapply wr_inline; eauto. left. auto.
  - apply M. eapply wr_inline; eauto.
Qed.
Ltac parts := repeat first [apply incl_appl; apply incl_refl | apply incl_tl | apply incl_appr | apply incl_refl].
Lemma sels_marked :
  (forall x s, sel_toks x s -> sel_marked x s) /\ (forall x l, set_toks x l -> all_marked x l) /\
  (forall x l, opt_set_toks x l -> all_marked x l) /\ (forall x l, sels_toks x l -> all_marked x l).
Proof.
  apply sel_toks_minds.
  - intros p n a args d dirs b sub A D _ B. eapply one_marked; [reflexivity| |].
    + exists n. split; [constructor|]. exists (GName n). split; [left; auto|reflexivity].
    + eapply all_sub; [exact B|]. apply incl_tl, incl_appr, incl_appr, incl_refl.
  - intros p n p1 p2 m a args d dirs b sub A D _ B. eapply one_marked; [reflexivity| |].
    + exists n. split; [constructor|]. exists (GName n). split; [left; auto|reflexivity].
    + eapply all_sub; [exact B|]. do 3 apply incl_tl. apply incl_appr, incl_appr, incl_refl.
  - intros p0 p n d dirs N D. eapply one_marked; [reflexivity| |apply nil_marked].
    exists n. split; [constructor|]. exists (GName n). split; [right; left; auto|reflexivity].
  - intros p0 p p1 c d dirs b sub D _ B. eapply one_marked; [reflexivity| |].
    + exists "on". split; [constructor|]. exists (GName "on"). split; [right; left; auto|reflexivity].
    + eapply all_sub; [exact B|]. do 3 apply incl_tl. apply incl_appr, incl_refl.
  - intros p0 p t r d dirs b sub D S B E. eapply one_marked; [reflexivity| |].
    + apply dirs_head in D. destruct dirs as [|x dirs].
      * subst d. cbn in E. exists "{". split; [constructor|]. exists (GPunct GOpenCu). split; [|reflexivity]. right. cbn.
        destruct S as [q ts s l q' S]. injection E as -> <- _. left. auto.
      * destruct D as (q & z & ->). exists "@". split; [constructor|]. exists (GPunct GAt). split; [|reflexivity]. right.
        cbn in E. injection E as -> _ _. left. auto.
    + eapply all_sub; [exact B|]. apply incl_tl, incl_appr, incl_refl.
  - intros p ts s l p' _ S. eapply all_sub; [exact S|]. apply incl_tl, incl_appl, incl_refl.
  - apply nil_marked.
  - auto.
  - apply nil_marked.
  - intros ts s ts' l _ S _ M. apply cons_marked; [eapply all_sub; [exact S|]; apply incl_appl, incl_refl|eapply all_sub; [exact M|]; apply incl_appr, incl_refl].
Qed.
Lemma vars_marked x l v : vars_toks x l -> In v l -> marks x (vd_pos v) "$".
Proof.
  intros V I. destruct V as [|p ts a l p' S]; [destruct I|]. destruct (series_in _ _ _ _ S I) as (y & W & Sub).
  exists (GPunct GDollar). split; [|reflexivity]. right. apply in_or_app. left. apply Sub. destruct W; left; auto.
Qed.
Lemma def_marked ts d p : def_toks ts d -> position_in d p -> exists x, part_at d p x /\ marks ts p x.
Proof.
  intros D P. destruct P as [|v I|P l y R W].
  - exists (def_word d). split; [constructor|]. destruct D as [p ts r sels S F|k p n name v vars ds dirs b sels N V D B|p p1 n p2 p3 c ds dirs b sels D B]; cbn.
    + subst. exists (GPunct GOpenCu). split; [left; auto|reflexivity].
    + exists (GName (keyword k)). split; [left; auto|reflexivity].
    + exists (GName "fragment"). split; [left; auto|reflexivity].
  - exists "$". split; [constructor; auto|]. destruct D as [p ts r sels S F|k p n name v' vars ds dirs b sels N V D B|p p1 n p2 p3 c ds dirs b sels D B]; cbn in I; try (destruct I; fail).
    eapply marks_sub; [eapply vars_marked; eauto|]. apply incl_tl, incl_appr, incl_appl, incl_refl.
  - assert (M : all_marked ts l).
    { destruct D as [p ts r sels S F|k p n name v' vars ds dirs b sels N V D B|p p1 n p2 p3 c ds dirs b sels D B]; cbn in R; try discriminate; injection R as <- <-;
      (eapply all_sub; [apply (proj1 (proj2 sels_marked)); eauto|]); [|do 4 apply incl_tl; apply incl_appr, incl_refl].
      apply incl_tl, incl_appr, incl_appr, incl_appr, incl_refl. }
    destruct (M y W) as (x & X & K). exists x. split; [econstructor; eauto|auto].
Qed.

(** ** The line shown *)
Lemma lacks_count x : lacks_line x <-> count_nl x = 0.
Proof.
  unfold lacks_line. induction x as [|c x IH]; [cbn; tauto|]. cbn [all count_nl]. destruct (Ascii.eqb c (ascii_of_nat 10)) eqn:E.
  - apply Ascii.eqb_eq in E. split; [tauto|lia].
  - apply Ascii.eqb_neq in E. rewrite Nat.add_0_l. tauto.
Qed.
Lemma first_line r : exists a b, r = a +++ b /\ lacks_line a /\ (b = "" \/ exists z, b = nl +++ z).
Proof.
  induction r as [|c r (a & b & -> & A & B)]; [exists "", ""; cbn; auto|]. destruct (Ascii.eqb c (ascii_of_nat 10)) eqn:E.
  - apply Ascii.eqb_eq in E. subst c. exists "", (String (ascii_of_nat 10) (a +++ b)). repeat split; auto. right. exists (a +++ b). reflexivity.
  - apply Ascii.eqb_neq in E. exists (String c a), b. repeat split; auto.
Qed.
Lemma stands_points text p x h : plain_text text -> x <> "" -> lacks_line x -> stands text p x -> points (loc_with_help (loc_position text p) h) text p x.
Proof.
  intros Pl Ne Lx (u & l & r & E & U & L & El & Ec). destruct (first_line r) as (a & b & -> & A & B).
  assert (Lo : line_of text (pos_line p) (l +++ x +++ a)).
  { exists u, b. repeat split; auto.
    - rewrite E, !sapp_assoc. reflexivity.
    - apply lacks_count. unfold lacks_line in *. rewrite !all_app. auto.
    - destruct B; auto. }
  assert (F : nth_error (lines text) (pos_line p - 1) = Some (l +++ x +++ a)).
  { apply line_found; auto.
    - intros Q. destruct l; [|discriminate]. destruct x; [congruence|discriminate].
    - intros z Q. rewrite E in Pl. replace (u +++ l +++ x +++ a +++ b) with (u +++ (z +++ String (ascii_of_nat 13) "") +++ b) in Pl by (rewrite <- Q, !sapp_assoc; reflexivity).
      apply plain_app in Pl. destruct Pl as [_ Pl]. apply plain_app in Pl. destruct Pl as [Pl _]. apply plain_app in Pl. destruct Pl as [_ [[[_ T] _] _]]. apply T. reflexivity. }
  destruct h as [h|]; unfold points, loc_with_help, loc_position; cbn [lo_number lo_column lo_line]; rewrite F; (split; [reflexivity|]); (split; [reflexivity|]); (split; [exact Lo|]);
  exists l, a; (split; [reflexivity|lia]).
Qed.
Lemma sel_word_fine ck t x r w : SpecGtext.written ck t x r -> tok_word t w -> w <> "" /\ lacks_line w.
Proof.
  intros W T. destruct W as [q r|c n r C N F|c n r C N F K|b r B K F|b r B]; cbn in T; try (destruct T; fail); subst w.
  - destruct q; (split; [intros Q; discriminate Q|]); vm_compute; repeat split; intros Q; discriminate Q.
  - split; [discriminate|]. assert (X : forall c, name_part c -> c <> ascii_of_nat 10).
    { intros d D ->. unfold name_part, name_begin in D. cbn in D. lia. }
    split; [apply X; left; auto|]. clear - X N. induction n as [|d n IH]; cbn in *; auto. destruct N. split; auto.
Qed.
Lemma doc_points ck text ds d p h : plain_text text -> text_says ck text ds -> In d ds -> position_in d p ->
  exists x, part_at d p x /\ stands text p x /\ points (loc_with_help (loc_position text p) h) text p x.
Proof.
  intros Pl (_ & ts & T & _ & S) I P. destruct (series_in _ _ _ _ S I) as (y & D & Sub).
  destruct (def_marked _ _ _ D P) as (x & X & (t & J & W)). apply Sub in J.
  destruct (tokens_stand _ _ _ _ T "" Pl eq_refl _ _ J) as (b & x' & r & E & Wr & Q).
  pose proof (sel_word_fine _ _ _ _ _ Wr W) as [Ne Lx]. assert (x' = x) by (eapply written_word; eauto). subst x'.
  cbn in E. assert (St : stands text p x) by (rewrite E, Q; apply move_stands). exists x. split; auto. split; auto. apply stands_points; auto.
Qed.
