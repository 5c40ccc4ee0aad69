(** Lemmas about positions in texts with tabs, carriage returns and byte order marks. *)
From Verif Require Import GlexFacts GlayoutFacts CliFacts SpecGpos GposFacts.
From Verif Require Import BaseFacts.
From Coq Require Import Lia.

(** The text after the last line feed is plain *)
Definition plain_end (b : string) : Prop := forall u l, b = u +++ l -> lacks_line l -> plain_text l.
(** The position [p] has the line of [p'], and its column if the end of [b] is plain *)
Definition agrees (p p' : pos) (b : string) : Prop := pos_line p = pos_line p' /\ (plain_end b -> pos_col p = pos_col p').

Lemma plain_end_app b w : lacks_line w -> plain_end (b +++ w) -> plain_end b.
Proof.
  intros L P u l -> Ll. assert (X : plain_text (l +++ w)).
  { apply (P u); [rewrite sapp_assoc; reflexivity|]. unfold lacks_line. rewrite all_app. auto. }
  apply plain_app in X. apply X.
Qed.
Lemma lacks_one c : c <> ascii_of_nat 10 -> lacks_line (just c).
Proof. intros N. split; [exact N|exact I]. Qed.
Lemma agrees_move x : forall p p' b, agrees p p' b -> agrees (move_over x p) (move_over x p') (b +++ x).
Proof.
  induction x as [|c x IH]; intros p p' b A; [rewrite sapp_nil_r; exact A|]. cbn [move_over].
  change (String c x) with (just c +++ x). rewrite <- sapp_assoc. apply IH. destruct A as [L C].
  destruct (N.eqb (code c) 10) eqn:E; [split; cbn; [rewrite L; reflexivity|reflexivity]|].
  assert (Nc : c <> ascii_of_nat 10) by (byte E; exact E). split.
  - destruct (tail_byte c); cbn; exact L.
  - intros P. apply plain_end_app in P; [|apply lacks_one; exact Nc]. specialize (C P). destruct (tail_byte c); cbn; congruence.
Qed.
Lemma not_plain_end b w : lacks_line w -> ~ plain_text w -> ~ plain_end (b +++ w).
Proof. intros L N P. apply N. apply (P b w eq_refl L). Qed.
Lemma tame_app a b : tame_text (a +++ b) -> tame_text b.
Proof. intros T (x & y & r & -> & N). apply T. exists (a +++ x), y, r. rewrite sapp_assoc. auto. Qed.
Lemma tame_app_l a b : tame_text (a +++ b) -> tame_text a.
Proof. intros T (x & y & r & -> & N). apply T. exists x, y, (r +++ b). rewrite !sapp_assoc. cbn [String.append]. rewrite sapp_assoc. auto. Qed.
Lemma agrees_gap p w q : gap p w q -> tame_text w -> forall p' b, agrees p p' b -> agrees q (move_over w p') (b +++ w).
Proof.
  intros G. induction G as [p|p w q G IH|p w q G IH|p w q G IH|p w q G IH|p w q G IH|p w q G IH|p x c w q A C G IH]; intros T p' b Ag.
  - rewrite sapp_nil_r. exact Ag.
  - change (String " " w) with (just " " +++ w) in *. rewrite move_app, <- sapp_assoc. apply IH; [eapply tame_app; exact T|]. apply (agrees_move (just " ")) in Ag. exact Ag.
  - change (String "," w) with (just "," +++ w) in *. rewrite move_app, <- sapp_assoc. apply IH; [eapply tame_app; exact T|]. apply (agrees_move (just ",")) in Ag. exact Ag.
  - change (String (ascii_of_nat 9) w) with (just (ascii_of_nat 9) +++ w) in *. rewrite move_app, <- sapp_assoc. apply IH; [eapply tame_app; exact T|].
    destruct Ag as [L _]. split; [exact L|]. intros P. exfalso. revert P. apply not_plain_end; [apply lacks_one; discriminate|]. intros [[[X _] _] _]. apply X. reflexivity.
  - change (String (ascii_of_nat 10) w) with (just (ascii_of_nat 10) +++ w) in *. rewrite move_app, <- sapp_assoc. apply IH; [eapply tame_app; exact T|].
    destruct Ag as [L _]. split; cbn; [rewrite L; reflexivity|reflexivity].
  - change (String (ascii_of_nat 13) w) with (just (ascii_of_nat 13) +++ w) in *. rewrite move_app, <- sapp_assoc. apply IH; [eapply tame_app; exact T|].
    destruct Ag as [L _]. split; [exact L|]. intros P. exfalso. revert P. apply not_plain_end; [apply lacks_one; discriminate|]. intros [[[_ X] _] _]. apply X. reflexivity.
  - rewrite move_app, <- sapp_assoc. apply IH; [eapply tame_app; exact T|].
    destruct Ag as [L _]. split; [exact L|]. intros P. exfalso. revert P. apply not_plain_end; [repeat (split; [discriminate|]); exact I|]. intros [_ X]. apply X. exists "", "". reflexivity.
  - destruct C as [-> | ->]; [|exfalso; apply T; exists "", x, w; split; [reflexivity|exact A]].
    change (String "#" (x +++ String (ascii_of_nat 10) w)) with (just "#" +++ (x +++ (just (ascii_of_nat 10) +++ w))) in *. rewrite !move_app.
    replace (b +++ just "#" +++ x +++ just (ascii_of_nat 10) +++ w) with ((b +++ just "#" +++ x +++ just (ascii_of_nat 10)) +++ w) by (rewrite !sapp_assoc; reflexivity).
    apply IH; [do 3 eapply tame_app; exact T|]. destruct (comment_move x (move_over (just "#") p') A) as (q0 & -> & L'). destruct Ag as [L _].
    split; cbn; [rewrite L', L; reflexivity|reflexivity].
Qed.
Lemma tokens_agree ck : forall p text ts, tokens_of ck p text ts -> forall before, tame_text (before +++ text) -> agrees p (move_over before start_pos) before ->
  forall q t, In (q, t) ts -> exists b x r, before +++ text = b +++ x +++ r /\ SpecGtext.written ck t x r /\ agrees q (move_over b start_pos) b.
Proof.
  intros p text ts T. induction T as [p w G|p w q t x q' r ts G W S T IH]; intros before Tm Ep q0 t0 I; [destruct I|].
  assert (Eq : agrees q (move_over (before +++ w) start_pos) (before +++ w)).
  { rewrite move_app. eapply agrees_gap; [exact G| |exact Ep]. apply tame_app in Tm. apply tame_app_l in Tm. exact Tm. }
  destruct I as [E|I].
  - injection E as <- <-. exists (before +++ w), x, r. rewrite !sapp_assoc. auto.
  - destruct (IH (before +++ w +++ x)) with (q := q0) (t := t0) as (b & y & z & E & W' & Q); auto.
    + rewrite !sapp_assoc. auto.
    + apply spans_move in S. rewrite S, <- sapp_assoc, move_app. apply agrees_move. exact Eq.
    + exists b, y, z. rewrite !sapp_assoc in E. auto.
Qed.
Lemma plain_end_left u l : lacks_line l -> (u = "" \/ exists a, u = a +++ nl) -> plain_text l -> plain_end (u +++ l).
Proof.
  intros Ll U P v k E Lk.
  assert (X : exists z, l = z +++ k).
  { destruct U as [->|(a & ->)]; [exists v; exact E|].
    clear - E Lk Ll. revert v E. induction a as [|c a IH]; intros v E.
    - destruct v as [|d v]; [|injection E as <- E; exists v; exact E]. cbn in E. subst k. destruct Lk as [N _]. exfalso. apply N. reflexivity.
    - destruct v as [|d v]; [|injection E as <- E; exact (IH _ E)]. exfalso. cbn [String.append] in E. subst k. unfold lacks_line in Lk.
      change (String c ((a +++ nl) +++ l)) with (String c (a +++ nl) +++ l) in Lk. apply all_app in Lk. destruct Lk as [Lk _]. destruct Lk as [_ Lk]. apply all_app in Lk.
      destruct Lk as [_ [N _]]. apply N. reflexivity. }
  destruct X as (z & ->). apply plain_app in P. apply P.
Qed.
Lemma agrees_stands b x r p : agrees p (move_over b start_pos) b -> stands_on_line (b +++ x +++ r) p x.
Proof.
  intros [L C]. pose proof (last_line b) as (u & l & E & U & Ll). subst b. exists u, l, r. rewrite !sapp_assoc. repeat split; auto.
  - rewrite L, GposFacts.move_line. cbn. assert (Z : count_nl l = 0) by (apply lacks_count; exact Ll). rewrite count_nl_app, Z. lia.
  - intros P. rewrite C by (apply plain_end_left; auto). rewrite move_app, (move_letters l _ Ll). cbn. assert (Q : pos_col (move_over u start_pos) = 1).
    { destruct U as [->|(a & ->)]; auto. rewrite move_app. reflexivity. }
    rewrite Q. lia.
Qed.
Lemma strip_app l x : x <> "" -> strip_cr (l +++ x) = l +++ strip_cr x.
Proof.
  intros N. induction l as [|c l IH]; [reflexivity|]. cbn [String.append strip_cr]. rewrite IH. destruct (l +++ x) as [|d s] eqn:E; [|reflexivity].
  destruct l; [cbn in E; contradiction|discriminate].
Qed.
Lemma stands_shows text p x h : x <> "" -> lacks_line x -> all (fun c => c <> ascii_of_nat 13) x -> stands_on_line text p x ->
  shows (loc_with_help (loc_position text p) h) text p x.
Proof.
  intros Ne Lx Cx (u & l & r & E & U & L & El & Ec). destruct (first_line r) as (a & b & -> & A & B).
  assert (Sx : strip_cr x = x).
  { apply strip_cr_id. intros z ->. apply all_app in Cx. destruct Cx as [_ [N _]]. apply N. reflexivity. }
  assert (F : exists a', nth_error (lines text) (pos_line p - 1) = Some (l +++ x +++ a')).
  { assert (Nl : count_nl (l +++ x +++ a) = 0) by (apply lacks_count; unfold lacks_line in *; rewrite !all_app; auto).
    assert (G : exists a', nth_error (lines_from "" ((l +++ x +++ a) +++ b)) 0 = Some (l +++ x +++ a')).
    { rewrite lines_from_nonl by exact Nl. change ("" +++ l +++ x +++ a) with (l +++ x +++ a). destruct B as [->|(z & ->)].
      - exists a. cbn [lines_from]. destruct (l +++ x +++ a) eqn:Q; [|reflexivity]. exfalso. destruct l; [|discriminate]. destruct x; [congruence|discriminate].
      - rewrite lines_from_nl. cbn [nth_error]. destruct a as [|c a].
        + exists "". rewrite !sapp_nil_r, strip_app, Sx by exact Ne. reflexivity.
        + exists (strip_cr (String c a)). rewrite strip_app by (destruct x; discriminate). rewrite strip_app by discriminate. reflexivity. }
    destruct G as (a' & G). exists a'. subst text. unfold lines. replace (u +++ l +++ x +++ a +++ b) with (u +++ (l +++ x +++ a) +++ b) by (rewrite !sapp_assoc; reflexivity).
    destruct U as [->|(v & ->)].
    - cbn [count_nl] in El. rewrite El. exact G.
    - rewrite (sapp_assoc v nl). destruct (lines_from_pre v "" ((l +++ x +++ a) +++ b)) as (ls & Q & Ln). rewrite Q.
      rewrite count_nl_app in El. change (count_nl nl) with 1 in El. rewrite nth_error_app2 by lia. replace (pos_line p - 1 - List.length ls) with 0 by lia. exact G. }
  destruct F as (a' & F).
  assert (Lo : line_of text (pos_line p) (l +++ x +++ a')).
  { pose proof (lines_spec _ _ _ F) as X. replace (pos_line p - 1 + 1) with (pos_line p) in X by lia. exact X. }
  destruct h as [h|]; unfold shows, loc_with_help, loc_position; cbn [lo_number lo_column lo_line]; rewrite F; (split; [reflexivity|]); (split; [reflexivity|]); (split; [exact Lo|]);
  exists l, a'; (split; [reflexivity|]); intros P; rewrite (Ec P); reflexivity.
Qed.
Lemma word_no_return ck t x r w : SpecGtext.written ck t x r -> tok_word t w -> all (fun c => c <> ascii_of_nat 13) w.
Proof.
  intros W T. destruct W as [q r|c n r C N F|c n r C N F K|b r B K F|b r B]; cbn in T; try (destruct T; fail); subst w.
  - destruct q; vm_compute; repeat split; intros Q; discriminate Q.
  - assert (X : forall c, name_part c -> c <> ascii_of_nat 13).
    { intros d D ->. unfold name_part, name_begin in D. cbn in D. lia. }
    split; [apply X; left; auto|]. clear - X N. induction n as [|d n IH]; cbn in *; auto. destruct N. split; auto.
Qed.
Lemma doc_shows ck text ds d p h : tame_text text -> text_says ck text ds -> In d ds -> position_in d p ->
  exists x, part_at d p x /\ stands_on_line text p x /\ shows (loc_with_help (loc_position text p) h) text p x.
Proof.
  intros Tm (_ & ts & T & _ & S) I P. destruct (series_in _ _ _ _ S I) as (y & D & Sub).
  destruct (def_marked _ _ _ D P) as (x & X & (t & J & W)). apply Sub in J.
  destruct (tokens_agree _ _ _ _ T "" Tm (conj eq_refl (fun _ => eq_refl)) _ _ J) as (b & x' & r & E & Wr & Q).
  pose proof (sel_word_fine _ _ _ _ _ Wr W) as [Ne Lx]. pose proof (word_no_return _ _ _ _ _ Wr W) as Nc. assert (x' = x) by (eapply written_word; eauto). subst x'.
  cbn in E. assert (St : stands_on_line text p x) by (rewrite E; apply agrees_stands; exact Q). exists x. split; auto. split; auto. apply stands_shows; auto.
Qed.
