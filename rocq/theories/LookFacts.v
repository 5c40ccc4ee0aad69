(** The coloured report looks as meant. *)
From Coq Require Import DecimalString.
From Verif Require Import BaseFacts.
From Verif Require Export ScreenFacts SpecLook.

Lemma trun_app a b : forall m p, trun m p (a +++ b) =
  let '(o, m1, p1) := trun m p a in let '(o', m2, p2) := trun m1 p1 b in (o ++ o', m2, p2).
Proof.
  induction a as [|c a IH]; intros m p; cbn [trun String.append].
  - destruct (trun m p b) as [[o' m2] p2]. auto.
  - destruct (tstep m p c) as [[o m1] p1]. rewrite IH. destruct (trun m1 p1 a) as [[o1 m2] p2].
    destruct (trun m2 p2 b) as [[o2 m3] p3]. rewrite app_assoc. auto.
Qed.

(** [s] is shown as the pieces [l] and leaves the terminal as it was *)
Definition shows (s : string) (l : list piece) : Prop :=
  trun TText default_pen s = (written l, TText, default_pen).
Lemma shows_app a b l l' : shows a l -> shows b l' -> shows (a +++ b) (l ++ l').
Proof.
  unfold shows. intros Ha Hb. rewrite trun_app, Ha, Hb. unfold written. rewrite flat_map_app. auto.
Qed.
Lemma shows_nil : shows "" [].
Proof. reflexivity. Qed.

Lemma run_quiet s p : without_esc s = true -> trun TText p s = (write p s, TText, p).
Proof.
  induction s as [|c s IH]; cbn [trun without_esc]; intros H; [auto|].
  apply andb_true_iff in H as [Hc Hs]. apply negb_true_iff in Hc. unfold tstep. rewrite Hc, IH by auto. auto.
Qed.
Lemma shows_normal s : without_esc s = true -> shows s [normal s].
Proof.
  intros H. unfold shows. rewrite run_quiet by auto. unfold written, normal. cbn. rewrite app_nil_r. auto.
Qed.

Lemma escape_quiet st s : without_esc s = true -> escape_inner st s = s.
Proof.
  induction s as [|c s IH]; intros H; [auto|]. cbn [without_esc] in H. apply andb_true_iff in H as [Hc Hs].
  apply negb_true_iff in Hc. cbn [escape_inner]. rewrite IH by auto. unfold esc. rewrite Hc. cbn [andb].
  destruct s as [|? [|? [|? ?]]]; auto.
Qed.

Definition pen_of (k : ink) : pen :=
  {| pn_bold := ik_bold k;
     pn_colour := match ik_colour k with
                  | None => None | Some Red => Some red | Some Green => Some green
                  | Some Yellow => Some yellow | Some Blue => Some blue4 end |}.

Lemma shows_paint k s : real_ink k -> without_esc s = true -> shows (paint true k s) [(pen_of k, s)].
Proof.
  intros R H. unfold shows. rewrite paint_on, escape_quiet by auto. rewrite trun_app.
  assert (E : trun TText default_pen (compute_style k) = ([], TText, pen_of k)).
  { destruct k as [[|] [[| | |]|]]; try discriminate R; reflexivity. }
  rewrite E, trun_app, run_quiet by auto.
  assert (E' : trun TText (pen_of k) reset = ([], TText, default_pen)) by reflexivity.
  rewrite E'. unfold written. cbn. rewrite !app_nil_r. auto.
Qed.

Lemma quiet_app a b : without_esc (a +++ b) = without_esc a && without_esc b.
Proof. induction a; cbn; auto. rewrite IHa, andb_assoc. auto. Qed.
Lemma quiet_spaces n : without_esc (spaces n) = true.
Proof. induction n; cbn; auto. Qed.
Lemma quiet_number n : without_esc (string_of_nat n) = true.
Proof.
  assert (E : forall d, without_esc (NilEmpty.string_of_uint d) = true) by (induction d; cbn; auto).
  unfold string_of_nat, NilZero.string_of_uint. destruct (Nat.to_uint n); auto; apply E.
Qed.

Ltac quiet := repeat rewrite quiet_app; rewrite ?quiet_spaces, ?quiet_number; cbn [andb];
  repeat match goal with H : without_esc _ = true |- _ => rewrite H end; reflexivity.
Ltac piece_normal := match goal with |- shows (?a +++ _) (?x :: ?l) => apply (shows_app a _ [x] l); [apply shows_normal; quiet|] end.
Ltac piece_paint := match goal with |- shows (?a +++ _) (?x :: ?l) => apply (shows_app a _ [x] l); [apply shows_paint; [auto; reflexivity|quiet]|] end.

Lemma line_looks lv l : quiet_location l ->
  shows (fmt_line_c true (paint true (plain_ink (level_colour lv))) l) (look_line lv l).
Proof.
  intros (Hn & Hl & Hh). unfold fmt_line_c, look_line, blue.
  set (ind := spaces (String.length (lo_number l) + 1)).
  assert (Hi : without_esc ind = true) by apply quiet_spaces.
  rewrite <- (sapp_assoc nl ind). cbn [app].
  piece_normal. piece_paint. piece_normal. piece_paint. piece_normal. piece_paint.
  match goal with |- shows (" " +++ lo_line l +++ nl +++ ?x) _ =>
    replace (" " +++ lo_line l +++ nl +++ x) with ((" " +++ lo_line l +++ nl) +++ x)
      by (rewrite !sapp_assoc; reflexivity) end.
  piece_normal. apply shows_app.
  - destruct (lo_column l) as [c|].
    + piece_normal. piece_paint. rewrite <- sapp_assoc. piece_normal.
      apply (shows_paint (plain_ink (level_colour lv))); [reflexivity|reflexivity] || (destruct lv; apply shows_paint; reflexivity).
    + rewrite <- sapp_assoc. piece_normal. apply shows_paint; reflexivity.
  - destruct (lo_help l) as [t|]; [|apply shows_nil].
    rewrite <- (sapp_assoc nl ind). piece_normal. piece_paint. piece_normal. piece_paint.
    apply shows_normal. quiet.
Qed.

Lemma source_looks lv src :
  without_esc (fst src) = true -> match snd src with None => True | Some l => quiet_location l end ->
  shows (fmt_file_c true (paint true (plain_ink (level_colour lv))) src) (look_source lv src).
Proof.
  destruct src as [file loc]. cbn [fst snd]. intros Hf Hl. unfold fmt_file_c, look_source, blue. cbn [app].
  rewrite <- (sapp_assoc nl (spaces _)). piece_normal. piece_paint. rewrite <- (sapp_assoc " " file).
  piece_normal. destruct loc as [l|]; [|apply shows_nil].
  assert (E : fmt_colon l = ":" +++ lo_number l
                +++ match lo_column l with Some c => ":" +++ string_of_nat c | None => "" end).
  { unfold fmt_colon. destruct (lo_column l); [auto|]. rewrite sapp_nil_r. auto. }
  rewrite E. apply (shows_app _ _ [_]); [|apply line_looks; auto]. destruct Hl as (Hn & _).
  apply shows_normal. destruct (lo_column l); quiet.
Qed.

Lemma message_looks m : quiet m -> shows (show_message_c true m) (look m).
Proof.
  intros [Ht Hs]. unfold show_message_c, look. cbn [app].
  apply (shows_app _ _ [_]).
  { replace (ink_pen true (Some (severity (ms_level m)))) with (pen_of (bold_ink (Some (level_colour (ms_level m)))))
      by (destruct (ms_level m); reflexivity).
    apply shows_paint; [reflexivity|]. destruct (ms_level m); reflexivity. }
  piece_paint. piece_normal. piece_paint.
  destruct (ms_source m) as [[file loc]|]; [|apply shows_nil]. destruct Hs as [Hf Hl].
  apply source_looks; auto.
Qed.

Lemma text_app l l' : text_of (l ++ l') = text_of l +++ text_of l'.
Proof.
  unfold text_of. induction l as [|x l IH]; [auto|]. cbn [app List.map].
  rewrite !concat_cons_empty, IH, sapp_assoc. auto.
Qed.
Lemma text_cons p s l : text_of ((p, s) :: l) = s +++ text_of l.
Proof. unfold text_of. cbn [List.map snd]. apply concat_cons_empty. Qed.

Lemma look_text m : text_of (look m) = show_message m.
Proof.
  unfold look, show_message, normal. cbn [app]. rewrite !text_cons.
  f_equal. change (": " +++ ?x) with (":" +++ " " +++ x). do 3 f_equal.
  destruct (ms_source m) as [[file loc]|]; [|auto].
  unfold look_source, fmt_file, normal, frame. cbn [app]. rewrite !text_cons.
  rewrite !sapp_assoc. change ("--> " +++ ?x) with ("-->" +++ " " +++ x). do 5 f_equal.
  destruct loc as [l|]; [|auto]. rewrite text_cons.
  assert (E : fmt_colon l = ":" +++ lo_number l
                +++ match lo_column l with Some c => ":" +++ string_of_nat c | None => "" end).
  { unfold fmt_colon. destruct (lo_column l); [auto|]. rewrite sapp_nil_r. auto. }
  rewrite E. f_equal. unfold look_line, fmt_line, normal, frame. cbn [app]. rewrite !text_cons, !sapp_assoc.
  change (" | " +++ ?x) with (" " +++ "|" +++ " " +++ x). do 9 f_equal. rewrite text_app.
  destruct (lo_column l), (lo_help l); rewrite !text_cons, ?sapp_assoc;
    change (text_of []) with ""; rewrite ?sapp_nil_r; reflexivity.
Qed.
