(** What a terminal shows of painted texts. *)
From Verif Require Import BaseFacts SpecTerm.
From Verif Require Export Colour.

(** ** Characters only *)
Definition chars : string -> list ascii := list_ascii_of_string.
Lemma chars_app a b : chars (a +++ b) = chars a ++ chars b.
Proof. induction a; cbn; auto. f_equal. auto. Qed.
Lemma write_fst p s : List.map fst (write p s) = chars s.
Proof. unfold write, chars. rewrite map_map. cbn. apply map_id. Qed.

Definition cstep (m : tmode) (c : ascii) : list ascii * tmode :=
  if Ascii.eqb c "027" then (chars (held m), TEsc)
  else match m with
       | TText => ([c], TText)
       | TEsc => if Ascii.eqb c "[" then ([], TCode "") else (chars (held m) ++ [c], TText)
       | TCode h =>
           if param c then ([], TCode (h +++ String c ""))
           else if Ascii.eqb c "m" then ([], TText)
           else (chars (held m) ++ [c], TText)
       end.
Fixpoint crun (m : tmode) (s : string) : list ascii * tmode :=
  match s with
  | EmptyString => ([], m)
  | String c r => let (o, m') := cstep m c in let (o', m'') := crun m' r in (o ++ o', m'')
  end.

Lemma cstep_ok m p c : let '(o, m', _) := tstep m p c in cstep m c = (List.map fst o, m').
Proof.
  unfold tstep, cstep. destruct (Ascii.eqb c "027"); [rewrite write_fst; auto|].
  destruct m as [| |h].
  - reflexivity.
  - destruct (Ascii.eqb c "["); [auto|]. rewrite write_fst, chars_app. auto.
  - destruct (param c); [auto|]. destruct (Ascii.eqb c "m"); [auto|]. rewrite write_fst, chars_app. auto.
Qed.
Lemma crun_ok s : forall m p, let '(o, m', _) := trun m p s in crun m s = (List.map fst o, m').
Proof.
  induction s as [|c s IH]; cbn [trun crun]; intros m p; [auto|].
  pose proof (cstep_ok m p c) as H. destruct (tstep m p c) as [[o m1] p1]. rewrite H.
  specialize (IH m1 p1). destruct (trun m1 p1 s) as [[o' m2] p2]. rewrite IH, map_app. auto.
Qed.

Definition cfin (m : tmode) (s : string) : list ascii := let (o, m') := crun m s in o ++ chars (held m').
Lemma shown_cfin s : shown s = cfin TText s.
Proof.
  unfold shown, screen, cfin. pose proof (crun_ok s TText default_pen) as H.
  destruct (trun TText default_pen s) as [[o m] p]. rewrite H, map_app, write_fst. auto.
Qed.
Lemma crun_app a b : forall m, crun m (a +++ b) =
  let (o, m1) := crun m a in let (o', m2) := crun m1 b in (o ++ o', m2).
Proof.
  induction a as [|c a IH]; intros m; cbn [crun String.append].
  - destruct (crun m b). auto.
  - destruct (cstep m c) as [o m1]. rewrite IH. destruct (crun m1 a) as [o1 m2].
    destruct (crun m2 b) as [o2 m3]. rewrite app_assoc. auto.
Qed.

(** [s] leaves no code unfinished *)
Definition whole (s : string) : Prop := snd (crun TText s) = TText.
Lemma shown_whole a b : whole a -> shown (a +++ b) = shown a ++ shown b.
Proof.
  unfold whole. intros H. rewrite !shown_cfin. unfold cfin. rewrite crun_app.
  destruct (crun TText a) as [o m]. cbn in H. subst m. destruct (crun TText b) as [o' m'].
  cbn. rewrite app_nil_r, app_assoc. auto.
Qed.
Lemma whole_app a b : whole a -> whole b -> whole (a +++ b).
Proof.
  unfold whole. intros Ha Hb. rewrite crun_app. destruct (crun TText a) as [o m]. cbn in Ha. subst m.
  destruct (crun TText b) as [o' m']. auto.
Qed.

(** [s] cannot continue a code *)
Definition breaks (s : string) : bool :=
  match s with
  | EmptyString => true
  | String c _ => Ascii.eqb c "027" || negb (Ascii.eqb c "[" || param c || Ascii.eqb c "m")
  end.
Lemma shown_breaks a b : breaks b = true -> shown (a +++ b) = shown a ++ shown b.
Proof.
  intros H. rewrite !shown_cfin. unfold cfin. rewrite crun_app.
  destruct (crun TText a) as [o m]. destruct b as [|c r].
  - cbn. rewrite app_nil_r, app_nil_r. auto.
  - cbn [crun breaks] in *. unfold cstep. destruct (Ascii.eqb c "027") eqn:E.
    + cbn [held chars]. destruct (crun TEsc r) as [o' m'].
      cbn. rewrite <- !app_assoc. auto.
    + cbn [orb] in H. apply negb_true_iff in H. apply orb_false_iff in H as [H Hm].
      apply orb_false_iff in H as [Hb Hp].
      assert (X : (match m with
                   | TText => ([c], TText)
                   | TEsc => if Ascii.eqb c "[" then ([], TCode "") else (chars (held m) ++ [c], TText)
                   | TCode h =>
                       if param c then ([], TCode (h +++ String c ""))
                       else if Ascii.eqb c "m" then ([], TText) else (chars (held m) ++ [c], TText)
                   end) = (chars (held m) ++ [c], TText)).
      { destruct m as [| |h]; [auto|rewrite Hb; auto|rewrite Hp, Hm; auto]. }
      rewrite X. destruct (crun TText r) as [o' m']. rewrite <- !app_assoc. auto.
Qed.

(** ** Painting *)
Definition real_ink (k : ink) : Prop := is_plain k = false.

Lemma style_silent k m : real_ink k -> crun m (compute_style k) = (chars (held m), TText).
Proof.
  intros R.
  assert (H : crun m (compute_style k) = (chars (held m) ++ [], TText)); [|rewrite app_nil_r in H; auto].
  destruct k as [[|] [[| | |]|]]; try discriminate R; destruct m; reflexivity.
Qed.
Lemma reset_silent m : crun m reset = (chars (held m), TText).
Proof.
  assert (H : crun m reset = (chars (held m) ++ [], TText)); [|rewrite app_nil_r in H; auto].
  destruct m; reflexivity.
Qed.

Lemma escape_same k s : real_ink k -> forall m, crun m (escape_inner (compute_style k) s) = crun m s.
Proof.
  intros R. remember (String.length s) as n eqn:L. revert s L.
  induction n as [n IH] using lt_wf_ind. intros s L m.
  destruct s as [|c0 s0]; [reflexivity|]. cbn [String.length] in L.
  assert (D : crun m (String c0 (escape_inner (compute_style k) s0)) = crun m (String c0 s0)).
  { cbn [crun]. destruct (cstep m c0) as [o m']. rewrite (IH (String.length s0)) by lia. auto. }
  cbn [escape_inner]. destruct s0 as [|c1 [|c2 [|c3 r]]]; try exact D.
  destruct (Ascii.eqb c0 esc && Ascii.eqb c1 "[" && Ascii.eqb c2 "0" && Ascii.eqb c3 "m") eqn:E; [|exact D].
  repeat rewrite andb_true_iff in E. destruct E as [[[E0 E1] E2] E3].
  apply Ascii.eqb_eq in E0, E1, E2, E3. subst.
  change (String esc (String "[" (String "0" (String "m" r)))) with (reset +++ r).
  rewrite !crun_app, reset_silent. rewrite crun_app, style_silent by auto. cbn [held chars].
  rewrite (IH (String.length r)); [|cbn [String.length]; lia|auto].
  destruct (crun TText r) as [o' m']. auto.
Qed.

Lemma paint_on k s : real_ink k ->
  paint true k s = compute_style k +++ escape_inner (compute_style k) s +++ reset.
Proof. intros R. unfold paint. rewrite R. auto. Qed.
Lemma shown_paint k s : real_ink k -> shown (paint true k s) = shown s.
Proof.
  intros R. rewrite paint_on by auto. rewrite shown_whole.
  - rewrite shown_breaks by reflexivity.
    assert (Z : shown (compute_style k) = [] /\ shown reset = []).
    { rewrite !shown_cfin. unfold cfin. rewrite style_silent, reset_silent by auto. auto. }
    destruct Z as [-> ->]. rewrite app_nil_r. cbn [app]. rewrite !shown_cfin. unfold cfin.
    rewrite escape_same by auto. auto.
  - unfold whole. rewrite style_silent by auto. auto.
Qed.
Lemma whole_paint k s : real_ink k -> whole (paint true k s).
Proof.
  intros R. rewrite paint_on by auto. apply whole_app.
  - unfold whole. rewrite style_silent by auto. auto.
  - unfold whole. rewrite crun_app. destruct (crun TText _) as [o m]. rewrite reset_silent. auto.
Qed.
Lemma breaks_paint k s t : real_ink k -> breaks (paint true k s +++ t) = true.
Proof. intros R. rewrite paint_on by auto. reflexivity. Qed.

Lemma whole_spaces n : whole (spaces n).
Proof.
  unfold whole. assert (H : crun TText (spaces n) = (chars (spaces n), TText)); [|rewrite H; auto].
  induction n as [|n IH]; [reflexivity|]. cbn. rewrite IH. auto.
Qed.

Lemma concat_cons_empty a l : String.concat "" (a :: l) = a +++ String.concat "" l.
Proof. destruct l; cbn [String.concat]; [rewrite sapp_nil_r|]; auto. Qed.

(** ** Messages, with any texts in them *)
Ltac wholly := first [exact eq_refl | apply whole_spaces | apply whole_paint; reflexivity].
Ltac cut_shown :=
  repeat first [rewrite shown_whole by wholly | rewrite shown_breaks by first [exact eq_refl | apply breaks_paint; reflexivity]].

Ltac ee :=
  match goal with E : forall a b a' b', _ -> _ -> _ -> _ -> shown (a +++ b) = shown (a' +++ b') |- _ =>
    apply E; [first [exact eq_refl | apply shown_paint; first [assumption | reflexivity]]
             | | first [assumption | wholly] | first [assumption | wholly]]
  end.

Definition help_c (l : location) : string :=
  match lo_help l with
  | None => ""
  | Some t => nl +++ spaces (String.length (lo_number l) + 1) +++ blue true "=" +++ " "
              +++ paint true (plain_ink Green) "help:" +++ " " +++ t
  end.
Definition help_p (l : location) : string :=
  match lo_help l with
  | None => ""
  | Some t => nl +++ spaces (String.length (lo_number l) + 1) +++ "= help: " +++ t
  end.
Lemma help_shown l : shown (help_c l) = shown (help_p l).
Proof.
  unfold help_c, help_p. destruct (lo_help l) as [t|]; [|auto].
  change ("= help: " +++ t) with ("=" +++ " " +++ "help:" +++ " " +++ t).
  unfold blue. cut_shown. rewrite !shown_paint by reflexivity. auto.
Qed.
Lemma help_breaks l : breaks (help_c l) = true /\ breaks (help_p l) = true.
Proof. unfold help_c, help_p. destruct (lo_help l); auto. Qed.

Lemma line_shown k l : real_ink k -> shown (fmt_line_c true (paint true k) l) = shown (fmt_line l).
Proof.
  intros R. unfold fmt_line_c, fmt_line. fold (help_c l) (help_p l).
  change (" | " +++ ?x) with (" " +++ "|" +++ " " +++ x).
  set (ind := spaces (String.length (lo_number l) + 1)).
  assert (W : whole ind) by apply whole_spaces.
  assert (Hc : breaks (help_c l) = true) by apply help_breaks.
  assert (Hp : breaks (help_p l) = true) by apply help_breaks.
  assert (E : forall a b a' b', shown a = shown a' -> shown b = shown b' -> whole a -> whole a' ->
              shown (a +++ b) = shown (a' +++ b')).
  { intros a b a' b' E1 E2 W1 W2. rewrite !shown_whole by auto. congruence. }
  unfold blue.
  assert (Wb : whole (paint true (plain_ink Blue) "|")) by (apply whole_paint; reflexivity).
  assert (Wa : whole (paint true k "^")) by (apply whole_paint; auto).
  rewrite !(shown_whole nl), !(shown_whole ind), !(shown_whole (paint true (plain_ink Blue) "|")) by (auto; exact eq_refl).
  f_equal. f_equal. rewrite shown_paint by reflexivity.
  rewrite (shown_whole "|") by exact eq_refl. f_equal.
  rewrite !(shown_whole nl) by exact eq_refl. f_equal.
  rewrite (shown_whole (paint true _ (lo_number l))) by (apply whole_paint; reflexivity).
  rewrite shown_paint by reflexivity. rewrite (shown_breaks (lo_number l)) by reflexivity. f_equal.
  ee. ee. ee.
  rewrite !(shown_breaks (lo_line l)) by reflexivity. f_equal. ee.
  destruct (lo_column l) as [c|].
  - rewrite !(shown_breaks _ (help_c l)), !(shown_breaks _ (help_p l)) by auto. rewrite help_shown. f_equal.
    ee. change ("| " +++ ?x) with ("|" +++ " " +++ x). ee. ee. ee. apply shown_paint; auto.
  - rewrite !(shown_breaks _ (help_c l)), !(shown_breaks _ (help_p l)) by auto. rewrite help_shown. f_equal.
    change (" |") with (" " +++ "|"). ee. ee. exact eq_refl.
Qed.

Lemma file_shown k src : real_ink k ->
  shown (fmt_file_c true (paint true k) src) = shown (fmt_file src).
Proof.
  intros R. destruct src as [file loc]. unfold fmt_file_c, fmt_file.
  change ("--> " +++ ?x) with ("-->" +++ " " +++ x). unfold blue.
  rewrite !(shown_whole nl) by exact eq_refl. f_equal.
  rewrite !(shown_whole (spaces _)) by apply whole_spaces. f_equal.
  rewrite (shown_whole (paint _ _ _)) by (apply whole_paint; reflexivity).
  rewrite shown_paint by reflexivity. rewrite (shown_whole "-->") by exact eq_refl. f_equal.
  rewrite !(shown_whole " ") by exact eq_refl. f_equal.
  destruct loc as [l|]; [|auto].
  assert (B : forall x, breaks (fmt_colon l +++ x) = true) by (intros; unfold fmt_colon; destruct (lo_column l); auto).
  rewrite !(shown_breaks file) by auto. f_equal.
  assert (Bl : breaks (fmt_line_c true (paint true k) l) = true /\ breaks (fmt_line l) = true) by (split; exact eq_refl).
  rewrite !(shown_breaks (fmt_colon l)) by apply Bl. f_equal. apply line_shown. auto.
Qed.

Lemma message_shown m : shown (show_message_c true m) = shown (show_message m).
Proof.
  unfold show_message_c, show_message.
  set (src_c := match ms_source m with None => "" | Some _ => _ end).
  set (src_p := match ms_source m with None => "" | Some _ => _ end).
  assert (E : shown src_c = shown src_p).
  { unfold src_c, src_p. destruct (ms_source m) as [s|]; [|auto]. apply file_shown. reflexivity. }
  assert (B : breaks src_c = true /\ breaks src_p = true).
  { unfold src_c, src_p. destruct (ms_source m) as [[f l]|]; auto. }
  destruct B as [Bc Bp]. clearbody src_c src_p.
  rewrite (shown_whole (paint true (bold_ink (Some _)) _)) by (apply whole_paint; reflexivity).
  rewrite shown_paint by reflexivity.
  rewrite (shown_whole (level_name _)) by (destruct (ms_level m); exact eq_refl). f_equal.
  change (": " +++ ?x) with (":" +++ " " +++ x).
  rewrite (shown_whole (paint _ _ ":")) by (apply whole_paint; reflexivity).
  rewrite shown_paint by reflexivity. rewrite (shown_whole ":") by exact eq_refl. f_equal.
  rewrite !(shown_whole " ") by exact eq_refl. f_equal.
  rewrite !(shown_breaks _ src_c), !(shown_breaks _ src_p) by auto. rewrite shown_paint by reflexivity.
  congruence.
Qed.

Lemma nl_breaks x : breaks (nl +++ x) = true.
Proof. reflexivity. Qed.

Lemma message_whole m : whole (show_message_c true m +++ nl) /\ whole (show_message m +++ nl).
Proof.
  assert (H : forall s, whole (s +++ nl)).
  { intros s. unfold whole. rewrite crun_app. destruct (crun TText s) as [o [| |h]]; reflexivity. }
  auto.
Qed.

Lemma report_shown ms : shown (fst (exit_report_c true ms)) = shown (fst (exit_report ms)).
Proof.
  assert (W : forall s, whole (s +++ nl)).
  { intros s. unfold whole. rewrite crun_app. destruct (crun TText s) as [o [| |h]]; reflexivity. }
  assert (M : forall m x, shown ((show_message_c true m +++ nl) +++ x) = shown ((show_message m +++ nl) +++ x)).
  { intros m x. rewrite (shown_whole (show_message_c true m +++ nl)), (shown_whole (show_message m +++ nl)) by auto.
    rewrite (shown_breaks (show_message_c true m) nl), (shown_breaks (show_message m) nl) by reflexivity.
    rewrite message_shown. auto. }
  assert (L : forall x, shown (String.concat "" (List.map (fun m => show_message_c true m +++ nl +++ nl) ms) +++ x)
            = shown (String.concat "" (List.map (fun m => show_message m +++ nl +++ nl) ms) +++ x)).
  { intros x. induction ms as [|m ms IH]; [auto|].
    assert (A : forall a c, ((a +++ nl +++ nl) +++ c) +++ x = (a +++ nl) +++ (nl +++ (c +++ x)))
      by (intros; rewrite !sapp_assoc; auto).
    cbn [List.map]. rewrite !concat_cons_empty, !A.
    rewrite M, !(shown_whole (show_message m +++ nl)) by auto. f_equal.
    rewrite !(shown_whole nl) by exact eq_refl. f_equal. exact IH. }
  unfold exit_report_c, exit_report. cbn [fst]. rewrite L.
  assert (Wl : whole (String.concat "" (List.map (fun m => show_message m +++ nl +++ nl) ms))).
  { clear. induction ms as [|m ms IH]; [exact eq_refl|]. cbn [List.map]. rewrite concat_cons_empty.
    apply whole_app; auto. rewrite <- sapp_assoc. apply whole_app; [apply message_whole|exact eq_refl]. }
  rewrite !(shown_whole (String.concat _ _)) by auto. f_equal.
  assert (M' : forall m, shown (show_message_c true m +++ nl) = shown (show_message m +++ nl)).
  { intros m. rewrite <- (sapp_nil_r (show_message_c true m +++ nl)), <- (sapp_nil_r (show_message m +++ nl)).
    apply M. }
  destruct (0 <? _); destruct (0 <? _); auto.
  - rewrite M. rewrite !(shown_whole (show_message _ +++ nl)) by auto. rewrite M'. auto.
  - cbn [String.append]. apply M'.
Qed.
