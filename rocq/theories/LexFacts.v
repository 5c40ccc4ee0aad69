(** Facts about reading JSON texts: characters and tokens. *)
From Verif Require Export JsonFacts.

(** Properties of single characters, by looking at all of them *)
Definition all_chars : list ascii := List.map ascii_of_nat (seq 0 256).
Lemma in_all_chars c : In c all_chars.
Proof.
  unfold all_chars. apply in_map_iff. exists (nat_of_ascii c). split; [apply ascii_nat_embedding|].
  apply in_seq. pose proof (nat_ascii_bounded c). lia.
Qed.
Lemma by_chars (P : ascii -> bool) : forallb P all_chars = true -> forall c, P c = true.
Proof. intros H c. rewrite forallb_forall in H. apply H, in_all_chars. Qed.

Lemma code_nat c : code c = N.of_nat (nat_of_ascii c).
Proof. unfold code, nat_of_ascii. rewrite N2Nat.id. reflexivity. Qed.
Lemma code_lt c : (code c < 256)%N.
Proof. rewrite code_nat. pose proof (nat_ascii_bounded c). lia. Qed.
Lemma code_inj c d : code c = code d -> c = d.
Proof. unfold code. intros H. rewrite <- (ascii_N_embedding c), <- (ascii_N_embedding d), H. reflexivity. Qed.
Lemma code_is c k : code c = k -> (k < 256)%N -> c = ascii_of_N k.
Proof. intros E L. apply code_inj. rewrite E. unfold code. rewrite N_ascii_embedding; auto. Qed.
Lemma is_digit_spec c : is_digit c = true <-> digit_char c.
Proof. unfold is_digit, digit_char. rewrite code_nat, andb_true_iff, !N.leb_le. lia. Qed.
Lemma is_space_spec c : is_space c = true <-> In (nat_of_ascii c) [32; 9; 10; 13].
Proof. unfold is_space. rewrite code_nat, !orb_true_iff, !N.eqb_eq. cbn [In]. lia. Qed.
Lemma hex_digit_spec c n : hex_digit c = Some n <-> hex_value c n.
Proof.
  unfold hex_digit, hex_value. rewrite code_nat. set (k := N.of_nat (nat_of_ascii c)).
  destruct ((48 <=? k) && (k <=? 57))%N eqn:A.
  { rewrite andb_true_iff, !N.leb_le in A. split; [intros H; injection H as <-; auto|]. intros [H|[H|H]]; try (f_equal; lia); lia. }
  destruct ((65 <=? k) && (k <=? 70))%N eqn:B.
  { rewrite andb_true_iff, !N.leb_le in B. split; [intros H; injection H as <-; auto|]. intros [H|[H|H]]; try (f_equal; lia); lia. }
  destruct ((97 <=? k) && (k <=? 102))%N eqn:C.
  { rewrite andb_true_iff, !N.leb_le in C. split; [intros H; injection H as <-; auto|]. intros [H|[H|H]]; try (f_equal; lia); lia. }
  rewrite andb_false_iff, !N.leb_gt in A, B, C. split; [discriminate|]. intros [H|[H|H]]; lia.
Qed.
Lemma is_hex_spec c : is_hex c = true <-> hex_char c.
Proof.
  unfold is_hex, hex_char. destruct (hex_digit c) as [n|] eqn:E.
  - split; auto. intros _. exists n. now apply hex_digit_spec.
  - split; [discriminate|]. intros [n H]. apply hex_digit_spec in H. congruence.
Qed.
Lemma short_escape_spec c x : short_escape c = Some x <-> In (c, x) escapes.
Proof.
  split.
  - unfold short_escape. intros H.
    repeat (match type of H with (if N.eqb (code c) ?k then _ else _) = _ => destruct (N.eqb_spec (code c) k) as [E|_] end;
      [apply code_is in E; [|reflexivity]; rewrite E in *; injection H as <-; vm_compute; repeat (first [left; reflexivity|right])|]).
    discriminate.
  - intros H. cbn in H. repeat (destruct H as [H|H]; [injection H as <- <-; reflexivity|]). destruct H.
Qed.
Lemma short_escape_not_u c x : short_escape c = Some x -> (code c =? 117)%N = false.
Proof. intros H. apply short_escape_spec in H. cbn in H. repeat (destruct H as [H|H]; [injection H as <- <-; reflexivity|]). destruct H. Qed.
Lemma plain_spec c : plain_char c <-> ((code c =? 34)%N = false /\ (code c =? 92)%N = false /\ (code c <? 32)%N = false).
Proof.
  unfold plain_char. rewrite !N.eqb_neq, N.ltb_ge. rewrite code_nat. split.
  - intros (A & B & C). split; [|split; [|lia]]; intros E.
    + apply B, code_inj. rewrite code_nat, E. reflexivity.
    + apply C, code_inj. rewrite code_nat, E. reflexivity.
  - intros (A & B & C). split; [lia|]. split; intros ->; [apply A|apply B]; reflexivity.
Qed.

Lemma all_app P a b : all P (a +++ b) <-> all P a /\ all P b.
Proof. induction a as [|c a IH]; cbn; [tauto|]. rewrite IH. tauto. Qed.
Lemma blank_app a b : blank_text (a +++ b) <-> blank_text a /\ blank_text b.
Proof. apply all_app. Qed.

(** Numbers *)
Fixpoint num_run (p : numpart) (u : string) : bool :=
  match u with
  | EmptyString => num_end p
  | String c r => match num_step p c with Some p' => num_run p' r | None => false end
  end.
Definition num_start (c : ascii) : option numpart :=
  if N.eqb (code c) 45 then Some NSign else if N.eqb (code c) 48 then Some NZero
  else if is_digit c then Some NInt else None.
Definition num_text (t : string) : Prop := exists c r p, t = String c r /\ num_start c = Some p /\ num_run p r = true.

Lemma expoint_run s : num_run NExpoInt s = true <-> all digit_char s.
Proof.
  induction s as [|c s IH]; cbn [num_run all]; [cbn; tauto|]. rewrite <- IH, <- is_digit_spec. cbn [num_step].
  destruct (is_digit c); split; try tauto; try discriminate.
Qed.
Lemma exposign_run s : num_run NExpoSign s = true <-> digits s.
Proof.
  destruct s as [|c s]; cbn [num_run num_step].
  - split; [discriminate|]. intros [H _]. congruence.
  - unfold digits. cbn [all]. rewrite <- expoint_run, <- is_digit_spec. destruct (is_digit c); split; try discriminate.
    + intros H. split; [discriminate|auto].
    + tauto.
    + intros [_ [H _]]. discriminate.
Qed.
Lemma digit_not c : is_digit c = true -> (code c =? 46)%N = false /\ ((code c =? 101) || (code c =? 69))%N = false /\ ((code c =? 43) || (code c =? 45))%N = false.
Proof. unfold is_digit. rewrite andb_true_iff, !N.leb_le, !orb_false_iff, !N.eqb_neq. lia. Qed.
Lemma expo_run s : num_run NExpo s = true <-> exists sign ds, s = sign +++ ds /\ (sign = "" \/ sign = "+" \/ sign = "-") /\ digits ds.
Proof.
  destruct s as [|c s]; cbn [num_run num_step].
  - split; [discriminate|]. intros (sign & ds & E & _ & [N _]). destruct sign; cbn in E; [congruence|discriminate].
  - destruct (is_digit c) eqn:D.
    + rewrite expoint_run. split.
      * intros H. exists "", (String c s). split; auto. split; auto. split; [discriminate|]. cbn. split; auto. now apply is_digit_spec.
      * intros (sign & ds & E & S & [N A]). destruct S as [->|[->| ->]]; cbn in E.
        -- subst ds. apply A.
        -- injection E as -> <-. discriminate.
        -- injection E as -> <-. discriminate.
    + destruct ((code c =? 43) || (code c =? 45))%N eqn:S.
      * rewrite exposign_run. split.
        -- intros H. exists (String c ""), s. split; auto. split; auto. right. rewrite orb_true_iff, !N.eqb_eq in S.
           destruct S as [S|S]; [left|right]; f_equal; apply (code_is c _ S ltac:(reflexivity)).
        -- intros (sign & ds & E & [->|[->| ->]] & G); cbn in E.
           ++ subst ds. destruct G as [_ [A _]]. apply is_digit_spec in A. congruence.
           ++ injection E as _ <-. auto.
           ++ injection E as _ <-. auto.
      * split; [discriminate|]. intros (sign & ds & E & [->|[->| ->]] & G); cbn in E.
        -- subst ds. destruct G as [_ [A _]]. apply is_digit_spec in A. congruence.
        -- injection E as -> <-. discriminate.
        -- injection E as -> <-. discriminate.
Qed.
Definition e_char (c : ascii) : bool := (N.eqb (code c) 101 || N.eqb (code c) 69)%N.
Lemma e_char_spec c : e_char c = true <-> (c = "e"%char \/ c = "E"%char).
Proof.
  unfold e_char. rewrite orb_true_iff, !N.eqb_eq. split.
  - intros [H|H]; [left|right]; apply (code_is c _ H ltac:(reflexivity)).
  - intros [-> | ->]; auto.
Qed.
Lemma expo_part_run s : expo_part s <-> s = "" \/ exists e r, s = String e r /\ e_char e = true /\ num_run NExpo r = true.
Proof.
  unfold expo_part. split.
  - intros [->|(e & sign & ds & -> & E & S & D)]; auto. right. exists e, (sign +++ ds). split; auto. split; [now apply e_char_spec|].
    apply expo_run. eauto.
  - intros [->|(e & r & -> & E & R)]; auto. right. apply expo_run in R. destruct R as (sign & ds & -> & S & D).
    exists e, sign, ds. split; auto. split; [now apply e_char_spec|]. auto.
Qed.
Lemma frac_run s : num_run NFrac s = true <-> exists ds x, s = ds +++ x /\ all digit_char ds /\ expo_part x.
Proof.
  induction s as [|c s IH]; cbn [num_run num_step].
  - split; auto. intros _. exists "", "". cbn. split; auto. split; auto. left. auto.
  - fold (e_char c). destruct (is_digit c) eqn:D.
    + rewrite IH. split.
      * intros (ds & x & -> & A & E). exists (String c ds), x. split; auto. split; auto. cbn. split; auto. now apply is_digit_spec.
      * intros (ds & x & E & A & X). destruct ds as [|d ds]; cbn in E.
        -- subst x. apply expo_part_run in X. destruct X as [X|(e & r & X & E & _)]; [discriminate|]. injection X as -> ->.
           apply digit_not in D. unfold e_char in E. destruct D as (_ & D & _). congruence.
        -- injection E as -> ->. exists ds, x. split; auto. split; auto. apply A.
    + destruct (e_char c) eqn:E.
      * split.
        -- intros H. exists "", (String c s). split; auto. split; [cbn; auto|]. apply expo_part_run. right. eauto.
        -- intros (ds & x & X & A & Y). destruct ds as [|d ds]; cbn in X.
           ++ subst x. apply expo_part_run in Y. destruct Y as [Y|(e & r & Y & _ & R)]; [discriminate|]. injection Y as -> ->. auto.
           ++ injection X as -> ->. destruct A as [A _]. apply is_digit_spec in A. congruence.
      * split; [discriminate|]. intros (ds & x & X & A & Y). destruct ds as [|d ds]; cbn in X.
        -- subst x. apply expo_part_run in Y. destruct Y as [Y|(e & r & Y & Z & R)]; [discriminate|]. injection Y as -> ->. congruence.
        -- injection X as -> ->. destruct A as [A _]. apply is_digit_spec in A. congruence.
Qed.
Lemma point_run s : num_run NPoint s = true <-> exists ds x, s = ds +++ x /\ digits ds /\ expo_part x.
Proof.
  destruct s as [|c s]; cbn [num_run num_step].
  - split; [discriminate|]. intros (ds & x & E & [N _] & _). destruct ds; cbn in E; [congruence|discriminate].
  - destruct (is_digit c) eqn:D.
    + rewrite frac_run. split.
      * intros (ds & x & -> & A & E). exists (String c ds), x. split; auto. split; auto. split; [discriminate|]. cbn. split; auto. now apply is_digit_spec.
      * intros (ds & x & E & [N A] & X). destruct ds as [|d ds]; [congruence|]. cbn in E. injection E as -> ->. exists ds, x. split; auto. split; auto. apply A.
    + split; [discriminate|]. intros (ds & x & E & [N A] & X). destruct ds as [|d ds]; [congruence|]. cbn in E. injection E as -> ->.
      destruct A as [A _]. apply is_digit_spec in A. congruence.
Qed.
(** What may follow the digits before the point *)
Definition rest_part (s : string) : Prop := exists f x, s = f +++ x /\ frac_part f /\ expo_part x.
Lemma rest_part_run s : rest_part s <-> s = "" \/ exists c r, s = String c r /\
  (((code c =? 46)%N = true /\ num_run NPoint r = true) \/ (e_char c = true /\ num_run NExpo r = true)).
Proof.
  unfold rest_part. split.
  - intros (f & x & -> & F & X). destruct F as [->|(ds & -> & D)].
    + cbn. apply expo_part_run in X. destruct X as [->|(e & r & -> & E & R)]; [auto|]. right. exists e, r. auto.
    + right. exists "."%char, (ds +++ x). split; auto. left. split; auto. apply point_run. eauto.
  - intros [->|(c & r & -> & [[C R]|[C R]])].
    + exists "", "". split; auto. split; [left; auto|left; auto].
    + apply point_run in R. destruct R as (ds & x & -> & D & X). exists ("." +++ ds), x. apply N.eqb_eq in C.
      rewrite (code_is c _ C ltac:(reflexivity)). split; auto. split; auto. right. eauto.
    + exists "", (String c r). split; auto. split; [left; auto|]. apply expo_part_run. right. exists c, r. auto.
Qed.
Lemma zero_run s : num_run NZero s = true <-> rest_part s.
Proof.
  rewrite rest_part_run. destruct s as [|c s]; cbn [num_run num_step]; [cbn; tauto|]. fold (e_char c). split.
  - destruct (code c =? 46)%N eqn:P; [intros H; right; exists c, s; auto|].
    destruct (e_char c) eqn:E; [intros H; right; exists c, s; auto|discriminate].
  - intros [H|(d & r & H & [[C R]|[C R]])]; [discriminate| |]; injection H as -> ->.
    + rewrite C. auto.
    + replace (code d =? 46)%N with false; [rewrite C; auto|]. apply e_char_spec in C. destruct C as [-> | ->]; reflexivity.
Qed.
Lemma int_run s : num_run NInt s = true <-> exists ds x, s = ds +++ x /\ all digit_char ds /\ rest_part x.
Proof.
  induction s as [|c s IH]; cbn [num_run num_step].
  - split; auto. intros _. exists "", "". split; auto. split; [cbn; auto|]. apply rest_part_run. auto.
  - fold (e_char c). destruct (is_digit c) eqn:D.
    + rewrite IH. split.
      * intros (ds & x & -> & A & X). exists (String c ds), x. split; auto. split; auto. cbn. split; auto. now apply is_digit_spec.
      * intros (ds & x & E & A & X). destruct ds as [|d ds]; cbn in E.
        -- subst x. apply rest_part_run in X. destruct X as [X|(e & r & X & [[Y _]|[Y _]])]; [discriminate| |]; injection X as -> ->;
             apply digit_not in D; unfold e_char in Y; destruct D as (D1 & D2 & _); congruence.
        -- injection E as -> ->. exists ds, x. split; auto. split; auto. apply A.
    + assert (K : (if (code c =? 46)%N then num_run NPoint s else if e_char c then num_run NExpo s else false) = true <-> rest_part (String c s)).
      { rewrite <- zero_run. cbn [num_run num_step]. fold (e_char c). destruct (code c =? 46)%N; [tauto|]. destruct (e_char c); [tauto|]. tauto. }
      transitivity (rest_part (String c s)).
      * rewrite <- K. destruct (code c =? 46)%N; [tauto|]. destruct (e_char c); tauto.
      * split.
        -- intros H. exists "", (String c s). split; auto. split; [cbn; auto|auto].
        -- intros (ds & x & E & A & X). destruct ds as [|d ds]; cbn in E; [subst; auto|]. injection E as -> ->.
           destruct A as [A _]. apply is_digit_spec in A. congruence.
Qed.
Lemma unsigned_text s : (exists int x, s = int +++ x /\ int_part int /\ rest_part x) <->
  exists c r, s = String c r /\ (((code c =? 48)%N = true /\ num_run NZero r = true) \/ ((code c =? 48)%N = false /\ is_digit c = true /\ num_run NInt r = true)).
Proof.
  split.
  - intros (int & x & -> & [->|(c & r & -> & D & N & A)] & X).
    + exists "0"%char, x. split; auto. left. split; auto. now apply zero_run.
    + exists c, (r +++ x). split; auto. right. split; [|split].
      * apply N.eqb_neq. intros E. apply N. apply (code_is c _ E ltac:(reflexivity)).
      * now apply is_digit_spec.
      * apply int_run. eauto.
  - intros (c & r & -> & [[C R]|(C & D & R)]).
    + exists "0", r. apply N.eqb_eq in C. rewrite (code_is c _ C ltac:(reflexivity)). split; auto. split; [left; auto|]. now apply zero_run.
    + apply int_run in R. destruct R as (ds & x & -> & A & X). exists (String c ds), x. split; auto. split; auto. right.
      exists c, ds. split; auto. split; [now apply is_digit_spec|]. split; auto. intros ->. discriminate.
Qed.
Lemma sign_run s : num_run NSign s = true <-> exists c r, s = String c r /\ (((code c =? 48)%N = true /\ num_run NZero r = true) \/ ((code c =? 48)%N = false /\ is_digit c = true /\ num_run NInt r = true)).
Proof.
  destruct s as [|c s]; cbn [num_run num_step].
  - split; [discriminate|]. intros (c & r & E & _). discriminate.
  - split.
    + intros H. exists c, s. split; auto. destruct (code c =? 48)%N; auto. destruct (is_digit c); auto. discriminate.
    + intros (d & r & E & [[A B]|(A & B & C)]); injection E as -> ->; rewrite A; auto. rewrite B. auto.
Qed.
Lemma num_text_spec t : num_text t <-> number t.
Proof.
  unfold number. transitivity (exists sign u, t = sign +++ u /\ (sign = "" \/ sign = "-") /\ exists int x, u = int +++ x /\ int_part int /\ rest_part x).
  - split.
    + intros (c & r & p & -> & S & R). unfold num_start in S. destruct (N.eqb_spec (code c) 45) as [E|E].
      * injection S as <-. exists "-", r. rewrite (code_is c _ E ltac:(reflexivity)). split; auto. split; auto. apply unsigned_text, sign_run, R.
      * exists "", (String c r). split; auto. split; auto. apply unsigned_text. exists c, r. split; auto.
        destruct (code c =? 48)%N; [injection S as <-; auto|]. destruct (is_digit c); [|discriminate]. injection S as <-. auto.
    + intros (sign & u & -> & S & U). apply unsigned_text in U. destruct U as (c & r & -> & U). destruct S as [-> | ->]; cbn.
      * destruct U as [[C R]|(C & D & R)].
        -- exists c, r, NZero. split; auto. split; auto. unfold num_start. apply N.eqb_eq in C. rewrite C. reflexivity.
        -- exists c, r, NInt. split; auto. split; auto. unfold num_start. rewrite C, D. apply is_digit_spec in D. unfold digit_char in D.
           replace (code c =? 45)%N with false; auto. symmetry. apply N.eqb_neq. rewrite code_nat. lia.
      * exists "-"%char, (String c r), NSign. split; auto. split; auto. apply sign_run. eauto.
  - split.
    + intros (sign & u & -> & S & int & x & -> & I & f & e & -> & F & E). exists sign, int, f, e. auto.
    + intros (sign & int & f & e & -> & S & I & F & E). exists sign, (int +++ f +++ e). split; auto. split; auto.
      exists int, (f +++ e). split; auto. split; auto. exists f, e. auto.
Qed.

(** Tokens as written *)
Definition tok_text (t : jtoken) (u : string) : Prop :=
  match t with
  | KOpenObj => u = "{" | KCloseObj => u = "}" | KOpenArr => u = "[" | KCloseArr => u = "]"
  | KColon => u = ":" | KComma => u = ","
  | KNull => u = "null" | KTrue => u = "true" | KFalse => u = "false"
  | KNum x => u = x /\ number x
  | KStr b => u = just quote_mark +++ b +++ just quote_mark /\ body b
  end.
Inductive spaced : list jtoken -> string -> Prop :=
| spaced_end w : blank_text w -> spaced [] w
| spaced_more w t u ts s : blank_text w -> tok_text t u -> spaced ts s -> spaced (t :: ts) (w +++ u +++ s).
Lemma spaced_blank w ts s : blank_text w -> spaced ts s -> spaced ts (w +++ s).
Proof.
  intros B S. inversion S as [w' B'|w' t u ts' s' B' T S']; subst.
  - constructor. apply blank_app. auto.
  - rewrite <- sapp_assoc. constructor; auto. apply blank_app. auto.
Qed.
Lemma spaced_tok t u ts s : tok_text t u -> spaced ts s -> spaced (t :: ts) (u +++ s).
Proof. intros T S. apply (spaced_more "" t u ts s); auto. cbn. auto. Qed.

(** Everything the reader of tokens accepts *)
Fixpoint hexes (n : nat) (u : string) : Prop :=
  match n with 0 => body u | S k => exists c r, u = String c r /\ hex_char c /\ hexes k r end.
Definition lex_sound (st : lexer) (s : string) (ts : list jtoken) : Prop :=
  match st with
  | LBetween => spaced ts s
  | LWord m t => exists s' ts', s = m +++ s' /\ ts = t :: ts' /\ spaced ts' s'
  | LNum p x => exists u s' ts', s = u +++ s' /\ ts = KNum (x +++ u) :: ts' /\ spaced ts' s' /\ num_run p u = true
  | LStr b => exists u s' ts', s = u +++ just quote_mark +++ s' /\ ts = KStr (b +++ u) :: ts' /\ spaced ts' s' /\ body u
  | LEscape b => exists u s' ts', s = u +++ just quote_mark +++ s' /\ ts = KStr (b +++ u) :: ts' /\ spaced ts' s' /\ body (String backslash u)
  | LHex n b => exists u s' ts', s = u +++ just quote_mark +++ s' /\ ts = KStr (b +++ u) :: ts' /\ spaced ts' s' /\ hexes n u
  end.
Definition good_state (st : lexer) : Prop :=
  match st with LWord m _ => m <> "" | LHex n _ => n <> 0 | _ => True end.
Lemma snoc_app x c u : (x +++ String c "") +++ u = x +++ String c u.
Proof. rewrite sapp_assoc. reflexivity. Qed.
Lemma between_sound c ts st s more :
  lex_between c = Some (ts, st) -> lex_sound st s more -> spaced (ts ++ more) (String c s) /\ good_state st.
Proof.
  unfold lex_between. intros H L. destruct (is_space c) eqn:W.
  { injection H as <- <-. split; [|cbn; auto]. apply (spaced_blank (String c "")); auto. cbn. split; auto. now apply is_space_spec. }
  repeat (match type of H with (if N.eqb (code c) ?k then _ else _) = _ => destruct (N.eqb_spec (code c) k) as [E|?] end;
    [rewrite (code_is c _ E ltac:(reflexivity)) in *; cbn in H; injection H as <- <-; split; [|try exact I; try discriminate];
     first [apply (spaced_tok _ (just _)); [reflexivity|exact L] | cbn [lex_sound] in L ] |]).
  - destruct L as (u & s' & ts' & -> & -> & S & B). cbn [app String.append]. apply (spaced_tok (KStr u) (just quote_mark +++ u +++ just quote_mark)) in S.
    + cbn in S. rewrite sapp_assoc in S. exact S.
    + cbn. auto.
  - destruct L as (s' & ts' & -> & -> & S). apply (spaced_tok KNull "null"); auto. reflexivity.
  - destruct L as (s' & ts' & -> & -> & S). apply (spaced_tok KTrue "true"); auto. reflexivity.
  - destruct L as (s' & ts' & -> & -> & S). apply (spaced_tok KFalse "false"); auto. reflexivity.
  - destruct L as (u & s' & ts' & -> & -> & S & R). cbn [app]. apply (spaced_tok (KNum ("-" +++ u)) (String "-" u)); auto. cbn. split; auto.
    apply num_text_spec. exists "-"%char, u, NSign. auto.
  - destruct L as (u & s' & ts' & -> & -> & S & R). cbn [app]. apply (spaced_tok (KNum ("0" +++ u)) (String "0" u)); auto. cbn. split; auto.
    apply num_text_spec. exists "0"%char, u, NZero. auto.
  - destruct (is_digit c) eqn:D; [|discriminate]. injection H as <- <-. cbn [lex_sound] in L. split; [|exact I].
    destruct L as (u & s' & ts' & -> & -> & S & R). cbn [app]. apply (spaced_tok (KNum (String c "" +++ u)) (String c u)); auto. cbn. split; auto.
    apply num_text_spec. exists c, u, NInt. split; auto. split; auto. unfold num_start. rewrite D.
    replace (code c =? 45)%N with false by (symmetry; now apply N.eqb_neq). replace (code c =? 48)%N with false by (symmetry; now apply N.eqb_neq). auto.
Qed.
Lemma lex_is_sound : forall s st ts, good_state st -> jlex st s = Some ts -> lex_sound st s ts.
Proof.
  induction s as [|c s IH]; intros st ts G H; cbn [jlex] in H.
  - destruct st as [|m t|p x|b|b|n b]; cbn in H; try discriminate.
    + injection H as <-. cbn. constructor. cbn. auto.
    + destruct (num_end p) eqn:E; [|discriminate]. injection H as <-. cbn. exists "", "", []. rewrite (sapp_nil_r x).
      split; auto. split; auto. split; [constructor; cbn; auto|]. cbn. auto.
  - destruct (lex_step st c) as [[ts1 st']|] eqn:E; [|discriminate].
    destruct (jlex st' s) as [more|] eqn:L; [|discriminate]. injection H as <-.
    destruct st as [|m t|p x|b|b|n b]; cbn [lex_step] in E.
    + assert (G' : good_state st').
      { unfold lex_between in E. destruct (is_space c); [injection E as _ <-; exact I|].
        repeat (match type of E with (if ?b then _ else _) = _ => destruct b end; [injection E as _ <-; cbn; try discriminate; exact I|]). discriminate. }
      apply IH in L; auto. apply (between_sound _ _ _ _ _ E L).
    + destruct m as [|d m]; [discriminate|]. destruct (Ascii.eqb_spec d c) as [->|]; [|discriminate].
      destruct m as [|d' m]; injection E as <- <-.
      * apply IH in L; [|exact I]. cbn in L |- *. exists s, more. auto.
      * apply IH in L; [|cbn; discriminate]. cbn in L |- *. destruct L as (s' & ts' & -> & -> & S). exists s', ts'. auto.
    + destruct (num_step p c) as [p'|] eqn:P.
      * injection E as <- <-. apply IH in L; [|exact I]. cbn in L |- *. destruct L as (u & s' & ts' & -> & -> & S & R).
        exists (String c u), s', ts'. rewrite snoc_app. split; auto. split; auto. split; auto. cbn. rewrite P. auto.
      * destruct (num_end p && negb (is_digit c)) eqn:N; [|discriminate]. destruct (lex_between c) as [[ts2 st2]|] eqn:B; [|discriminate].
        injection E as <- <-.
        assert (G' : good_state st2).
        { unfold lex_between in B. destruct (is_space c); [injection B as _ <-; exact I|].
          repeat (match type of B with (if ?b then _ else _) = _ => destruct b end; [injection B as _ <-; cbn; try discriminate; exact I|]). discriminate. }
        apply IH in L; auto. destruct (between_sound _ _ _ _ _ B L) as [S _]. cbn.
        exists "", (String c s), (ts2 ++ more). rewrite (sapp_nil_r x). split; auto. split; auto. split; auto. cbn. apply andb_true_iff in N. tauto.
    + destruct (N.eqb_spec (code c) 34) as [Q|Q].
      * injection E as <- <-. apply IH in L; [|exact I]. cbn in L |- *. exists "", s, more. rewrite (sapp_nil_r b).
        rewrite (code_is c _ Q ltac:(reflexivity)). split; auto. split; auto. split; auto. constructor.
      * destruct (N.eqb_spec (code c) 92) as [K|K].
        -- injection E as <- <-. apply IH in L; [|exact I]. cbn in L |- *. destruct L as (u & s' & ts' & -> & -> & S & B).
           exists (String c u), s', ts'. rewrite snoc_app. split; auto. split; auto. split; auto. rewrite (code_is c _ K ltac:(reflexivity)). exact B.
        -- destruct (code c <? 32)%N eqn:C; [discriminate|]. injection E as <- <-. apply IH in L; [|exact I]. cbn in L |- *.
           destruct L as (u & s' & ts' & -> & -> & S & B). exists (String c u), s', ts'. rewrite snoc_app. split; auto. split; auto. split; auto.
           constructor; auto. apply plain_spec. rewrite !N.eqb_neq. auto.
    + destruct (N.eqb_spec (code c) 117) as [Q|Q].
      * injection E as <- <-. apply IH in L; [|cbn; discriminate]. cbn in L |- *. destruct L as (u & s' & ts' & -> & -> & S & c1 & r1 & -> & H1 & c2 & r2 & -> & H2 & c3 & r3 & -> & H3 & c4 & r4 & -> & H4 & B).
        exists (String c (String c1 (String c2 (String c3 (String c4 r4))))), s', ts'. rewrite snoc_app. split; auto. split; auto. split; auto.
        rewrite (code_is c _ Q ltac:(reflexivity)). apply body_hex; auto.
      * destruct (short_escape c) as [x|] eqn:X; [|discriminate]. injection E as <- <-. apply IH in L; [|exact I]. cbn in L |- *.
        destruct L as (u & s' & ts' & -> & -> & S & B). exists (String c u), s', ts'. rewrite snoc_app. split; auto. split; auto. split; auto.
        apply (body_escape c x); auto. now apply short_escape_spec.
    + destruct (is_hex c) eqn:X; [|discriminate]. apply is_hex_spec in X. injection E as <- <-. destruct n as [|[|k]]; [cbn in G; congruence| |].
      * apply IH in L; [|exact I]. cbn in L |- *. destruct L as (u & s' & ts' & -> & -> & S & B).
        exists (String c u), s', ts'. rewrite snoc_app. split; auto. split; auto. split; auto. exists c, u. auto.
      * apply IH in L; [|cbn; discriminate]. cbn [lex_sound] in L |- *. destruct L as (u & s' & ts' & -> & -> & S & B).
        exists (String c u), s', ts'. rewrite snoc_app. split; auto. split; auto. split; auto. exists c, u. auto.
Qed.
