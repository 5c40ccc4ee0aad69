(** Facts about reading JSON texts: the grammar. *)
From Verif Require Export LexFacts.

Scheme jtext_min := Minimality for jtext Sort Prop
  with elements_min := Minimality for elements Sort Prop
  with members_min := Minimality for members Sort Prop.
Combined Scheme grammar_ind from jtext_min, elements_min, members_min.

(** ** Everything that is accepted is written by the grammar *)
Lemma spaced_inv t ts s : spaced (t :: ts) s ->
  exists w u s', s = w +++ u +++ s' /\ blank_text w /\ tok_text t u /\ spaced ts s'.
Proof. intros H. inversion H; subst. exists w, u, s0. auto. Qed.
Definition reads_tree (r : jtree) : Prop := forall ts s, spaced (toks r ++ ts) s ->
  exists w t s', s = w +++ t +++ s' /\ blank_text w /\ jtext r t /\ spaced ts s'.
Lemma sound_elements : forall m v ts s, Forall reads_tree (v :: m) ->
  spaced (toks v ++ flat_map (fun y => KComma :: y) (List.map toks m) ++ KCloseArr :: ts) s ->
  exists b s', s = b +++ "]" +++ s' /\ elements (v :: m) b /\ spaced ts s'.
Proof.
  induction m as [|v' m IH]; intros v ts s F S; inversion F as [|? ? Hv Fm]; subst.
  - cbn in S. apply Hv in S. destruct S as (w & t & s1 & -> & W & T & S). apply spaced_inv in S.
    destruct S as (z & u & s2 & -> & Z & U & S). cbn in U. subst u. exists (w +++ t +++ z), s2. split; [rewrite !sapp_assoc; auto|].
    split; auto. constructor; auto.
  - cbn [List.map flat_map app] in S. apply Hv in S. destruct S as (w & t & s1 & -> & W & T & S). apply spaced_inv in S.
    destruct S as (z & u & s2 & -> & Z & U & S). cbn in U. subst u. rewrite <- app_assoc in S. apply IH in S; auto.
    destruct S as (b & s3 & -> & E & S). exists (w +++ t +++ z +++ "," +++ b), s3. split; [rewrite !sapp_assoc; auto|].
    split; auto. constructor; auto.
Qed.
Lemma sound_members : forall m k v ts s, Forall (fun x => reads_tree (snd x)) ((k, v) :: m) ->
  spaced (mtoks (k, v) ++ flat_map (fun y => KComma :: y) (List.map mtoks m) ++ KCloseObj :: ts) s ->
  exists b s', s = b +++ "}" +++ s' /\ members ((k, v) :: m) b /\ spaced ts s'.
Proof.
  induction m as [|[k' v'] m IH]; intros k v ts s F S; inversion F as [|? ? Hv Fm]; subst; cbn [snd] in Hv;
    unfold mtoks at 1 in S; cbn [fst snd app] in S;
    apply spaced_inv in S; destruct S as (wa & ua & s1 & -> & Wa & [-> Ba] & S);
    apply spaced_inv in S; destruct S as (wb & ub & s2 & -> & Wb & Ub & S); cbn in Ub; subst ub.
  - cbn in S. apply Hv in S. destruct S as (w & t & s3 & -> & W & T & S). apply spaced_inv in S.
    destruct S as (z & u & s4 & -> & Z & U & S). cbn in U. subst u.
    exists (wa +++ just quote_mark +++ k +++ just quote_mark +++ wb +++ ":" +++ w +++ t +++ z), s4. split; [rewrite !sapp_assoc; auto|].
    split; auto. constructor; auto.
  - cbn [List.map flat_map app] in S. apply Hv in S. destruct S as (w & t & s3 & -> & W & T & S). apply spaced_inv in S.
    destruct S as (z & u & s4 & -> & Z & U & S). cbn [tok_text] in U. subst u. rewrite <- app_assoc in S. apply IH in S; auto.
    destruct S as (b & s5 & -> & E & S).
    exists (wa +++ just quote_mark +++ k +++ just quote_mark +++ wb +++ ":" +++ w +++ t +++ z +++ "," +++ b), s5. split; [rewrite !sapp_assoc; auto|].
    split; auto. constructor; auto.
Qed.
Lemma tree_sound : forall r, reads_tree r.
Proof.
  induction r as [|[]|t|b|l F|l F] using jtree_ind'; intros ts s S.
  1-5: cbn [toks app] in S; apply spaced_inv in S; destruct S as (w & u & s' & -> & W & U & S); cbn in U;
    first [subst u | destruct U as [-> U]]; eexists w, _, s'; (split; [reflexivity|]); (split; [auto|]); (split; [constructor; auto|auto]).
  - cbn [toks app] in S. rewrite <- app_assoc in S. apply spaced_inv in S. destruct S as (w & u & s' & -> & W & U & S). cbn in U. subst u. cbn [app] in S.
    destruct l as [|v m].
    + cbn in S. apply spaced_inv in S. destruct S as (w' & u & s2 & -> & W' & U & S). cbn in U. subst u.
      exists w, ("[" +++ w' +++ "]"), s2. split; [cbn; rewrite !sapp_assoc; auto|]. split; auto. split; auto. constructor; auto.
    + cbn [List.map commas] in S. rewrite <- app_assoc in S. apply sound_elements in S; auto. destruct S as (b & s2 & -> & E & S).
      exists w, ("[" +++ b +++ "]"), s2. split; [cbn; rewrite !sapp_assoc; auto|]. split; auto. split; auto. constructor; auto.
  - rewrite toks_obj in S. cbn [app] in S. rewrite <- app_assoc in S. apply spaced_inv in S. destruct S as (w & u & s' & -> & W & U & S). cbn in U. subst u. cbn [app] in S.
    destruct l as [|[k v] m].
    + cbn in S. apply spaced_inv in S. destruct S as (w' & u & s2 & -> & W' & U & S). cbn in U. subst u.
      exists w, ("{" +++ w' +++ "}"), s2. split; [cbn; rewrite !sapp_assoc; auto|]. split; auto. split; auto. constructor; auto.
    + cbn [List.map commas] in S. rewrite <- app_assoc in S. apply sound_members in S; auto. destruct S as (b & s2 & -> & E & S).
      exists w, ("{" +++ b +++ "}"), s2. split; [cbn; rewrite !sapp_assoc; auto|]. split; auto. split; auto. constructor; auto.
Qed.
Lemma parse_sound s r : parse_tree s = Some r -> json_document r s.
Proof.
  unfold parse_tree. destruct (jlex LBetween s) as [ts|] eqn:L; [|discriminate]. intros P. apply run_exact in P. subst ts.
  apply lex_is_sound in L; [|exact I]. cbn in L. rewrite <- (app_nil_r (toks r)) in L. apply tree_sound in L.
  destruct L as (w & t & s' & -> & W & T & S). inversion S; subst. exists w, t, s'. auto.
Qed.

(** ** Everything that is written by the grammar is accepted *)
Definition onto (ts : list jtoken) (o : option (list jtoken)) : option (list jtoken) := option_map (fun more => ts ++ more) o.
Lemma onto_onto a b o : onto a (onto b o) = onto (a ++ b) o.
Proof. destruct o; cbn; auto. rewrite app_assoc. auto. Qed.
Lemma onto_nil o : onto [] o = o.
Proof. destruct o; auto. Qed.
Lemma lex_cons st c s ts st' : lex_step st c = Some (ts, st') -> jlex st (String c s) = onto ts (jlex st' s).
Proof. intros E. cbn [jlex]. rewrite E. destruct (jlex st' s); reflexivity. Qed.
Lemma lex_blank w s : blank_text w -> jlex LBetween (w +++ s) = jlex LBetween s.
Proof.
  induction w as [|c w IH]; intros B; auto. destruct B as [B W]. cbn [String.append]. rewrite (lex_cons _ _ _ [] LBetween).
  - rewrite onto_nil. apply IH, W.
  - cbn [lex_step]. unfold lex_between. apply is_space_spec in B. rewrite B. reflexivity.
Qed.
Lemma lex_body b : body b -> forall acc s, jlex (LStr acc) (b +++ String quote_mark s) = onto [KStr (acc +++ b)] (jlex LBetween s).
Proof.
  induction 1 as [|c b P B IH|c x b E B IH|a1 a2 a3 a4 b H1 H2 H3 H4 B IH]; intros acc s; cbn [String.append just].
  - rewrite sapp_nil_r. apply lex_cons. reflexivity.
  - apply plain_spec in P. destruct P as (P1 & P2 & P3). rewrite (lex_cons _ _ _ [] (LStr (acc +++ String c ""))) by (cbn [lex_step]; rewrite P1, P2, P3; auto).
    rewrite onto_nil, IH, snoc_app. reflexivity.
  - rewrite (lex_cons _ _ _ [] (LEscape (acc +++ String backslash ""))) by reflexivity. rewrite onto_nil.
    apply short_escape_spec in E. pose proof (short_escape_not_u _ _ E) as U.
    rewrite (lex_cons _ _ _ [] (LStr ((acc +++ String backslash "") +++ String c ""))) by (cbn [lex_step]; rewrite U, E; auto).
    rewrite onto_nil, IH, snoc_app, snoc_app. reflexivity.
  - rewrite (lex_cons _ _ _ [] (LEscape (acc +++ String backslash ""))) by reflexivity. rewrite onto_nil.
    rewrite (lex_cons _ _ _ [] (LHex 4 ((acc +++ String backslash "") +++ "u"))) by reflexivity. rewrite onto_nil.
    apply is_hex_spec in H1, H2, H3, H4.
    erewrite (lex_cons (LHex 4 _) a1 _ [] _) by (cbn [lex_step]; rewrite H1; reflexivity). rewrite onto_nil.
    erewrite (lex_cons (LHex 3 _) a2 _ [] _) by (cbn [lex_step]; rewrite H2; reflexivity). rewrite onto_nil.
    erewrite (lex_cons (LHex 2 _) a3 _ [] _) by (cbn [lex_step]; rewrite H3; reflexivity). rewrite onto_nil.
    erewrite (lex_cons (LHex 1 _) a4 _ [] _) by (cbn [lex_step]; rewrite H4; reflexivity). rewrite onto_nil.
    rewrite IH, !snoc_app. reflexivity.
Qed.
(** Texts after which a number has ended *)
Definition stops (s : string) : Prop :=
  match s with EmptyString => True | String c _ => forall p, num_step p c = None /\ is_digit c = false end.
Lemma lex_num u : forall p acc s, num_run p u = true -> stops s -> jlex (LNum p acc) (u +++ s) = onto [KNum (acc +++ u)] (jlex LBetween s).
Proof.
  induction u as [|c u IH]; intros p acc s R S; cbn [String.append].
  - rewrite sapp_nil_r. cbn in R. destruct s as [|c s]; cbn [jlex].
    + cbn. rewrite R. reflexivity.
    + cbn [lex_step]. destruct (S p) as [N D]. rewrite N, R, D. cbn [andb negb]. destruct (lex_between c) as [[ts st]|]; [|reflexivity].
      destruct (jlex st s); reflexivity.
  - cbn [num_run] in R. destruct (num_step p c) as [p'|] eqn:P; [|discriminate].
    rewrite (lex_cons _ _ _ [] (LNum p' (acc +++ String c ""))) by (cbn [lex_step]; rewrite P; auto). rewrite onto_nil, IH by auto. rewrite snoc_app. reflexivity.
Qed.
Lemma start_between c p : num_start c = Some p -> lex_between c = Some ([], LNum p (String c "")).
Proof.
  unfold num_start. destruct (N.eqb_spec (code c) 45) as [E|E].
  { rewrite (code_is c _ E ltac:(reflexivity)). intros H. injection H as <-. reflexivity. }
  destruct (N.eqb_spec (code c) 48) as [E0|E0].
  { rewrite (code_is c _ E0 ltac:(reflexivity)). intros H. injection H as <-. reflexivity. }
  destruct (is_digit c) eqn:D; [|discriminate]. intros H. injection H as <-. unfold lex_between.
  assert (K : (48 < code c <= 57)%N). { unfold is_digit in D. rewrite andb_true_iff, !N.leb_le in D. lia. }
  replace (is_space c) with false by (symmetry; unfold is_space; rewrite !orb_false_iff, !N.eqb_neq; lia).
  repeat (match goal with |- context [N.eqb (code c) ?k] => replace (N.eqb (code c) k) with false by (symmetry; apply N.eqb_neq; lia) end).
  rewrite D. reflexivity.
Qed.
Lemma lex_number t s : number t -> stops s -> jlex LBetween (t +++ s) = onto [KNum t] (jlex LBetween s).
Proof.
  intros N S. apply num_text_spec in N. destruct N as (c & r & p & -> & St & R). cbn [String.append].
  rewrite (lex_cons LBetween _ _ [] _ (start_between c p St)). rewrite onto_nil. rewrite lex_num by auto. reflexivity.
Qed.
Lemma stops_cons c s : (forallb (fun d => negb (Ascii.eqb c d)) (list_ascii_of_string "0123456789.eE+-")) = true -> stops (String c s).
Proof.
  intros H p.
  assert (K : forall d, In d (list_ascii_of_string "0123456789.eE+-") -> c <> d).
  { intros d I ->. rewrite forallb_forall in H. specialize (H d I). rewrite Ascii.eqb_refl in H. discriminate. }
  assert (D : is_digit c = false).
  { destruct (is_digit c) eqn:D; auto. exfalso. unfold is_digit in D. rewrite andb_true_iff, !N.leb_le in D.
    assert (J : (code c = 48 \/ code c = 49 \/ code c = 50 \/ code c = 51 \/ code c = 52 \/ code c = 53 \/ code c = 54 \/ code c = 55 \/ code c = 56 \/ code c = 57)%N) by lia.
    repeat (destruct J as [J|J]; [apply code_is in J; [|reflexivity]; revert J; apply K; vm_compute; repeat (first [left; reflexivity|right])|]).
    apply code_is in J; [|reflexivity]; revert J; apply K; vm_compute; repeat (first [left; reflexivity|right]). }
  split; auto.
  assert (E : e_char c = false).
  { destruct (e_char c) eqn:E; auto. apply e_char_spec in E. destruct E as [E|E]; exfalso; revert E; apply K; vm_compute; repeat (first [left; reflexivity|right]). }
  assert (G : forall k, (k < 256)%N -> In (ascii_of_N k) (list_ascii_of_string "0123456789.eE+-") -> (code c =? k)%N = false).
  { intros k L I. apply N.eqb_neq. intros C. apply code_is in C; auto. revert C. apply K, I. }
  unfold num_step. fold (e_char c). rewrite D, E.
  rewrite !(G 48%N), !(G 46%N), !(G 43%N), !(G 45%N) by (try reflexivity; vm_compute; repeat (first [left; reflexivity|right])).
  destruct p; reflexivity.
Qed.
Lemma stops_blank w s : blank_text w -> stops s -> stops (w +++ s).
Proof.
  destruct w as [|c w]; auto. intros [B _] _. cbn [String.append]. apply stops_cons. cbn in B.
  destruct B as [B|[B|[B|[B|[]]]]]; rewrite <- (ascii_nat_embedding c), <- B; reflexivity.
Qed.
Lemma lex_one c t s : lex_between c = Some ([t], LBetween) -> jlex LBetween (String c s) = onto [t] (jlex LBetween s).
Proof. intros H. apply lex_cons, H. Qed.
Lemma lex_quoted k s : body k -> jlex LBetween (just quote_mark +++ k +++ just quote_mark +++ s) = onto [KStr k] (jlex LBetween s).
Proof.
  intros B. cbn [just String.append]. rewrite (lex_cons _ _ _ [] (LStr "")) by reflexivity. rewrite onto_nil.
  rewrite lex_body by auto. reflexivity.
Qed.
Lemma grammar_lexed :
  (forall r t, jtext r t -> forall s, stops s -> jlex LBetween (t +++ s) = onto (toks r) (jlex LBetween s)) /\
  (forall l b, elements l b -> forall s, jlex LBetween (b +++ "]" +++ s) = onto (commas (List.map toks l) ++ [KCloseArr]) (jlex LBetween s)) /\
  (forall l b, members l b -> forall s, jlex LBetween (b +++ "}" +++ s) = onto (commas (List.map mtoks l) ++ [KCloseObj]) (jlex LBetween s)).
Proof.
  apply grammar_ind.
  - intros s S. cbn [String.append]. repeat (erewrite (lex_cons _ _ _ [] _) by (cbn; reflexivity); rewrite onto_nil). 
    erewrite lex_cons by (cbn; reflexivity). reflexivity.
  - intros s S. cbn [String.append]. repeat (erewrite (lex_cons _ _ _ [] _) by (cbn; reflexivity); rewrite onto_nil). 
    erewrite lex_cons by (cbn; reflexivity). reflexivity.
  - intros s S. cbn [String.append]. repeat (erewrite (lex_cons _ _ _ [] _) by (cbn; reflexivity); rewrite onto_nil). 
    erewrite lex_cons by (cbn; reflexivity). reflexivity.
  - intros t N s S. apply lex_number; auto.
  - intros b B s S. rewrite !sapp_assoc. apply lex_quoted, B.
  - intros w W s S. rewrite !sapp_assoc. cbn [String.append]. rewrite (lex_one "[" KOpenArr) by reflexivity.
    rewrite lex_blank by auto. rewrite (lex_one "]" KCloseArr) by reflexivity. rewrite onto_onto. reflexivity.
  - intros l b E IH s S. rewrite !sapp_assoc. cbn [String.append]. rewrite (lex_one "[" KOpenArr) by reflexivity.
    specialize (IH s). cbn [String.append] in IH. rewrite IH, onto_onto. reflexivity.
  - intros w W s S. rewrite !sapp_assoc. cbn [String.append]. rewrite (lex_one "{" KOpenObj) by reflexivity.
    rewrite lex_blank by auto. rewrite (lex_one "}" KCloseObj) by reflexivity. rewrite onto_onto. reflexivity.
  - intros l b E IH s S. rewrite !sapp_assoc. cbn [String.append]. rewrite (lex_one "{" KOpenObj) by reflexivity.
    specialize (IH s). cbn [String.append] in IH. rewrite IH, onto_onto. rewrite toks_obj. reflexivity.
  - intros r t a z A T IH Z s. rewrite !sapp_assoc. rewrite lex_blank by auto. cbn [String.append].
    rewrite IH by (apply stops_blank; auto; apply stops_cons; reflexivity). rewrite lex_blank by auto.
    rewrite (lex_one "]" KCloseArr) by reflexivity. rewrite onto_onto. cbn [List.map commas flat_map]. rewrite app_nil_r. reflexivity.
  - intros r t a z l b A T IH Z E IHe s. rewrite !sapp_assoc. rewrite lex_blank by auto. cbn [String.append].
    rewrite IH by (apply stops_blank; auto; apply stops_cons; reflexivity). rewrite lex_blank by auto.
    rewrite (lex_one "," KComma) by reflexivity. specialize (IHe s). cbn [String.append] in IHe. rewrite IHe, !onto_onto. f_equal.
    destruct l as [|v m]; [inversion E|]. cbn [List.map commas flat_map app]. rewrite <- !app_assoc. cbn [app]. rewrite <- ?app_assoc. reflexivity.
  - intros k r t a b c z A K B C T IH Z s. rewrite !sapp_assoc. rewrite lex_blank by auto. rewrite lex_quoted by auto. rewrite lex_blank by auto.
    cbn [String.append]. rewrite (lex_one ":" KColon) by reflexivity. rewrite lex_blank by auto.
    rewrite IH by (apply stops_blank; auto; apply stops_cons; reflexivity). rewrite lex_blank by auto.
    rewrite (lex_one "}" KCloseObj) by reflexivity. rewrite !onto_onto. cbn [List.map commas flat_map mtoks fst snd app]. rewrite app_nil_r. reflexivity.
  - intros k r t a b c z l x A K B C T IH Z M IHm s. rewrite !sapp_assoc. rewrite lex_blank by auto. rewrite lex_quoted by auto. rewrite lex_blank by auto.
    cbn [String.append]. rewrite (lex_one ":" KColon) by reflexivity. rewrite lex_blank by auto.
    rewrite IH by (apply stops_blank; auto; apply stops_cons; reflexivity). rewrite lex_blank by auto.
    rewrite (lex_one "," KComma) by reflexivity. specialize (IHm s). cbn [String.append] in IHm. rewrite IHm, !onto_onto. f_equal.
    destruct l as [|v m]; [inversion M|]. cbn [List.map commas flat_map mtoks fst snd app]. rewrite <- !app_assoc. cbn [app]. rewrite <- ?app_assoc. reflexivity.
Qed.
Lemma parse_grammar s r : json_document r s -> parse_tree s = Some r.
Proof.
  intros (a & t & z & -> & A & T & Z). unfold parse_tree. rewrite lex_blank by auto.
  destruct grammar_lexed as [G _]. rewrite (G r t T) by (rewrite <- (sapp_nil_r z); apply stops_blank; [auto|exact I]).
  rewrite <- (sapp_nil_r z), lex_blank by auto. cbn [jlex lex_end onto option_map]. rewrite app_nil_r. apply run_complete.
Qed.
Lemma parse_exact s r : parse_tree s = Some r <-> json_document r s.
Proof. split; [apply parse_sound|apply parse_grammar]. Qed.
