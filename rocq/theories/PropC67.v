(** C67: the text of a JSON file is read for what it says. *)
From Verif Require Import StringFacts SameFacts SpecFs.

(** The reader accepts exactly the texts of the grammar, as the tree the grammar gives them *)
Theorem C67_syntax : forall s r, parse_tree s = Some r <-> json_document r s.
Proof. exact parse_exact. Qed.
Print Assumptions C67_syntax.

(** A string is decoded exactly if its escapes are complete and its bytes are UTF-8, to what it spells *)
Theorem C67_strings : forall b s, body b -> (json_string b = Some s <-> string_of_body b s).
Proof. exact json_string_spec. Qed.
Print Assumptions C67_strings.
Theorem C67_utf8 : forall s, utf8_valid s = true <-> unicode s.
Proof. exact utf8_valid_spec. Qed.
Print Assumptions C67_utf8.

Theorem C67_value : forall text j, read_json text = Some j <-> text_holds text j.
Proof. exact read_json_spec. Qed.
Print Assumptions C67_value.

(** No text holds two values *)
Theorem C67_one_value : forall text j j', text_holds text j -> text_holds text j' -> j = j'.
Proof. intros text j j' H H'. apply read_json_spec in H, H'. congruence. Qed.
Print Assumptions C67_one_value.

(** White space around the text does not matter *)
Theorem C67_blanks : forall a z text j, blank_text a -> blank_text z -> text_holds text j -> text_holds (a +++ text +++ z) j.
Proof.
  intros a z text j A Z (r & (a' & t & z' & -> & A' & T & Z') & S). exists r. split; auto.
  exists (a +++ a'), t, (z' +++ z). rewrite !sapp_assoc. split; auto. split; [apply blank_app; auto|]. split; auto. apply blank_app; auto.
Qed.
Print Assumptions C67_blanks.

(** Every value can be written *)
Lemma decimal_of : forall n, exists t, decimal t n /\ (n = 0 /\ t = "0" \/ n <> 0 /\ exists c r, t = String c r /\ digit_char c /\ c <> "0"%char /\ all digit_char r).
Proof.
  induction n as [n IH] using lt_wf_ind. destruct (Nat.lt_ge_cases n 10) as [L|L].
  - exists (String (ascii_of_nat (48 + n)) ""). split; [constructor; split; auto|]. destruct n as [|n]; [left; auto|right]. split; [discriminate|].
    exists (ascii_of_nat (48 + S n)), "". split; auto. unfold digit_char. rewrite nat_ascii_embedding by lia. split; [lia|]. split; [|exact I].
    intros E. apply (f_equal nat_of_ascii) in E. rewrite nat_ascii_embedding in E by lia. cbn in E. lia.
  - destruct (IH (n / 10)) as (t & D & H); [apply Nat.div_lt; lia|]. pose proof (Nat.div_mod n 10 ltac:(lia)) as E. pose proof (Nat.mod_upper_bound n 10 ltac:(lia)) as M.
    pose proof (Nat.div_str_pos n 10 ltac:(lia)) as Q.
    exists (t +++ String (ascii_of_nat (48 + n mod 10)) ""). split.
    + rewrite E at 2. constructor; auto. split; auto.
    + right. split; [lia|]. destruct H as [[Z _]|(_ & c & r & -> & C & N & A)]; [lia|]. exists c, (r +++ String (ascii_of_nat (48 + n mod 10)) ""). split; auto. split; auto. split; auto.
      apply all_app. split; auto. cbn [all]. split; auto. unfold digit_char. rewrite nat_ascii_embedding by lia. lia.
Qed.
Lemma number_of n : exists t, number t /\ decimal t n.
Proof.
  destruct (decimal_of n) as (t & D & H). exists t. split; auto. exists "", t, "", "". rewrite !sapp_nil_r. split; auto. split; auto.
  split; [|split; left; auto]. destruct H as [[_ ->]|(_ & H)]; [left; auto|right; exact H].
Qed.
Lemma spelling s : exists b, body b /\ spells b s.
Proof.
  induction s as [|c s (b & B & S)]; [exists ""; split; constructor|].
  destruct (N.ltb_spec (code c) 32) as [L|L].
  - set (d n := ascii_of_nat (48 + N.to_nat n)).
    assert (V : exists a3 a4, hex_number "0" "0" a3 a4 (code c)).
    { assert (G : forallb (fun c => negb (code c <? 32)%N || existsb (fun a3 => existsb (fun a4 => match hex4 "0" "0" a3 a4 with Some n => (n =? code c)%N | None => false end) all_chars) (List.map ascii_of_nat [48; 49])) all_chars = true) by (vm_compute; reflexivity).
      pose proof (by_chars _ G c) as K. cbn beta in K. apply N.ltb_lt in L. rewrite L in K. cbn [negb orb] in K.
      apply existsb_exists in K. destruct K as (a3 & _ & K). apply existsb_exists in K. destruct K as (a4 & _ & K).
      destruct (hex4 "0" "0" a3 a4) as [n|] eqn:H; [|discriminate]. apply N.eqb_eq in K. subst n. exists a3, a4. apply hex4_spec, H. }
    destruct V as (a3 & a4 & V). exists (String backslash (String "u" (String "0" (String "0" (String a3 (String a4 b)))))). split.
    + destruct V as (x1 & x2 & x3 & x4 & V1 & V2 & V3 & V4 & _). apply body_hex; auto; eexists; eauto.
    + apply (sp_hex "0" "0" a3 a4 (code c) (String c "")); auto; [left; lia|]. apply enc1_of. lia.
  - destruct (N.eqb_spec (code c) 34) as [Q|Q]; [|destruct (N.eqb_spec (code c) 92) as [K|K]].
    + rewrite (code_is c _ Q ltac:(reflexivity)). exists (String backslash (String (chr 34) b)). split; [apply (body_escape _ (chr 34)); auto|apply sp_escape; auto]; left; reflexivity.
    + rewrite (code_is c _ K ltac:(reflexivity)). exists (String backslash (String (chr 92) b)). split; [apply (body_escape _ (chr 92)); auto|apply sp_escape; auto]; right; left; reflexivity.
    + assert (P : plain_char c) by (apply plain_spec; rewrite !N.eqb_neq, N.ltb_ge; auto).
      exists (String c b). split; constructor; auto.
Qed.
Section Ind.
  Variable P : json -> Prop.
  Hypothesis Pnull : P JNull.
  Hypothesis Pbool : forall b, P (JBool b).
  Hypothesis Pnat : forall n, P (JNat n).
  Hypothesis Pnum : forall t, P (JNum t).
  Hypothesis Pstr : forall s, P (JStr s).
  Hypothesis Parr : forall l, Forall P l -> P (JArr l).
  Hypothesis Pobj : forall l, Forall (fun x => P (snd x)) l -> P (JObj l).
  Hypothesis Pbad : P JBad.
  Fixpoint any_json (j : json) : P j :=
    match j with
    | JNull => Pnull | JBool b => Pbool b | JNat n => Pnat n | JNum t => Pnum t | JStr s => Pstr s | JBad => Pbad
    | JArr l => Parr l ((fix go (l : list json) : Forall P l := match l with [] => Forall_nil _ | x :: l' => Forall_cons _ (any_json x) (go l') end) l)
    | JObj l => Pobj l ((fix go (l : list (string * json)) : Forall (fun x => P (snd x)) l :=
                           match l with [] => Forall_nil _ | (k, x) :: l' => Forall_cons (k, x) (any_json x) (go l') end) l)
    end.
End Ind.
Lemma blank_nil : blank_text "".
Proof. exact I. Qed.
Lemma text_of : forall j, writable j -> exists r t, jtext r t /\ stands_for r j.
Proof.
  induction j as [|b|n|t|s|l F|l F|] using any_json; intros W; inversion W; subst.
  - exists RNull, "null". split; constructor.
  - exists (RBool b), (if b then "true" else "false"). split; [destruct b|]; constructor.
  - destruct (number_of n) as (t & N & D). exists (RNum t), t. split; constructor; auto.
  - exists (RNum t), t. split; constructor; auto.
  - destruct (spelling s) as (b & B & S). exists (RStr b), (just quote_mark +++ b +++ just quote_mark). split; constructor; auto. split; auto.
  - assert (K : exists rs, Forall2 stands_for rs l /\ (l = [] \/ exists t, elements rs t)).
    { clear W. induction l as [|j l IH]; [exists []; auto|]. inversion F; subst. inversion H0; subst. destruct IH as (rs & A & T); auto.
      destruct (H2 H4) as (r & t & J & S). exists (r :: rs). split; [constructor; auto|]. right. destruct T as [->|(t' & T)].
      - inversion A; subst. exists ("" +++ t +++ ""). constructor; auto; exact I.
      - exists ("" +++ t +++ "" +++ "," +++ t'). constructor; auto; exact I. }
    destruct K as (rs & A & [->|(t & T)]).
    + inversion A; subst. exists (RArr []), ("[" +++ "" +++ "]"). split; constructor; auto. exact I.
    + exists (RArr rs), ("[" +++ t +++ "]"). split; constructor; auto.
  - assert (K : exists rs, Forall2 (fun x y => string_of_body (fst x) (fst y) /\ stands_for (snd x) (snd y)) rs l /\ (l = [] \/ exists t, members rs t)).
    { clear W. induction l as [|[k j] l IH]; [exists []; auto|]. inversion F; subst. inversion H0 as [|? ? [U Wj] Wl]; subst. cbn [fst snd] in *. destruct IH as (rs & A & T); auto.
      destruct (H2 Wj) as (r & t & J & S). destruct (spelling k) as (b & B & Sk). exists ((b, r) :: rs). split; [constructor; [split; [split|]|]; auto|]. right. destruct T as [->|(t' & T)].
      - inversion A; subst. exists ("" +++ just quote_mark +++ b +++ just quote_mark +++ "" +++ ":" +++ "" +++ t +++ ""). constructor; auto; exact I.
      - exists ("" +++ just quote_mark +++ b +++ just quote_mark +++ "" +++ ":" +++ "" +++ t +++ "" +++ "," +++ t'). constructor; auto; exact I. }
    destruct K as (rs & A & [->|(t & T)]).
    + inversion A; subst. exists (RObj []), ("{" +++ "" +++ "}"). split; constructor; auto. exact I.
    + exists (RObj rs), ("{" +++ t +++ "}"). split; constructor; auto.
Qed.
Theorem C67_every : forall j, writable j -> exists text, text_holds text j.
Proof.
  intros j W. destruct (text_of j W) as (r & t & J & S). exists t, r. split; auto. exists "", t, "". rewrite sapp_nil_r. split; auto. split; [exact I|]. split; [auto|exact I].
Qed.
Print Assumptions C67_every.

(** The schema file: a text that holds a value that says [js], within the limit on nesting; anything else is
    an error *)
Lemma levels_height t : levels t (type_height t).
Proof.
  assert (K : forall n t, type_height t <= n -> levels t (type_height t)).
  { induction n as [|n IH]; intros [k m [u|]] L; cbn in *; try lia; constructor; try (apply IH; lia). }
  apply (K (type_height t)). auto.
Qed.
Lemma levels_unique t m : levels t m -> m = type_height t.
Proof. induction 1; cbn; congruence. Qed.
Lemma shallow_spec js : shallow js = true <-> fits js.
Proof.
  unfold shallow, fits. rewrite forallb_forall. split.
  - intros H t l f m I L J Lv. specialize (H t I). rewrite forallb_forall in H. apply levels_unique in Lv. subst m. apply Nat.leb_le, H.
    apply in_or_app. destruct L as [-> | ->]; cbn; auto.
  - intros H t I. apply forallb_forall. intros f J. apply Nat.leb_le. apply in_app_or in J.
    destruct J as [J|J]; [destruct (jt_fields t) as [l|] eqn:E|destruct (jt_input_fields t) as [l|] eqn:E]; cbn in J; try contradiction;
      apply (H t l f); auto using levels_height.
Qed.
Theorem C67_schema : forall e text js,
  schema_of_text e text = SRDecoded js <-> exists j, text_holds text j /\ says_schema j js /\ fits js.
Proof.
  intros e text js. unfold schema_of_text. split.
  - destruct (read_json text) as [j|] eqn:R; [|discriminate]. destruct (d_schema j) as [js'|] eqn:D; [|discriminate].
    destruct (shallow js') eqn:S; [|discriminate]. intros H. injection H as <-. exists j. split; [apply read_json_spec; auto|].
    split; [apply schema_decodes; auto|apply shallow_spec; auto].
  - intros (j & T & S & F). apply read_json_spec in T. apply schema_decodes in S. apply shallow_spec in F. rewrite T, S, F. reflexivity.
Qed.
Print Assumptions C67_schema.
Theorem C67_schema_rejected : forall fuel wo a sched cf e text,
  load_config (ca_config_file a) (wo_config wo) = Ok cf ->
  wo_schema wo (rc_schema_path (merge_config (wo_ncpus wo) a cf)) = schema_of_text e text ->
  (forall j js, text_holds text j -> says_schema j js -> ~ fits js) ->
  exists out, qlc fuel wo a sched = Exited 1 out (wo_fs wo) /\
    out = fst (exit_report [simple_message CompileError ("malformed schema: JSON parse error: " +++ e)]).
Proof.
  intros fuel wo a sched cf e text L S N. unfold qlc. rewrite L. cbn zeta. rewrite S.
  assert (E : schema_of_text e text = SRJsonError e).
  { destruct (schema_of_text e text) as [js|x|x] eqn:E.
    - apply C67_schema in E. destruct E as (j & T & Sy & F). exfalso. apply (N j js T Sy F).
    - unfold schema_of_text in E. destruct (read_json text) as [j|]; [|discriminate]. destruct (d_schema j) as [js|]; [|discriminate]. destruct (shallow js); discriminate.
    - unfold schema_of_text in E. destruct (read_json text) as [j|]; [|congruence]. destruct (d_schema j) as [js|]; [|congruence]. destruct (shallow js); congruence. }
  rewrite E. eexists. split; reflexivity.
Qed.
Print Assumptions C67_schema_rejected.

(** The configuration file likewise, without a limit *)
Theorem C67_config : forall e text c,
  config_of_text e text = CRDecoded c <-> exists j, text_holds text j /\ says_config j c.
Proof.
  intros e text c. unfold config_of_text, config_from. split.
  - destruct (read_json text) as [j|] eqn:R; [|discriminate]. destruct (d_config j) as [c'|] eqn:D; [|discriminate].
    intros H. injection H as <-. exists j. split; [apply read_json_spec; auto|apply config_decodes; auto].
  - intros (j & T & S). apply read_json_spec in T. apply config_decodes in S. rewrite T, S. reflexivity.
Qed.
Print Assumptions C67_config.
Theorem C67_config_rejected : forall fuel wo a sched e text,
  wo_config wo (match ca_config_file a with Some p => p | None => ".qlcrc.json" end) = config_of_text e text ->
  (forall j c, text_holds text j -> ~ says_config j c) ->
  exists out, qlc fuel wo a sched = Exited 1 out (wo_fs wo).
Proof.
  intros fuel wo a sched e text S N. unfold qlc, load_config. rewrite S.
  assert (E : config_of_text e text = CRDecodeError e).
  { destruct (config_of_text e text) as [c|x|x|x] eqn:E.
    - apply C67_config in E. destruct E as (j & T & Sy). exfalso. apply (N j c T Sy).
    - unfold config_of_text, config_from in E. destruct (read_json text) as [j|]; [|congruence]. destruct (d_config j); congruence.
    - unfold config_of_text, config_from in E. destruct (read_json text) as [j|]; [|congruence]. destruct (d_config j); congruence.
    - unfold config_of_text, config_from in E. destruct (read_json text) as [j|]; [|congruence]. destruct (d_config j); congruence. }
  rewrite E. eexists. reflexivity.
Qed.
Print Assumptions C67_config_rejected.

(** ** Examples *)

(** A configuration with white space, escapes and an unknown entry whose string is no Unicode *)
Definition config_text : string := "{ ""schema\u0046ile"" : ""a\/\uD83D\uDE00.json"", ""numThreads"":8,
  ""x"": [""\uD800"", -1.5e+3, {}, []] }".
Example C67_config_nonvacuous : exists c, config_of_text "" config_text = CRDecoded c /\ cf_num_threads c = Some 8 /\
  cf_schema_path c = Some ("a/" +++ utf8 128512 +++ ".json") /\ exists j, text_holds config_text j /\ says_config j c.
Proof.
  destruct (config_of_text "" config_text) as [c| | |] eqn:E; try (vm_compute in E; discriminate). exists c.
  split; auto. pose proof E as E'. apply C67_config in E'. vm_compute in E. injection E as <-. repeat split. exact E'.
Qed.
(** The same string where it matters is an error, as are a trailing comma, a comment, a leading zero, a byte
    order mark, a line break in a string, something after the value, nothing at all *)
Definition no_config (text : string) : Prop := config_of_text "e" text = CRDecodeError "e".
Example C67_config_nothing : List.Forall no_config
  ["{""schemaFile"": ""\uD800""}"; "{""\uD800"": 1}"; "{""numThreads"": 8,}"; "{} // none"; "{""numThreads"": 08}";
   String (ascii_of_nat 239) (String (ascii_of_nat 187) (String (ascii_of_nat 191) "{}"));
   "{""schemaFile"": ""a" +++ nl +++ "b""}"; "{} {}"; ""; "{""numThreads"": 1.0}"; "{""numThreads"": 18446744073709551616}"].
Proof. repeat constructor. Qed.

(** Types nested 120 deep are read, 121 deep are not, although the text is JSON and says the types *)
Fixpoint nested (n : nat) (t : string) : string :=
  match n with 0 => t | S n' => "{""kind"":""LIST"",""ofType"":" +++ nested n' t +++ "}" end.
Definition deep_text (n : nat) : string :=
  "{""data"":{""__schema"":{""types"":[{""kind"":""OBJECT"",""name"":""Q"",""fields"":[{""name"":""f"",""type"":"
  +++ nested n "{""kind"":""SCALAR"",""name"":""Int""}" +++ "}]}]}}}".
Example C67_schema_nonvacuous : exists js j, schema_of_text "" (deep_text 119) = SRDecoded js /\
  text_holds (deep_text 119) j /\ says_schema j js /\ fits js.
Proof.
  destruct (schema_of_text "" (deep_text 119)) as [js| |] eqn:E; try (vm_compute in E; discriminate). exists js.
  apply C67_schema in E as (j & H). exists j. auto.
Qed.
Theorem C67_deep_refuted : exists text j js, text_holds text j /\ says_schema j js /\ forall e, schema_of_text e text = SRJsonError e.
Proof.
  destruct (read_json (deep_text 120)) as [j|] eqn:R; [|vm_compute in R; discriminate]. exists (deep_text 120), j.
  destruct (d_schema j) as [js|] eqn:D.
  - exists js. split; [apply read_json_spec, R|]. split; [apply schema_decodes, D|]. intros e. unfold schema_of_text. rewrite R, D.
    replace (shallow js) with false; auto. vm_compute in R. injection R as <-. vm_compute in D. injection D as <-. vm_compute. reflexivity.
  - exfalso. vm_compute in R. injection R as <-. vm_compute in D. discriminate.
Qed.
Print Assumptions C67_deep_refuted.
