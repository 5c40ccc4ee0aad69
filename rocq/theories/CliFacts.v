From Verif Require Export SpecCli BaseFacts.
From Coq Require Import Lia.

Lemma count_filter {A} (Q : A -> Prop) (b : A -> bool) l :
  (forall x, b x = true <-> Q x) -> count Q l (List.length (filter b l)).
Proof.
  intros H. induction l as [|x l IH]; cbn; [constructor|].
  destruct (b x) eqn:E.
  - apply count_yes; auto. apply H. auto.
  - apply count_no; auto. intros Qx. apply H in Qx. congruence.
Qed.
Lemma count_fun {A} (Q : A -> Prop) l n m : count Q l n -> count Q l m -> n = m.
Proof.
  intros H. revert m. induction H; intros m Hm; inversion Hm; subst; auto; contradiction.
Qed.

Lemma error_levelb m : negb (is_warning m) = true <-> is_error_level (ms_level m).
Proof.
  unfold is_warning, is_error_level. destruct (ms_level m); cbn; split; auto; try discriminate.
  intros [H|H]; discriminate.
Qed.
Lemma warning_levelb m : is_warning m = true <-> ms_level m = CompileWarning.
Proof. unfold is_warning. destruct (ms_level m); split; auto; discriminate. Qed.

Lemma count_zero {A} (Q : A -> Prop) l n : count Q l n -> (n = 0 <-> forall x, In x l -> ~ Q x).
Proof.
  induction 1 as [|x l n Qx C IH|x l n Qx C IH].
  - split; [intros _ x []|auto].
  - split; [discriminate|]. intros H. exfalso. apply (H x); cbn; auto.
  - rewrite IH. cbn. split; intros H.
    + intros y [->|I]; auto.
    + intros y I. auto.
Qed.

Lemma exit_code ms :
  (snd (exit_report ms) = 0 <-> forall m, In m ms -> ~ is_error_level (ms_level m)) /\
  (snd (exit_report ms) = 1 <-> exists m, In m ms /\ is_error_level (ms_level m)) /\
  (snd (exit_report ms) = 0 \/ snd (exit_report ms) = 1).
Proof.
  pose proof (count_filter (fun m => is_error_level (ms_level m)) _ ms error_levelb) as C.
  apply count_zero in C as Z.
  assert (E : snd (exit_report ms) = if 0 <? List.length (filter (fun m => negb (is_warning m)) ms) then 1 else 0)
    by reflexivity.
  rewrite E. clear E.
  destruct (List.length (filter (fun m => negb (is_warning m)) ms)) as [|n] eqn:L; cbn [Nat.ltb Nat.leb].
  - split; [|split; auto].
    + split; auto. intros _. apply Z; auto.
    + split; [discriminate|]. intros (m & I & Q). exfalso. apply Z in I; auto.
  - split; [|split; auto].
    + split; [discriminate|]. intros H. apply Z in H. discriminate.
    + split; [intros _|auto].
      assert (In_f : exists m, In m (filter (fun m => negb (is_warning m)) ms)).
      { destruct (filter _ ms) as [|m r]; [discriminate|]. exists m. cbn; auto. }
      destruct In_f as [m I]. apply filter_In in I. exists m. split; [apply I|]. apply error_levelb. apply I.
Qed.

Lemma show_simple lv t : show_message (simple_message lv t) = level_name lv +++ ": " +++ t.
Proof. unfold show_message, simple_message. cbn [ms_level ms_text ms_source]. rewrite sapp_nil_r. reflexivity. Qed.

(** What the code prints: the plural of the warning count follows the error count *)
Lemma exit_text ms e w :
  count (fun m => is_error_level (ms_level m)) ms e -> count (fun m => ms_level m = CompileWarning) ms w ->
  fst (exit_report ms) =
  String.concat "" (List.map (fun m => show_message m +++ nl +++ nl) ms)
  +++ (if 0 <? e then "error: failure due to " +++ counted e "error" +++ nl else "")
  +++ (if 0 <? w then "warning: " +++ string_of_nat w +++ " warning" +++ (if 1 <? e then "s" else "") +++ " emitted" +++ nl else "").
Proof.
  intros Ce Cw.
  pose proof (count_fun _ _ _ _ Ce (count_filter _ _ ms error_levelb)) as Ee.
  pose proof (count_fun _ _ _ _ Cw (count_filter _ _ ms warning_levelb)) as Ew.
  unfold exit_report. cbn [fst]. rewrite <- Ee, <- Ew. rewrite !show_simple. unfold counted.
  apply (f_equal2 append); [reflexivity|]. apply (f_equal2 append).
  - destruct (0 <? e); [|reflexivity]. cbn [level_name]. rewrite !sapp_assoc. reflexivity.
  - destruct (0 <? w); [|reflexivity]. cbn [level_name]. rewrite !sapp_assoc. reflexivity.
Qed.

Lemma string_of_nat_nonempty n : string_of_nat n <> "".
Proof.
  unfold string_of_nat. intros H.
  destruct (Nat.to_uint n); discriminate.
Qed.

Lemma exit_text_ok ms e w :
  count (fun m => is_error_level (ms_level m)) ms e -> count (fun m => ms_level m = CompileWarning) ms w ->
  (fst (exit_report ms) = report_text ms e w <-> (w = 0 \/ (1 <? e) = (1 <? w))).
Proof.
  intros Ce Cw. rewrite (exit_text ms e w Ce Cw). unfold report_text, counted.
  split.
  - intros H. apply sapp_inj_l in H. apply sapp_inj_l in H.
    destruct (0 <? w) eqn:Ew; [|apply Nat.ltb_ge in Ew; left; lia]. right.
    rewrite !sapp_assoc in H. do 2 apply sapp_inj_l in H.
    destruct (1 <? e), (1 <? w); auto; discriminate.
  - intros [->|E]; [reflexivity|]. rewrite E. destruct (0 <? w); auto. rewrite !sapp_assoc. reflexivity.
Qed.

(** *** Displayed lines *)
Lemma count_nl_app a b : count_nl (a +++ b) = count_nl a + count_nl b.
Proof. induction a as [|c a IH]; cbn; auto. rewrite IH. lia. Qed.
Lemma count_nl_strip_cr s : count_nl s = 0 -> count_nl (strip_cr s) = 0.
Proof.
  induction s as [|c s IH]; auto. cbn [count_nl strip_cr]. destruct s as [|c' s'].
  - destruct (Ascii.eqb c (ascii_of_nat 13)); cbn; auto.
  - intros H. cbn [count_nl]. destruct (Ascii.eqb c (ascii_of_nat 10)); [discriminate|].
    cbn [plus] in *. apply IH. auto.
Qed.
Lemma strip_cr_cases s : strip_cr s = s \/ s = strip_cr s +++ String (ascii_of_nat 13) "".
Proof.
  induction s as [|c s IH]; [left; reflexivity|]. cbn [strip_cr]. destruct s as [|c' s'].
  - destruct (Ascii.eqb c (ascii_of_nat 13)) eqn:E; [|auto]. apply Ascii.eqb_eq in E. subst. right. reflexivity.
  - destruct IH as [IH|IH]; [left; congruence|right]. cbn [append]. rewrite <- IH. reflexivity.
Qed.

Lemma lines_from_spec : forall s acc pre k l,
  count_nl acc = 0 -> (pre = "" \/ exists p, pre = p +++ nl) ->
  nth_error (lines_from acc s) k = Some l ->
  line_of (pre +++ acc +++ s) (count_nl pre + k + 1) l.
Proof.
  induction s as [|c s IH]; intros acc pre k l Na Hp H; cbn [lines_from] in H.
  - destruct acc as [|a acc'] eqn:Ea; [destruct k; discriminate|]. rewrite <- Ea in *.
    destruct k; [|destruct k; discriminate]. cbn in H. inversion H; subst l.
    exists pre, "". rewrite sapp_nil_r. split; [auto|]. split; [lia|]. auto.
  - destruct (Ascii.eqb c (ascii_of_nat 10)) eqn:E.
    + apply Ascii.eqb_eq in E. subst c. destruct k; cbn in H.
      * inversion H; subst l. exists pre.
        destruct (strip_cr_cases acc) as [C|C].
        -- exists (nl +++ s). rewrite C. split; [reflexivity|]. split; [lia|]. split; [auto|]. split; [auto|].
           right. left. eauto.
        -- exists (String (ascii_of_nat 13) (nl +++ s)). split.
           ++ rewrite C at 1. rewrite !sapp_assoc. reflexivity.
           ++ split; [lia|]. split; [apply count_nl_strip_cr; auto|]. split; [auto|]. right. right. eauto.
      * specialize (IH "" (pre +++ acc +++ nl) k l eq_refl).
        replace (pre +++ acc +++ String (ascii_of_nat 10) s) with ((pre +++ acc +++ nl) +++ "" +++ s)
          by (rewrite !sapp_assoc; reflexivity).
        replace (count_nl pre + S k + 1) with (count_nl (pre +++ acc +++ nl) + k + 1).
        -- apply IH; auto. right. exists (pre +++ acc). rewrite sapp_assoc. auto.
        -- rewrite !count_nl_app. change (count_nl nl) with 1. lia.
    + specialize (IH (acc +++ String c "") pre k l).
      replace (pre +++ acc +++ String c s) with (pre +++ (acc +++ String c "") +++ s)
        by (rewrite !sapp_assoc; reflexivity).
      apply IH; auto. rewrite count_nl_app. cbn [count_nl]. rewrite E. lia.
Qed.
Lemma lines_spec s k l : nth_error (lines s) k = Some l -> line_of s (k + 1) l.
Proof. intros H. apply (lines_from_spec s "" "" k l); auto. Qed.

Lemma lines_from_nonl a : forall acc s, count_nl a = 0 -> lines_from acc (a +++ s) = lines_from (acc +++ a) s.
Proof.
  induction a as [|c a IH]; intros acc s H; cbn [append].
  - rewrite sapp_nil_r. auto.
  - cbn [count_nl] in H. cbn [lines_from]. destruct (Ascii.eqb c (ascii_of_nat 10)); [discriminate|].
    rewrite IH by auto. rewrite sapp_assoc. reflexivity.
Qed.
Lemma lines_from_nl acc s : lines_from acc (nl +++ s) = strip_cr acc :: lines_from "" s.
Proof. reflexivity. Qed.
Lemma lines_from_pre p : forall acc s, exists ls, lines_from acc (p +++ nl +++ s) = ls ++ lines_from "" s /\
  List.length ls = count_nl p + 1.
Proof.
  induction p as [|c p IH]; intros acc s.
  - exists [strip_cr acc]. auto.
  - cbn [append lines_from count_nl]. destruct (Ascii.eqb c (ascii_of_nat 10)).
    + destruct (IH "" s) as (ls & E & L). exists (strip_cr acc :: ls). rewrite E. cbn [List.length app]. split; [auto|lia].
    + apply IH.
Qed.
Lemma strip_cr_id l : (forall r, l <> r +++ String (ascii_of_nat 13) "") -> strip_cr l = l.
Proof. intros H. destruct (strip_cr_cases l) as [E|E]; auto. exfalso. apply (H (strip_cr l)). auto. Qed.
Lemma strip_cr_cr l : strip_cr (l +++ String (ascii_of_nat 13) "") = l.
Proof.
  induction l as [|c l IH]; [reflexivity|]. cbn [append strip_cr].
  destruct (l +++ String (ascii_of_nat 13) "") as [|c' t] eqn:E; [destruct l; discriminate|].
  rewrite IH. auto.
Qed.
Lemma line_found contents n l :
  line_of contents n l -> l <> "" -> (forall r, l <> r +++ String (ascii_of_nat 13) "") ->
  nth_error (lines contents) (n - 1) = Some l.
Proof.
  intros (pre & rest & -> & Hn & Nl & Hp & Hr) Ne Nc. unfold lines.
  assert (G : nth_error (lines_from "" (l +++ rest)) 0 = Some l).
  { rewrite lines_from_nonl by auto. cbn [append].
    destruct Hr as [->|[[r ->]|[r ->]]].
    - cbn [lines_from]. destruct l; [contradiction|]. reflexivity.
    - rewrite lines_from_nl. cbn. rewrite strip_cr_id; auto.
    - change (String (ascii_of_nat 13) (nl +++ r)) with (String (ascii_of_nat 13) "" +++ (nl +++ r)).
      rewrite lines_from_nonl by reflexivity. rewrite lines_from_nl. cbn [nth_error]. rewrite strip_cr_cr. auto. }
  destruct Hp as [->|[p ->]].
  - cbn in Hn. subst n. cbn [append Nat.sub]. exact G.
  - rewrite sapp_assoc. destruct (lines_from_pre p "" (l +++ rest)) as (ls & -> & L).
    rewrite count_nl_app in Hn. change (count_nl nl) with 1 in Hn.
    rewrite nth_error_app2 by lia. replace (n - 1 - List.length ls) with 0 by lia. exact G.
Qed.

Lemma spaces_len n : String.length (spaces n) = n.
Proof. induction n; cbn; auto. Qed.
Lemma get_app a b k : String.get (String.length a + k) (a +++ b) = String.get k b.
Proof. induction a; cbn; auto. Qed.

Lemma get_lt s k : k < String.length s -> exists c, String.get k s = Some c.
Proof.
  revert k. induction s as [|a s IH]; cbn; intros k H; [lia|].
  destruct k; [eauto|]. apply IH. lia.
Qed.

Lemma location_shown contents p l :
  1 <= pos_line p -> 1 <= pos_col p <= String.length l ->
  nth_error (lines contents) (pos_line p - 1) = Some l ->
  line_of contents (pos_line p) l /\
  exists first second third,
    fmt_line (loc_position contents p) = nl +++ first +++ nl +++ second +++ nl +++ third +++ "^" /\
    second = string_of_nat (pos_line p) +++ " | " +++ l /\
    (exists c, String.get (String.length third) second = Some c /\ String.get (pos_col p - 1) l = Some c).
Proof.
  intros H1 H2 Hl. split.
  { apply lines_spec in Hl. replace (pos_line p - 1 + 1) with (pos_line p) in Hl by lia. auto. }
  unfold fmt_line, loc_position. rewrite Hl. cbn [lo_number lo_line lo_help lo_column].
  set (num := string_of_nat (pos_line p)).
  exists (spaces (String.length num + 1) +++ "|"), (num +++ " | " +++ l),
         (spaces (String.length num + 1) +++ "| " +++ spaces (pos_col p - 1)).
  split; [|split; [auto|]].
  - rewrite !sapp_assoc. rewrite sapp_nil_r. reflexivity.
  - destruct (get_lt l (pos_col p - 1)) as [c Hc]; [lia|]. exists c. split; [|auto].
    rewrite !slen_app, !spaces_len. cbn [String.length].
    replace (String.length num + 1 + (2 + (pos_col p - 1))) with (String.length (num +++ " | ") + (pos_col p - 1))
      by (rewrite slen_app; cbn [String.length]; lia).
    rewrite <- sapp_assoc. rewrite get_app. auto.
Qed.

(** *** Configuration *)
Lemma opt_precedence {A} (a b : option A) d : precedence a b d (opt_get (opt_or a b) d).
Proof.
  unfold precedence, opt_get, opt_or. destruct a, b; repeat split; intros; congruence.
Qed.

Lemma prefix_effective ncpus a f p :
  (bottom_of (merge_config ncpus a f) = BottomPrefix p <->
   (ca_use_custom_scalars a = true \/ cf_use_custom_scalars f = Some true) /\
   (ca_custom_scalar_prefix a = Some p \/
    (ca_custom_scalar_prefix a = None /\ cf_custom_scalar_prefix f = Some p /\ cf_use_custom_scalars f <> None))).
Proof.
  unfold bottom_of, merge_config. cbn [rc_use_custom_scalars rc_custom_scalar_prefix].
  destruct (ca_use_custom_scalars a), (cf_use_custom_scalars f) as [[|]|]; cbn [orb opt_get];
  destruct (ca_custom_scalar_prefix a) as [q|]; cbn [opt_or];
  try destruct (cf_custom_scalar_prefix f) as [q'|].
  all: split; [intros H; try discriminate; try (inversion H; subst) |].
  all: try (split; [tauto|]; solve [left; auto | right; split; [auto|]; split; [auto|discriminate]]).
  all: intros [[H1|H1] [H2|(H2 & H3 & H4)]]; congruence.
Qed.

Lemma prefix_ok ncpus a f :
  cf_use_custom_scalars f <> None \/ cf_custom_scalar_prefix f = None -> forall p,
  bottom_of (merge_config ncpus a f) = BottomPrefix p <->
  (ca_use_custom_scalars a = true \/ cf_use_custom_scalars f = Some true) /\
  (ca_custom_scalar_prefix a = Some p \/
   (ca_custom_scalar_prefix a = None /\ cf_custom_scalar_prefix f = Some p)).
Proof.
  intros G p. rewrite prefix_effective. split.
  - intros (H1 & [H2|(H2 & H3 & H4)]); auto.
  - intros (H1 & [H2|(H2 & H3)]); split; auto. right. repeat split; auto.
    destruct G as [G|G]; [auto|congruence].
Qed.

Lemma or_flag b o : b || opt_get o false = true <-> b = true \/ o = Some true.
Proof. destruct b, o as [[|]|]; cbn; split; auto; intros [H|H]; congruence. Qed.

Lemma config_precedence ncpus a f :
  let r := merge_config ncpus a f in
  let root := rc_root_dir r in
  precedence (ca_root_dir a) None "." root /\
  precedence (ca_schema_path a) (cf_schema_path f) (path_join root "schema.json") (rc_schema_path r) /\
  precedence (ca_num_threads a) (cf_num_threads f) (Nat.min ncpus 8) (rc_number_threads r) /\
  precedence (option_map Some (ca_root_dir_import_prefix a)) (option_map Some (cf_root_dir_import_prefix f)) None
             (rc_root_dir_import_prefix r) /\
  precedence (ca_global_types_module_name a) (cf_global_types_module_name f) "graphql-globals"
             (rc_global_types_module_name r) /\
  precedence (ca_docnode_module_name a) (cf_docnode_module_name f) "@notarize/qlc-cli/typed-documentnode"
             (rc_docnode_module_name r) /\
  (rc_show_deprecation_warnings r = true <->
   ca_show_deprecation_warnings a = true \/ cf_show_deprecation_warnings f = Some true) /\
  (rc_use_custom_scalars r = true <-> ca_use_custom_scalars a = true \/ cf_use_custom_scalars f = Some true) /\
  (rc_disable_readonly_types r = true <->
   ca_disable_readonly_types a = true \/ cf_disable_readonly_types f = Some true).
Proof.
  cbn zeta. unfold merge_config. cbn.
  split; [unfold precedence; destruct (ca_root_dir a); cbn; repeat split; intros; congruence|].
  split; [apply opt_precedence|]. split; [apply opt_precedence|].
  split; [unfold precedence; destruct (ca_root_dir_import_prefix a), (cf_root_dir_import_prefix f); cbn;
          repeat split; intros; congruence|].
  split; [apply opt_precedence|]. split; [apply opt_precedence|].
  split; [apply or_flag|]. split; [apply or_flag|apply or_flag].
Qed.

Lemma root_relative (f : option string) read c sp : 
  read (opt_get f ".qlcrc.json") = CRDecoded c -> cf_schema_path c = Some sp ->
  exists cf, load_config f read = Ok cf /\
    cf_schema_path cf = if is_absolute sp then Some sp
                        else option_map (fun d => path_join d sp) (path_parent (opt_get f ".qlcrc.json")).
Proof.
  intros R Hs. unfold load_config. unfold opt_get in R. destruct f; rewrite R; eexists; (split; [reflexivity|]);
  cbn [cf_schema_path]; rewrite Hs; destruct (is_absolute sp); reflexivity.
Qed.
