(** C70: a message points at the place of the source it is about. *)
From Verif Require Import ShareWorlds Package RunFacts ImportProps PropC09 PropC69.
From Verif Require Import GposFacts GposMore CliFacts SpecGpos.

(** Every part of a document stands in the text where its position says, and the line and column shown for
    the position point at it *)
Theorem C70_parts : forall ck text ds d p h,
  plain_text text -> parse_query ck text = Some ds -> In d ds -> position_in d p ->
  exists x, part_at d p x /\ stands text p x /\ points (loc_with_help (loc_position text p) h) text p x.
Proof. intros ck text ds d p h Pl E I P. apply C69_text in E. eapply doc_points; eauto. Qed.
Print Assumptions C70_parts.

(** Full statement (false of the code, see the refutations): the location of a message of [compile_file] points into
    the text of the file that the message names, at the part of the document or the import line concerned.
    Proved: so it does if the text is plain, except for imported operations: there the location points at the import line
    in the file that has it, but the message names the file compiled. *)
Definition at_part (ck : gql_checks) (text : string) (loc : location) : Prop :=
  exists ds d p x, parse_query ck text = Some ds /\ In d ds /\ part_at d p x /\ points loc text p x.
Definition at_import (c : cconfig) (file text : string) (loc : location) : Prop :=
  exists n l target, imports_at c file text n l target /\
    points loc text {| pos_line := n + 1; pos_col := String.length import_mark |} (just quote_mark +++ "").
(** For any way [Q] in which a location fits a part of the text *)
Lemma file_located : forall ck complaint fuel e f c s path text f' r m file loc (Q : location -> Prop),
  (forall x, env_parse e x = match parse_query ck x with Some d => Ok d | None => Err (complaint x) end) ->
  f (env_locate e path) = Ok text ->
  (forall ds d p loc, parse_query ck text = Some ds -> In d ds -> position_in d p ->
    lo_number loc = lo_number (loc_position text p) /\ lo_line loc = lo_line (loc_position text p) /\ lo_column loc = lo_column (loc_position text p) -> Q loc) ->
  order_ok (env_order e path) -> consistent s ->
  compile_file fuel e f c s path = Done (f', r) ->
  In m (match r with Ok rp => rp_messages rp | Err ms => ms end) -> ms_source m = Some (file, Some loc) ->
  (file = path /\ Q loc) \/
  (exists other, importer e f c path text file other /\ at_import c file other loc) \/
  (file = path /\ exists from other target o, importer e f c path text from other /\ at_import c from other loc /\
     reach e f c path text target o /\ holds_operation e o).
Proof.
  intros ck complaint fuel e f c s path text f' r m file loc Q Rd Et Part Ord Co H I M.
  assert (Rd' : forall x ds, env_parse e x = Ok ds -> parse_query ck x = Some ds).
  { intros x ds E. rewrite Rd in E. destruct (parse_query ck x); [injection E as <-; auto|discriminate]. }
  unfold compile_file, read_file in H. rewrite Et in H.
  destruct (parse_file e text path) as [d|m0] eqn:E2.
  2: { inversion H; subst. destruct I as [<-|[]]. left. unfold parse_file in E2.
       destruct (env_parse e text) as [[|d [|d2 ds]]|err] eqn:E; inversion E2; subst; cbn in M; try discriminate. injection M as <- <-.
       split; auto. eapply Part; [apply Rd'; eauto|right; left; reflexivity|apply pi_def|destruct d2 as [[]|]; repeat split]. }
  assert (Ed : parse_query ck text = Some [d]).
  { apply Rd'. unfold parse_file in E2. destruct (env_parse e text) as [[|d0 [|d2 ds]]|err]; inversion E2; subst; auto. }
  destruct (add_imports fuel e f c path text [] []) as [[im ms0]| |] eqn:E3; try discriminate.
  destruct (parse_foreign e path im ms0) as [frags ms1] eqn:E4.
  assert (At : forall file n l t C lo, imports_at c file C n l t -> lo_number lo = string_of_nat (n + 1) -> lo_line lo = l ->
    lo_column lo = Some (String.length import_mark) -> at_import c file C lo).
  { intros F n l t C lo A E1' E2' E3'. exists n, l, t. split; auto. destruct A as (q & (Ln & _) & (rest & El & _) & _).
    unfold points. cbn [pos_line pos_col]. rewrite E1', E2', E3'. split; auto. split; auto. split; [apply lines_spec; auto|].
    exists "#import ", (q +++ String quote rest). rewrite El. split; reflexivity. }
  assert (Imp : In m ms1 -> (exists other, importer e f c path text file other /\ at_import c file other loc) \/
    (file = path /\ exists from other target o, importer e f c path text from other /\ at_import c from other loc /\
       reach e f c path text target o /\ holds_operation e o)).
  { intros I1. apply (stage_messages _ _ _ _ _ _ Ord E4) in I1. destruct I1 as [I1|I1].
    - left. apply (stage_missing _ _ _ _ _ _ _ _ E3) in I1. destruct I1 as (F & C & n & l & t & err & Ip & A & R & ->).
      cbn in M. injection M as <- <-. exists C. split; auto. eapply At; eauto.
    - right. destruct I1 as (k & o & loc' & Ik & Op & ->).
      destruct (stage_entry _ _ _ _ _ _ _ _ E3 _ _ _ Ik) as (F & n & l & t & (C & Ip & A) & _ & R & _ & ->).
      cbn in M. injection M as <- <-. split; auto. exists F, C, t, o. split; auto. split; auto. eapply At; eauto. }
  set (cx := {| cx_schema := s; cx_deprecations := cc_deprecations c; cx_frags := frags; cx_order := suborder (env_order e path) [1; 0] |}) in *.
  assert (Oc : order_ok (cx_order cx)) by (intros q A k; apply Ord).
  assert (Wrn : forall ws r0, compile_definition fuel cx d = Some (ws, r0) -> In m (List.map (warning_message text path) ws) -> file = path /\ Q loc).
  { intros ws r0 Cd Iw. apply in_map_iff in Iw as (w & <- & Iw). pose proof (C09_warnings fuel cx d ws r0 w Oc Co Cd Iw) as P.
    destruct w; cbn in M; injection M as <- <-; (split; [auto|]); (eapply Part; [exact Ed|left; reflexivity|exact P|]; repeat split). }
  destruct (compile_definition fuel cx d) as [[ws [op|errs]]|] eqn:E5; try discriminate.
  2: { inversion H; subst. apply in_app_or in I as [I|I]; auto. apply in_app_or in I as [I|I]; [|left; eapply Wrn; eauto].
       apply in_map_iff in I as (x & <- & J). left.
       assert (P : forall p, error_pos x = Some p -> position_in d p) by (intros p Ep; eapply (C09_errors fuel cx); eauto).
       destruct x as [| | | | | |[]| | | |]; cbn in M; try discriminate; injection M as <- <-; (split; [auto|]); (eapply Part; [exact Ed|left; reflexivity|apply P; reflexivity|]; repeat split). }
  assert (Rest : In m (ms1 ++ List.map (warning_message text path) ws) -> (file = path /\ Q loc) \/
    (exists other, importer e f c path text file other /\ at_import c file other loc) \/
    (file = path /\ exists from other target o, importer e f c path text from other /\ at_import c from other loc /\
       reach e f c path text target o /\ holds_operation e o)).
  { intros J. apply in_app_or in J as [J|J]; [auto|left; eapply Wrn; eauto]. }
  destruct (compile_ir _ _ _ op) as [co|te] eqn:E6.
  2: { inversion H; subst. apply in_app_or in I as [I|I]; [auto|]. destruct I as [<-|[]]. destruct te; discriminate. }
  destruct (write_file e f _ _) as [f2 [err|]] eqn:E7; inversion H; subst; [|auto].
  destruct I as [<-|[]]. discriminate.
Qed.
Theorem C70_file_partial : forall ck complaint fuel e f c s path text f' r m file loc,
  (forall x, env_parse e x = match parse_query ck x with Some d => Ok d | None => Err (complaint x) end) ->
  f (env_locate e path) = Ok text -> plain_text text ->
  order_ok (env_order e path) -> consistent s ->
  compile_file fuel e f c s path = Done (f', r) ->
  In m (match r with Ok rp => rp_messages rp | Err ms => ms end) -> ms_source m = Some (file, Some loc) ->
  (file = path /\ at_part ck text loc) \/
  (exists other, importer e f c path text file other /\ at_import c file other loc) \/
  (file = path /\ exists from other target o, importer e f c path text from other /\ at_import c from other loc /\
     reach e f c path text target o /\ holds_operation e o).
Proof.
  intros ck complaint fuel e f c s path text f' r m file loc Rd Et Pl Ord Co H I M. eapply file_located; eauto.
  intros ds d p lo E J P (E1 & E2 & E3). destruct (C70_parts ck text ds d p None Pl E J P) as (x & X & _ & Pt). exists ds, d, p, x.
  split; [auto|]. split; [auto|]. split; [auto|]. unfold points in *. rewrite E1, E2, E3. exact Pt.
Qed.
Print Assumptions C70_file_partial.

(** *** Texts with tabs, carriage returns and byte order marks.  If no carriage return follows a # on its line, the line is
    right; and the column is right if what is left of the part on its line is plain *)
Theorem C70_lines : forall ck text ds d p h,
  tame_text text -> parse_query ck text = Some ds -> In d ds -> position_in d p ->
  exists x, part_at d p x /\ stands_on_line text p x /\ shows (loc_with_help (loc_position text p) h) text p x.
Proof. intros ck text ds d p h Tm E I P. apply C69_text in E. eapply doc_shows; eauto. Qed.
Print Assumptions C70_lines.
Definition at_line_of_part (ck : gql_checks) (text : string) (loc : location) : Prop :=
  exists ds d p x, parse_query ck text = Some ds /\ In d ds /\ part_at d p x /\ shows loc text p x.
Theorem C70_tame_partial : forall ck complaint fuel e f c s path text f' r m file loc,
  (forall x, env_parse e x = match parse_query ck x with Some d => Ok d | None => Err (complaint x) end) ->
  f (env_locate e path) = Ok text -> tame_text text ->
  order_ok (env_order e path) -> consistent s ->
  compile_file fuel e f c s path = Done (f', r) ->
  In m (match r with Ok rp => rp_messages rp | Err ms => ms end) -> ms_source m = Some (file, Some loc) ->
  (file = path /\ at_line_of_part ck text loc) \/
  (exists other, importer e f c path text file other /\ at_import c file other loc) \/
  (file = path /\ exists from other target o, importer e f c path text from other /\ at_import c from other loc /\
     reach e f c path text target o /\ holds_operation e o).
Proof.
  intros ck complaint fuel e f c s path text f' r m file loc Rd Et Tm Ord Co H I M. eapply file_located; eauto.
  intros ds d p lo E J P (E1 & E2 & E3). destruct (C70_lines ck text ds d p None Tm E J P) as (x & X & _ & Pt). exists ds, d, p, x.
  split; [auto|]. split; [auto|]. split; [auto|]. unfold shows in *. rewrite E1, E2, E3. exact Pt.
Qed.
Print Assumptions C70_tame_partial.

(** A file with a missing import and a misspelt fragment name *)
From Verif Require Import ImportWorlds.
Definition misspelt : string := "#import ""gone.graphql""" +++ nl +++ "query Q {" +++ nl +++ "  pet { ...Petname name }" +++ nl +++ "}".
Definition misspelt_files : fs := files [("./g.graphql", misspelt)].
Lemma plain_check text : forallb (fun c => negb (Ascii.eqb c (ascii_of_nat 9)) && negb (Ascii.eqb c (ascii_of_nat 13)) && negb (Ascii.eqb c (ascii_of_nat 239))) (list_ascii_of_string text) = true ->
  plain_text text.
Proof.
  intros H. split.
  - induction text as [|c t IH]; cbn in *; auto. apply andb_true_iff in H. destruct H as [H T]. rewrite !andb_true_iff, !negb_true_iff, !Ascii.eqb_neq in H. tauto.
  - intros (a & b & ->). rewrite forallb_forall in H. specialize (H (ascii_of_nat 239)). cbn in H. assert (F : false = true); [|discriminate F]. apply H.
    clear H. induction a as [|c a IH]; cbn; auto.
Qed.
Example C70_nonvacuous : plain_text misspelt /\ (forall t o, ~ reach text_env misspelt_files plain_config "./g.graphql" misspelt t o) /\
  exists ms f' m1 m2 l1 l2, compile_file 30 text_env misspelt_files plain_config farm "./g.graphql" = Done (f', Err ms) /\ In m1 ms /\ In m2 ms /\
    ms_source m1 = Some ("./g.graphql", Some l1) /\ ms_source m2 = Some ("./g.graphql", Some l2) /\
    points l1 misspelt {| pos_line := 1; pos_col := 9 |} """" /\ points l2 misspelt {| pos_line := 3; pos_col := 12 |} "Petname".
Proof.
  split; [apply plain_check; vm_compute; reflexivity|]. split.
  - assert (K : forall n l t, imports_at plain_config "./g.graphql" misspelt n l t -> t = "./gone.graphql").
    { intros n l t H. pose proof (PropC35.imports_target _ _ _ _ _ _ H) as (L & E). destruct H as (q & _ & (rest & Eq & _) & _).
      destruct n as [|[|[|[|[|n]]]]]; vm_compute in L; try discriminate; injection L as <-; try discriminate. vm_compute in E. congruence. }
    intros t o R. assert (t = "./gone.graphql" /\ misspelt_files "./gone.graphql" = Ok o) as (_ & E).
    { induction R as [n l t o A Eo|mid mc n l t o R [-> E] A Eo]; [apply K in A; subst; auto|]. vm_compute in E. discriminate. }
    vm_compute in E. discriminate.
  - do 6 eexists. split; [vm_compute; reflexivity|]. split; [left; reflexivity|]. split; [right; left; reflexivity|]. split; [reflexivity|]. split; [reflexivity|].
    split; (split; [reflexivity|]; split; [reflexivity|]; split).
    + apply (lines_spec misspelt 0). vm_compute. reflexivity.
    + exists "#import ", "gone.graphql""". split; reflexivity.
    + apply (lines_spec misspelt 2). vm_compute. reflexivity.
    + exists "  pet { ...", " name }". split; reflexivity.
Qed.

Lemma letters_short x : letters x <= String.length x.
Proof. induction x as [|d x IH]; [auto|]. cbn [letters String.length]. destruct ((128 <=? nat_of_ascii d) && (nat_of_ascii d <=? 191)); lia. Qed.
(** Refuted for lines that end in carriage return and line feed, if there is a comment: the end of the comment counts twice,
    and all further lines are reported one too low *)
Definition carriage : string := just (ascii_of_nat 13) +++ nl.
Definition windows_text : string := "# note" +++ carriage +++ "query Q {" +++ carriage +++ "  nope" +++ carriage +++ "}" +++ carriage.
Theorem C70_refuted_crlf : exists f' m loc,
  compile_file 30 text_env (files [("./g.graphql", windows_text)]) plain_config farm "./g.graphql" = Done (f', Err [m]) /\
  ms_text m = "unknown field `nope`" /\ ms_source m = Some ("./g.graphql", Some loc) /\
  lo_number loc = "4" /\ lo_line loc = "}" /\ line_of windows_text 3 "  nope" /\ forall p x, ~ points loc windows_text p x.
Proof.
  do 3 eexists. split; [vm_compute; reflexivity|]. split; [reflexivity|]. split; [reflexivity|]. split; [reflexivity|]. split; [reflexivity|].
  split; [apply (lines_spec windows_text 2); vm_compute; reflexivity|]. intros p x (_ & C & _ & a & b & E & L). cbn in C, E. injection C as C. rewrite <- C in L.
  pose proof (letters_short a). apply (f_equal String.length) in E. rewrite slen_app in E. cbn in E. lia.
Qed.
Print Assumptions C70_refuted_crlf.

(** Refuted for tabs: each counts as eight columns, but is shown as it is *)
Definition tabbed_text : string := "query Q {" +++ nl +++ just (ascii_of_nat 9) +++ "nope" +++ nl +++ "}" +++ nl.
Theorem C70_refuted_tab : exists f' m loc,
  compile_file 30 text_env (files [("./g.graphql", tabbed_text)]) plain_config farm "./g.graphql" = Done (f', Err [m]) /\
  ms_text m = "unknown field `nope`" /\ ms_source m = Some ("./g.graphql", Some loc) /\
  lo_number loc = "2" /\ lo_line loc = just (ascii_of_nat 9) +++ "nope" /\ lo_column loc = Some 9 /\ forall p x, ~ points loc tabbed_text p x.
Proof.
  do 3 eexists. split; [vm_compute; reflexivity|]. split; [reflexivity|]. split; [reflexivity|]. split; [reflexivity|]. split; [reflexivity|]. split; [reflexivity|].
  intros p x (_ & C & _ & a & b & E & L). cbn in C, E. injection C as C. rewrite <- C in L.
  pose proof (letters_short a). apply (f_equal String.length) in E. rewrite slen_app in E. cbn in E. lia.
Qed.
Print Assumptions C70_refuted_tab.

(** Refuted for imported operations: the line shown under the name of the file compiled may be one of another file *)
Definition nested_query : string := import_line "n.graphql" +++ "query Q { pet { name } }".
Definition nested_fragment : string := "# pets" +++ nl +++ import_line "o.graphql" +++ "fragment F on Pet { name }".
Definition nested_other : string := "query R { pet { name } }".
Definition nested_files : fs := files [("./g.graphql", nested_query); ("./n.graphql", nested_fragment); ("./o.graphql", nested_other)].
Theorem C70_refuted_import : exists f' rp m loc,
  compile_file 30 text_env nested_files plain_config farm "./g.graphql" = Done (f', Ok rp) /\ rp_messages rp = [m] /\
  plain_text nested_query /\ plain_text nested_fragment /\ plain_text nested_other /\
  ms_source m = Some ("./g.graphql", Some loc) /\ lo_number loc = "2" /\
  line_of nested_fragment 2 (lo_line loc) /\ forall n, ~ line_of nested_query n (lo_line loc).
Proof.
  do 4 eexists. split; [vm_compute; reflexivity|]. split; [reflexivity|]. split; [apply plain_check; vm_compute; reflexivity|].
  split; [apply plain_check; vm_compute; reflexivity|]. split; [apply plain_check; vm_compute; reflexivity|].
  split; [reflexivity|]. split; [reflexivity|]. split; [apply (lines_spec nested_fragment 1); vm_compute; reflexivity|].
  intros n L. apply line_found in L; [|discriminate|intros r E; pose proof E as E'; apply (f_equal strip_cr) in E';
    rewrite strip_cr_cr in E'; vm_compute in E'; subst r; vm_compute in E; discriminate].
  cbn [lo_line] in L. destruct (n - 1) as [|[|k]]; vm_compute in L; try discriminate. destruct k; discriminate.
Qed.
Print Assumptions C70_refuted_import.

(** ** A text with tabs and carriage returns: the line is right; the column is, where no tab is left of the part *)
Definition mixed_text : string := "query Q {" +++ carriage +++ just (ascii_of_nat 9) +++ "pet {" +++ carriage +++ "  nope" +++ carriage +++ "}}" +++ carriage.
Lemma tame_check text : forallb (fun c => negb (Ascii.eqb c "#")) (list_ascii_of_string text) = true -> tame_text text.
Proof.
  intros H (a & b & r & -> & _). rewrite forallb_forall in H. specialize (H "#"%char). cbn in H. assert (F : false = true); [|discriminate F]. apply H.
  clear H. induction a as [|c a IH]; cbn; auto.
Qed.
Example C70_nonvacuous_tame : tame_text mixed_text /\ ~ plain_text mixed_text /\
  exists f' ms m loc, compile_file 30 text_env (files [("./g.graphql", mixed_text)]) plain_config farm "./g.graphql" = Done (f', Err ms) /\ In m ms /\
    ms_text m = "unknown field `nope`" /\ ms_source m = Some ("./g.graphql", Some loc) /\ lo_number loc = "3" /\ lo_line loc = "  nope" /\ lo_column loc = Some 3 /\
    shows loc mixed_text {| pos_line := 3; pos_col := 3 |} "nope".
Proof.
  split; [apply tame_check; vm_compute; reflexivity|]. split.
  { intros [A _]. unfold mixed_text, carriage in A. rewrite !all_app in A. destruct A as (_ & (((_ & N) & _) & _) & _). apply N. reflexivity. }
  do 4 eexists. split; [vm_compute; reflexivity|]. split; [left; reflexivity|]. split; [reflexivity|]. split; [reflexivity|]. do 3 (split; [reflexivity|]).
  split; [reflexivity|]. split; [reflexivity|]. split; [apply (lines_spec mixed_text 2); vm_compute; reflexivity|]. exists "  ", "". split; [reflexivity|]. intros _. reflexivity.
Qed.
