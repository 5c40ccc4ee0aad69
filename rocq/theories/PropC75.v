(** C75: the request of the download script is a valid introspection query, and its answer is as good as the schema; from the
    bytes sent to the run of qlc. *)
From Verif Require PropC72.
From Verif Require Import AskFacts DecodeFacts DownloadFacts JsonFacts JsonCheck SpecDownload PropC59 PropC60 PropC67 PropC69 PropC73.
From Coq Require Import Lia.

(** The body of the request is JSON with the query, for every text of the query *)
Theorem C75_body : forall s, unicode s -> text_holds ("{" +++ js_quote "query" +++ ":" +++ js_quote s +++ "}") (JObj [("query", JStr s)]).
Proof. intros s U. apply object_text; [|exact U]. apply C67_utf8. reflexivity. Qed.
Print Assumptions C75_body.

(** The text of the query is a valid document that asks for the introspection, and for nothing else *)
Definition introspection_doc : document :=
  Eval vm_compute in match parse_query lenient introspection_text with Some d => d | None => [] end.
Lemma introspection_parses ck : parse_query ck introspection_text = Some introspection_doc.
Proof. vm_compute. reflexivity. Qed.
Definition introspection_sels : list selection :=
  Eval vm_compute in match operations introspection_doc with [OpNamed _ _ _ _ _ l] => l | _ => [] end.
Lemma introspection_asked : asked introspection_doc "Query" introspection_sels introspection_query.
Proof. apply (ask_ok 60). vm_compute. reflexivity. Qed.
Lemma introspection_spreads f : In (DFrag f) introspection_doc -> fr_dirs f = [] /\ spreads introspection_doc introspection_sels (fr_name f).
Proof.
  assert (F : spreads introspection_doc introspection_sels "FullType").
  { eapply sr_field; [left; reflexivity|]. eapply sr_field; [do 3 right; left; reflexivity|]. eapply sr_here. left. reflexivity. }
  assert (Ff : forall g m, In (DFrag g) introspection_doc -> fr_name g = "FullType" -> spreads introspection_doc (fr_sels g) m -> spreads introspection_doc introspection_sels m).
  { intros g m I E S. eapply sr_through; [rewrite E; exact F|exact I|exact S]. }
  intros I. unfold introspection_doc in I. cbn [In] in I. destruct I as [I|[I|[I|[I|[]]]]]; [discriminate| | |]; injection I as <-; (split; [reflexivity|]).
  - exact F.
  - eapply Ff; [right; left; reflexivity|reflexivity|]. cbn [fr_sels]. eapply sr_field; [do 4 right; left; reflexivity|]. eapply sr_here. left. reflexivity.
  - eapply Ff; [right; left; reflexivity|reflexivity|]. cbn [fr_sels]. eapply sr_field; [do 5 right; left; reflexivity|]. eapply sr_here. left. reflexivity.
Qed.
Theorem C75_text : forall ck q, text_asks ck introspection_text q <-> q = introspection_query.
Proof.
  intros ck q. assert (N : NoDup (frag_names introspection_doc)) by (cbn; repeat constructor; cbn; intuition discriminate).
  assert (Q : the_query introspection_doc introspection_sels) by (eapply tq_named; reflexivity).
  split.
  - intros (ds & l & T & Q' & _ & _ & A & _). apply C69_text in T. rewrite introspection_parses in T. injection T as <-.
    rewrite (the_query_one _ _ _ Q' Q) in A. exact (asked_one _ N _ _ _ A _ introspection_asked).
  - intros ->. exists introspection_doc, introspection_sels. split; [apply C69_text, introspection_parses|]. split; [exact Q|]. split; [exact N|].
    split; [exact introspection_spreads|]. split; [exact introspection_asked|exact C59_accepted].
Qed.
Print Assumptions C75_text.
Lemma text_unicode : unicode introspection_text.
Proof. apply C67_utf8. vm_compute. reflexivity. Qed.
Theorem C75_request : forall ck q, body_asks ck request_body q <-> q = introspection_query.
Proof.
  intros ck q. pose proof (C75_body _ text_unicode) as B. fold request_body in B. split.
  - intros (text & T & A). pose proof (C67_one_value _ _ _ T B) as E. injection E as ->. apply C75_text in A. exact A.
  - intros ->. exists introspection_text. split; [exact B|]. apply C75_text. reflexivity.
Qed.
Print Assumptions C75_request.

(** The answer as it is read, with what a server adds *)
Lemma data_only x more : ~ In "data" (List.map fst more) -> d_schema (JObj (("data", x) :: more)) = d_schema (JObj [("data", x)]).
Proof.
  intros N. unfold d_schema. cbn [entries]. unfold req at 1 4. cbn [once]. rewrite String.eqb_refl.
  assert (E : once "data" more = Some None).
  { induction more as [|[k v] more IH]; [reflexivity|]. cbn [once]. cbn [List.map fst In] in N.
    destruct (String.eqb_spec k "data") as [->|]; [exfalso; apply N; left; reflexivity|]. apply IH. tauto. }
  rewrite E. reflexivity.
Qed.
Lemma cut_levels n : forall t m, levels (cut n t) m -> m <= S n.
Proof.
  induction n as [|n IH]; intros [k x [t|]] m H; cbn in H; inversion H; subst; try lia.
  match goal with L : levels (cut n t) _ |- _ => apply IH in L end. lia.
Qed.
Lemma short_fits h l : fits (List.map (short_typedef h) l).
Proof.
  intros t fs f m I E J L. apply in_map_iff in I. destruct I as (u & <- & _). cbn [short_typedef jt_fields jt_input_fields] in E.
  assert (X : exists g, f = short_field g).
  { destruct E as [E|E]; [destruct (jt_fields u) as [k|]|destruct (jt_input_fields u) as [k|]]; try discriminate; injection E as <-;
      apply in_map_iff in J; destruct J as (g & <- & _); eauto. }
  destruct X as (g & ->). cbn [short_field jf_type] in L. apply cut_levels in L. lia.
Qed.

(** With a server that answers: the script exits with code 0, and qlc reads from the file everything of the schema but what
    [short_typedef] leaves out *)
Theorem C75_download : forall ck sv e endpoint url out path f,
  given endpoint url -> target out path -> dl_url_ok e url = true -> dl_open_ok e path = true ->
  responds ck sv request_body (dl_post e url request_body) ->
  exists text f', download_schema e endpoint out f = (0, f') /\ f' path = Some text /\ (forall q, q <> path -> f' q = f q) /\
    forall jerr js, schema_of_text jerr text = SRDecoded js <-> js = List.map (short_typedef (sv_hides sv)) (sv_types sv).
Proof.
  intros ck sv e endpoint url out path f G T U O R.
  destruct (R introspection_query (proj2 (C75_request ck _) eq_refl)) as (text & data & more & P & A & N & H).
  exists text. eexists. split; [apply C60_success; exists url, path, text; repeat (split; eauto)|]. split; [unfold put; rewrite String.eqb_refl; reflexivity|].
  split; [intros q Q; unfold put; destruct (String.eqb_spec q path); [contradiction|reflexivity]|].
  intros jerr js. rewrite C67_schema. assert (D : d_schema (JObj (("data", data) :: more)) = Some (List.map (short_typedef (sv_hides sv)) (sv_types sv))).
  { rewrite (data_only _ _ N), <- A. apply answer_d. }
  split.
  - intros (j & Hj & S & _). rewrite (C67_one_value _ _ _ Hj H) in S. apply schema_decodes in S. congruence.
  - intros ->. eexists. split; [exact H|]. split; [apply schema_decodes; exact D|apply short_fits].
Qed.
Print Assumptions C75_download.

(** Without deprecations, and with at most seven wrappers around a type: a run with the downloaded file is the run with any
    file that holds the complete schema *)
Theorem C75_partial : forall ck sv e endpoint url out path f,
  given endpoint url -> target out path -> dl_url_ok e url = true -> dl_open_ok e path = true ->
  responds ck sv request_body (dl_post e url request_body) ->
  (forall t f, In t (sv_types sv) -> looked_at t f -> wrappers (jf_type f) <= 7 /\ jf_deprecated f <> Some true) ->
  exists text f', download_schema e endpoint out f = (0, f') /\ f' path = Some text /\
    forall jerr full j fuel wo a sched, text_holds full j -> says_schema j (sv_types sv) -> 
      qlc fuel (with_schema wo (schema_of_text jerr text)) a sched = qlc fuel (with_schema wo (schema_of_text jerr full)) a sched.
Proof.
  intros ck sv e endpoint url out path f G T U O R S.
  destruct (C75_download ck sv e endpoint url out path f G T U O R) as (text & f' & D & E & _ & X).
  exists text, f'. split; [exact D|]. split; [exact E|]. intros jerr full j fuel wo a sched H Sy.
  rewrite (proj2 (X jerr _) eq_refl).
  assert (F : schema_of_text jerr full = SRDecoded (sv_types sv)).
  { apply C67_schema. exists j. split; [exact H|]. split; [exact Sy|]. intros t l g m I L J Lv.
    assert (W : wrappers (jf_type g) <= 7) by (apply (S t g I); destruct L; [left|right]; eauto).
    assert (K : forall t m, levels t m -> m = Datatypes.S (wrappers t)) by (induction 1; cbn; congruence). apply K in Lv. lia. }
  rewrite F. pose proof (C59_partial fuel wo a sched jerr sv S) as Q. unfold schema_from in Q. rewrite answer_d, w_schema_d in Q. exact Q.
Qed.
Print Assumptions C75_partial.

(** ** Examples *)
(** A server and what it answers *)
Definition answering (sv : server) : dl_env :=
  {| dl_url_ok := fun _ => true; dl_post := fun _ _ => DStatus 200 (PropC72.show_json (answer sv introspection_query)); dl_open_ok := fun _ => true;
     dl_open_first := true; dl_unlink_ok := fun _ => true |}.
Lemma answering_responds ck sv url : read_json (PropC72.show_json (answer sv introspection_query)) = Some (answer sv introspection_query) ->
  responds ck sv request_body (dl_post (answering sv) url request_body).
Proof.
  intros H q B. apply C75_request in B. subst q. cbn [answering dl_post]. eexists _, _, []. split; [reflexivity|].
  split; [reflexivity|]. split; [intros []|]. apply C67_value. exact H.
Qed.
(** What the script leaves in the file *)
Definition file_of (sv : server) : option string :=
  snd (download_schema (answering sv) (Some "http://x/graphql") None (fun _ => None)) "schema.json".
Definition with_file (wo : world) (o : option string) : world :=
  with_schema wo (match o with Some t => schema_of_text "" t | None => SRIoError "" end).
Definition globals_after (wo : world) : option (nat * option string) :=
  match qlc_command "" "" 30 wo ["--num-threads"; "1"] (repeat 0 90) with
  | Exited c _ f => Some (c, match f "./graphql-globals.ts" with Ok t => Some t | Err _ => None end)
  | _ => None
  end.
Example C75_nonvacuous :
  let sv := serve true shop_json in
  responds lenient sv request_body (dl_post (answering sv) "http://x/graphql" request_body) /\
  (forall t f, In t (sv_types sv) -> looked_at t f -> wrappers (jf_type f) <= 7 /\ jf_deprecated f <> Some true) /\
  exists gtext, globals_after (with_file shop_world (file_of sv)) = Some (0, Some gtext) /\
    globals_after (with_file shop_world (Some (PropC72.show_json (w_schema shop_json)))) = Some (0, Some gtext).
Proof.
  intros sv. split; [apply answering_responds; vm_compute; reflexivity|]. split.
  - intros t f I L. cbn in I. repeat (destruct I as [<-|I]; [destruct L as [(l & E & J)|(l & E & J)]; cbn in E; try discriminate; injection E as <-; cbn in J;
      repeat (destruct J as [<-|J]; [cbn; split; [lia|discriminate]|]); destruct J|]). destruct I.
  - eexists. split; vm_compute; reflexivity.
Qed.

(** A deprecated input field, and a server that hides such fields: the run succeeds, and the input type lacks the field *)
Definition old_tags (f : jfield) : jfield :=
  {| jf_name := jf_name f; jf_description := jf_description f; jf_type := jf_type f;
     jf_deprecated := if String.eqb (jf_name f) "tags" then Some true else None |}.
Definition shop_old : jschema :=
  List.map (fun t => {| jt_kind := jt_kind t; jt_name := jt_name t; jt_description := jt_description t; jt_possible_types := jt_possible_types t;
    jt_input_fields := option_map (List.map old_tags) (jt_input_fields t); jt_fields := jt_fields t; jt_enum_values := jt_enum_values t |}) shop_json.
Theorem C75_hidden_refuted : exists sv gtext gtext',
  responds lenient sv request_body (dl_post (answering sv) "http://x/graphql" request_body) /\
  globals_after (with_file shop_world (file_of sv)) = Some (0, Some gtext) /\
  globals_after (with_file shop_world (Some (PropC72.show_json (w_schema (sv_types sv))))) = Some (0, Some gtext') /\ gtext <> gtext'.
Proof.
  exists (serve true shop_old). do 2 eexists. split; [apply answering_responds; vm_compute; reflexivity|].
  split; [vm_compute; reflexivity|]. split; [vm_compute; reflexivity|]. discriminate.
Qed.
Print Assumptions C75_hidden_refuted.
