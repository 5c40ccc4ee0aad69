(** C97: import lines that are not needed can be left out. *)
From Verif Require Import TrimFacts MoveFacts PlaceFacts RefactorFacts RecastFacts LinkFacts GlobalRead EndFacts.
From Verif Require Import Rewrite ImportMain ImportProps ProjectFacts.
From Verif Require LoadName RegCheck PropC07 PropC35 PropC48 PropC49 PropC56 PropC72 PropC78 PropC79 PropC81 PropC84 PropC93 PropC96.

(** Valid projects stay valid *)
Theorem C97_valid : forall e e' ls ls' f f' c c' s root root' m, trimmed_project e e' ls ls' c c' root root' m f f' ->
  (forall p, order_ok (env_order e' p)) -> paths_agree e' f' -> unique_fragments e' ls' f' c' root' ->
  valid_project e ls f c s root -> valid_project e' ls' f' c' s root'.
Proof. intros e e' ls ls' f f' c c' s root root' m. exact (valid_trimmed e e' ls ls' c c' root root' m f f' s). Qed.
Print Assumptions C97_valid.

(** ** What is generated *)
Lemma trimmed_same e e' ls ls' c c' root root' m f f' s path path' : trimmed_project e e' ls ls' c c' root root' m f f' ->
  (forall p, order_ok (env_order e' p)) -> paths_agree e' f' -> unique_fragments e' ls' f' c' root' ->
  m path path' -> is_source ls root path -> is_source ls' root' path' -> PropC81.settled_source e f c s path -> PropC84.same_source s c c' e e' f f' path path'.
Proof.
  intros M Ho Ag U Hm Sp Sp' (x & d & P & l & fr & V & St).
  destruct (valid_at_trimmed e e' c c' m f f' s path path' x d P l fr (tp_files _ _ _ _ _ _ _ _ _ _ _ M) Hm (tp_needs _ _ _ _ _ _ _ _ _ _ _ M _ _ Sp Sp' Hm) (Ho path') Ag (fun y n a b => U path' y n a b Sp') V) as (y & d' & l' & fr' & V' & Sh & Rc).
  pose proof V as [Ex Ep _ _ _ _ Br Ro Su _ _ _ _ _]. pose proof V' as [Ex' Ep' _ _ _ _ Br' Ro' _ _ _ _ _ _].
  exists x, d, fr, P, l, y, d', fr', l'. do 10 (split; [auto|]). split; [exact Ro'|]. apply recast_collects; [exact St|]. apply recasts_told. exact Rc.
Qed.

(** If the project compiled it still does; each output is the same byte for byte, and so is the module of globals *)
Theorem C97_outputs_partial : forall fuel fuel' wo wo' a a' sched sched' cf cf' js s m out g code' out' g',
  let rc := merge_config (wo_ncpus wo) a cf in
  let rc' := merge_config (wo_ncpus wo') a' cf' in
  let c := cconfig_of rc in
  let c' := cconfig_of rc' in
  let e := wo_env wo in
  let e' := wo_env wo' in
  let ls := wo_listing wo in
  let ls' := wo_listing wo' in
  let root := rc_root_dir rc in
  let root' := rc_root_dir rc' in
  let f := wo_fs wo in
  let f' := wo_fs wo' in
  LinkFacts.settled wo a cf js s -> LinkFacts.settled wo' a' cf' js s -> same_output_options c c' ->
  inhabited_types s -> types_parse e' -> finite (dir_kids ls') (WDir root') -> env_write e' (globals_path c' root') = WOk ->
  wo_schema wo (rc_schema_path rc) = SRDecoded js -> wo_schema wo' (rc_schema_path rc') = SRDecoded js ->
  (forall text ds d, env_parse e text = Ok ds -> In d ds -> PropC56.parsed_named d) ->
  (forall text ds d, env_parse e' text = Ok ds -> In d ds -> PropC56.parsed_named d) ->
  trimmed_project e e' ls ls' c c' root root' m f f' -> unique_fragments e' ls' f' c' root' ->
  valid_project e ls f c s root -> (forall path, is_source ls root path -> PropC81.settled_source e f c s path) ->
  qlc fuel wo a sched = Exited 0 out g -> qlc fuel' wo' a' sched' = Exited code' out' g' ->
  code' = 0 /\
  (forall path path', is_source ls root path -> is_source ls' root' path' -> m path path' ->
     exists text, g (out_loc e path) = Ok text /\ g' (out_loc e' path') = Ok text) /\
  ((exists n, PropC49.uses_global fuel e ls c s root f n) ->
     exists text, g (env_locate e (globals_path c root)) = Ok text /\ g' (env_locate e' (globals_path c' root')) = Ok text).
Proof.
  intros fuel fuel' wo wo' a a' sched sched' cf cf' js s m out g code' out' g' rc rc' c c' e e' ls ls' root root' f f' Se Se' Ec Inh Ty Fin W Es Es' Pn Pn' M U V Ss H H'.
  pose proof Se' as [Lc In0 Jn N S Gd Ho C Ag Sc Th]. pose proof (in_loaded _ _ In0) as L. pose proof (intro_consistent _ _ In0) as Co.
  pose proof (PropC72.nameable_proper _ _ (LoadName.loaded_nameable _ _ _ L Jn)) as Pr.
  assert (Ls' : parse_schema (rc_schema_path rc') (wo_schema wo' (rc_schema_path rc')) = Ok s) by (rewrite Es'; cbn [parse_schema]; rewrite L; reflexivity).
  pose proof (valid_trimmed e e' ls ls' c c' root root' m f f' s M Ho Ag U V) as V'.
  assert (Z : code' = 0).
  { pose proof (PropC79.C79_accepts wo' a' cf' s Lc Ls' N S Ho Ag Co C Inh Pr Ty Fin) as K.
    fold rc' in K. fold root' c' in K. destruct (K V' W) as (k0 & K0). clear K.
    destruct (K0 (Nat.max k0 fuel') (Nat.le_max_l _ _) sched') as (K1 & _).
    rewrite <- (qlc_mono _ _ wo' a' sched' (Nat.le_max_r k0 fuel')) in H' by (rewrite H'; discriminate).
    destruct K1 as [K1|(o & h & K1)]; rewrite H' in K1; [discriminate K1|]. injection K1 as -> _ _. reflexivity. }
  subst code'. split; [reflexivity|].
  destruct (PropC84.C84_run_partial fuel fuel' wo wo' a a' sched sched' cf cf' js s out out' g g' Se Se' Ec Es Es' Pn Pn' H H') as [K1 K2].
  fold rc rc' c c' e e' ls ls' root root' f f' in K1, K2. split.
  - intros path path' Sp Sp' Hm. apply (K1 path path' Sp Sp'). exact (trimmed_same e e' ls ls' c c' root root' m f f' s path path' M Ho Ag U Hm Sp Sp' (Ss path Sp)).
  - apply K2.
    + intros path Sp. destruct (tp_to _ _ _ _ _ _ _ _ _ _ _ M path Sp) as (path' & Sp' & Hm). exists path'. split; [exact Sp'|].
      exact (trimmed_same e e' ls ls' c c' root root' m f f' s path path' M Ho Ag U Hm Sp Sp' (Ss path Sp)).
    + intros path' Sp'. destruct (tp_from _ _ _ _ _ _ _ _ _ _ _ M path' Sp') as (path & Sp & Hm). exists path. split; [exact Sp|].
      exact (trimmed_same e e' ls ls' c c' root root' m f f' s path path' M Ho Ag U Hm Sp Sp' (Ss path Sp)).
Qed.
Print Assumptions C97_outputs_partial.

(** ** From texts to texts *)
From Verif Require Import Gql Json Args SpecGtext SpecJson SpecJtext PropC69 PropC72.
From Verif Require SpecArgs PropC65 PropC67 PropC77.
Theorem C97_text_partial : forall ck complaint complaint' jerr jerr' help help' version version' fuel fuel' wo wo' its its' argv argv' a a' nc nc' sched sched' cf cf'
    stext stext' j j' js s m out g code' out' g',
  let rc := merge_config (wo_ncpus wo) a cf in
  let rc' := merge_config (wo_ncpus wo') a' cf' in
  let c := cconfig_of rc in
  let c' := cconfig_of rc' in
  let e := wo_env wo in
  let e' := wo_env wo' in
  let ls := wo_listing wo in
  let ls' := wo_listing wo' in
  let root := rc_root_dir rc in
  let root' := rc_root_dir rc' in
  let f := wo_fs wo in
  let f' := wo_fs wo' in
  on_disk ck complaint jerr wo -> on_disk ck complaint' jerr' wo' ->
  SpecArgs.spelled its argv -> SpecArgs.consistent its -> SpecArgs.complete its -> SpecArgs.says its a nc ->
  SpecArgs.spelled its' argv' -> SpecArgs.consistent its' -> SpecArgs.complete its' -> SpecArgs.says its' a' nc' ->
  LinkFacts.settled wo a cf js s -> LinkFacts.settled wo' a' cf' js s -> same_output_options c c' ->
  inhabited_types s -> finite (dir_kids ls') (WDir root') -> env_write e' (globals_path c' root') = WOk ->
  f (env_locate e (rc_schema_path rc)) = Ok stext -> text_holds stext j -> says_schema j js ->
  f' (env_locate e' (rc_schema_path rc')) = Ok stext' -> text_holds stext' j' -> says_schema j' js -> fits js ->
  trimmed_project e e' ls ls' c c' root root' m f f' -> unique_fragments e' ls' f' c' root' ->
  valid_project e ls f c s root -> (forall path, is_source ls root path -> PropC81.settled_source e f c s path) ->
  qlc_command help version fuel wo argv sched = Exited 0 out g -> qlc_command help' version' fuel' wo' argv' sched' = Exited code' out' g' ->
  code' = 0 /\
  (forall path path', is_source ls root path -> is_source ls' root' path' -> m path path' ->
     exists text, g (out_loc e path) = Ok text /\ g' (out_loc e' path') = Ok text) /\
  ((exists n, PropC49.uses_global fuel e ls c s root f n) ->
     exists text, g (env_locate e (globals_path c root)) = Ok text /\ g' (env_locate e' (globals_path c' root')) = Ok text).
Proof.
  intros ck complaint complaint' jerr jerr' help help' version version' fuel fuel' wo wo' its its' argv argv' a a' nc nc' sched sched' cf cf'
    stext stext' j j' js s m out g code' out' g' rc rc' c c' e e' ls ls' root root' f f' Hd Hd' Sp Cn Cm Sy Sp' Cn' Cm' Sy' Se Se' Ec Inh Fin W Es Tx Sj Es' Tx' Sj' Fi M U V Ss H H'.
  assert (Pa : parse_args argv = URun a nc) by (apply PropC65.C65_exact; exists its; auto).
  assert (Pa' : parse_args argv' = URun a' nc') by (apply PropC65.C65_exact; exists its'; auto).
  unfold qlc_command in H, H'. rewrite Pa in H. rewrite Pa' in H'.
  assert (Sc : wo_schema wo (rc_schema_path rc) = SRDecoded js) by (rewrite (od_schema _ _ _ _ Hd _ _ Es); apply PropC67.C67_schema; eauto).
  assert (Sc' : wo_schema wo' (rc_schema_path rc') = SRDecoded js) by (rewrite (od_schema _ _ _ _ Hd' _ _ Es'); apply PropC67.C67_schema; eauto).
  assert (Pn : forall k q w, on_disk ck k q w -> forall text ds d, env_parse (wo_env w) text = Ok ds -> In d ds -> PropC56.parsed_named d).
  { intros k q w Hw text ds d E I. rewrite (od_documents _ _ _ _ Hw) in E. destruct (parse_query ck text) as [ds'|] eqn:Ep; [|discriminate]. injection E as ->. eapply C69_named; eauto. }
  exact (C97_outputs_partial fuel fuel' wo wo' a a' sched sched' cf cf' js s m out g code' out' g' Se Se' Ec Inh (PropC79.disk_types _ _ _ _ Hd') Fin W Sc Sc' (Pn _ _ _ Hd) (Pn _ _ _ Hd') M U V Ss H H').
Qed.
Print Assumptions C97_text_partial.


(** ** A query with two import lines, of which it needs the first *)
Definition spare : string := "fragment G on Pet { __typename }".
Definition lone_query : string := ImportWorlds.import_line "a.graphql" +++ "query Q { pet { ...F } }".
Definition three (x b : string) : fs := ImportWorlds.files [("./x.graphql", x); ("./a.graphql", PropC79.twice_a); ("./b.graphql", b); ("./schema.json", farm_text)].
Definition three_world (x b : string) : world := PropC77.world_on PropC79.twice_listing (three x b).
Definition all_three : list string := ["./x.graphql"; "./a.graphql"; "./b.graphql"].
Definition a_doc : fragdef := Eval vm_compute in match parse_query lenient PropC79.twice_a with Some [DFrag d] => d | _ => disk_fragment end.
Definition spare_doc : fragdef := Eval vm_compute in match parse_query lenient spare with Some [DFrag d] => d | _ => disk_fragment end.
Definition x_doc (x : string) : definition := match parse_query lenient x with Some [d] => d | _ => DFrag disk_fragment end.
Definition x_sels (x : string) : list selection := match doc_root (x_doc x) with Some (_, l) => l | None => [] end.

Definition one_of (x : string) : Prop := x = PropC79.twice_query \/ x = lone_query.
Lemma three_step x b path contents n ln t : one_of x -> In b [spare; PropC79.twice_b] -> In (path, contents) [("./x.graphql", x); ("./a.graphql", PropC79.twice_a); ("./b.graphql", b)] ->
  imports_at plain_config path contents n ln t -> path = "./x.graphql" /\ In t ["./a.graphql"; "./b.graphql"] /\ (x = lone_query -> t = "./a.graphql").
Proof.
  intros Ox Ib K A. pose proof (PropC35.imports_target _ _ _ _ _ _ A) as (L & Et). destruct A as (q & _ & (rest & Eq & _) & _).
  destruct K as [K|[K|[K|[]]]]; injection K as <- <-.
  - split; [reflexivity|]. destruct Ox as [-> | ->].
    + destruct n as [|[|[|[|n]]]]; vm_compute in L; try discriminate L; injection L as <-; [| |discriminate Eq]; vm_compute in Et; injection Et as <-; (split; [cbn; auto|discriminate]).
    + destruct n as [|[|[|n]]]; vm_compute in L; try discriminate L; injection L as <-; [|discriminate Eq]; vm_compute in Et; injection Et as <-; (split; [cbn; auto|reflexivity]).
  - destruct n as [|n]; vm_compute in L; [injection L as <-; discriminate Eq|destruct n; discriminate L].
  - destruct Ib as [<-|[<-|[]]]; (destruct n as [|n]; vm_compute in L; [injection L as <-; discriminate Eq|destruct n; discriminate L]).
Qed.
Lemma three_read x b path contents : In path all_three -> three x b (env_locate text_env path) = Ok contents ->
  In (path, contents) [("./x.graphql", x); ("./a.graphql", PropC79.twice_a); ("./b.graphql", b)].
Proof.
  intros [<-|[<-|[<-|[]]]] E.
  - change (@Ok string string x = Ok contents) in E. injection E as <-. left. reflexivity.
  - change (@Ok string string PropC79.twice_a = Ok contents) in E. injection E as <-. right. left. reflexivity.
  - change (@Ok string string b = Ok contents) in E. injection E as <-. right. right. left. reflexivity.
Qed.
Lemma three_reach x b path contents t o : one_of x -> In b [spare; PropC79.twice_b] -> In path all_three -> three x b (env_locate text_env path) = Ok contents ->
  reach text_env (three x b) plain_config path contents t o ->
  path = "./x.graphql" /\ (x = lone_query -> t = "./a.graphql") /\ ((t = "./a.graphql" /\ o = PropC79.twice_a) \/ (t = "./b.graphql" /\ o = b)).
Proof.
  intros Ox Ib Ip E R. induction R as [n ln t o A Et|mid mc n ln t o R IH A Et].
  - destruct (three_step x b path contents n ln t Ox Ib (three_read x b path contents Ip E) A) as (-> & [<-|[<-|[]]] & L); (split; [reflexivity|]; split; [exact L|]).
    + change (@Ok string string PropC79.twice_a = Ok o) in Et. injection Et as <-. auto.
    + change (@Ok string string b = Ok o) in Et. injection Et as <-. auto.
  - destruct IH as (_ & _ & [[-> ->]|[-> ->]]); exfalso.
    + destruct (three_step x b "./a.graphql" PropC79.twice_a n ln t Ox Ib (or_intror (or_introl eq_refl)) A) as (X & _). discriminate X.
    + destruct (three_step x b "./b.graphql" b n ln t Ox Ib (or_intror (or_intror (or_introl eq_refl))) A) as (X & _). discriminate X.
Qed.
Lemma three_is_source path : is_source PropC79.twice_listing "." path <-> In path all_three.
Proof. split; [apply PropC79.twice_source|apply PropC79.twice_is_source]. Qed.
Lemma three_names : names_ok PropC79.twice_listing.
Proof.
  intros d es l. unfold PropC79.twice_listing. destruct (String.eqb d "."); [|discriminate].
  intros H; inversion H; subst; clear H; cbn; intros H; inversion H; subst; clear H; cbn; (split; [|repeat constructor; cbn; intuition discriminate]);
    repeat constructor; repeat split; try discriminate; cbn; intuition discriminate.
Qed.
Lemma three_separate x b : one_of x -> In b [spare; PropC79.twice_b] -> separate text_env PropC79.twice_listing plain_config "." (three x b).
Proof.
  intros Ox Ib. split.
  - intros p q l Hp Hq R. apply three_is_source in Hp. apply three_is_source in Hq.
    assert (El : In l all_three).
    { destruct R as [|contents file' contents' n l t E I A]; [exact Hp|]. destruct I as [[-> ->]|R].
      - right. exact (proj1 (proj2 (three_step x b p contents n l t Ox Ib (three_read x b p contents Hp E) A))).
      - destruct (three_reach x b p contents file' contents' Ox Ib Hp E R) as (_ & _ & [[-> ->]|[-> ->]]); exfalso.
        + destruct (three_step x b "./a.graphql" PropC79.twice_a n l t Ox Ib (or_intror (or_introl eq_refl)) A) as (X & _). discriminate X.
        + destruct (three_step x b "./b.graphql" b n l t Ox Ib (or_intror (or_intror (or_introl eq_refl))) A) as (X & _). discriminate X. }
    destruct El as [<-|[<-|[<-|[]]]], Hq as [<-|[<-|[<-|[]]]]; discriminate.
  - intros p q Hp Hq. apply three_is_source in Hp. apply three_is_source in Hq. destruct Hp as [<-|[<-|[<-|[]]]], Hq as [<-|[<-|[<-|[]]]]; auto; discriminate.
Qed.
Lemma three_settled x : one_of x -> LinkFacts.settled (three_world x spare) (args_threads 1) config_default farm_json farm.
Proof.
  intros Ox. destruct PropC35.C35_nonvacuous as (_ & _ & _ & _ & _ & _ & _ & C & _).
  constructor; auto.
  - exact PropC04.farm_intro.
  - exact (se_named _ _ _ _ _ PropC72.disk_settled).
  - exact three_names.
  - exact (three_separate x spare Ox (or_introl eq_refl)).
  - intros p Sp. apply three_is_source in Sp. destruct Sp as [<-|[<-|[<-|[]]]]; discriminate.
  - intros p. exact SelWorlds.plain_ok.
  - intros a b y z Pe Ea Eb. apply PathFacts.path_eqb_same in Pe. change (three x spare a = Ok y) in Ea. change (three x spare b = Ok z) in Eb. unfold three, ImportWorlds.files in Ea, Eb. cbn [aget] in Ea, Eb.
    unfold eqb, EqB_string in Ea, Eb.
    destruct (String.eqb_spec a "./x.graphql") as [->|]; [|destruct (String.eqb_spec a "./a.graphql") as [->|]; [|destruct (String.eqb_spec a "./b.graphql") as [->|]; [|destruct (String.eqb_spec a "./schema.json") as [->|]; [|discriminate]]]];
    (destruct (String.eqb_spec b "./x.graphql") as [->|]; [|destruct (String.eqb_spec b "./a.graphql") as [->|]; [|destruct (String.eqb_spec b "./b.graphql") as [->|]; [|destruct (String.eqb_spec b "./schema.json") as [->|]; [|discriminate]]]]); congruence || discriminate.
  - intros path contents t o Sp E R. apply three_is_source in Sp. destruct (three_reach x spare path contents t o Ox (or_introl eq_refl) Sp E R) as (_ & _ & [[-> _]|[-> _]]); apply three_is_source; cbn; auto.
Qed.
Lemma three_unique x : one_of x -> unique_fragments text_env PropC79.twice_listing (three x spare) plain_config ".".
Proof.
  intros Ox path contents n fd fd' Sp E (t & o & R & Hf & En) (t' & o' & R' & Hf' & En'). apply three_is_source in Sp.
  destruct (three_reach x spare path contents t o Ox (or_introl eq_refl) Sp E R) as (_ & _ & [[_ ->]|[_ ->]]);
    destruct (three_reach x spare path contents t' o' Ox (or_introl eq_refl) Sp E R') as (_ & _ & [[_ ->]|[_ ->]]);
    vm_compute in Hf, Hf'; injection Hf as <-; injection Hf' as <-; try reflexivity; vm_compute in En, En'; congruence.
Qed.
Definition kept_frags : amap string fragdef := [("F", a_doc); ("G", spare_doc)].
Lemma three_reach_a x b : one_of x -> reach text_env (three x b) plain_config "./x.graphql" x "./a.graphql" PropC79.twice_a.
Proof.
  intros [-> | ->].
  - destruct (PropC96.root_imports "./x.graphql" PropC79.twice_query ["a.graphql"; "b.graphql"] (tl (tl (lines PropC79.twice_query))) "a.graphql") as (n & l & A); [vm_compute; reflexivity|left; reflexivity|discriminate|].
    eapply reach_one; [exact A|reflexivity].
  - destruct (PropC96.root_imports "./x.graphql" lone_query ["a.graphql"] (tl (lines lone_query)) "a.graphql") as (n & l & A); [vm_compute; reflexivity|left; reflexivity|discriminate|].
    eapply reach_one; [exact A|reflexivity].
Qed.
Lemma three_reach_b b : reach text_env (three PropC79.twice_query b) plain_config "./x.graphql" PropC79.twice_query "./b.graphql" b.
Proof.
  destruct (PropC96.root_imports "./x.graphql" PropC79.twice_query ["a.graphql"; "b.graphql"] (tl (tl (lines PropC79.twice_query))) "b.graphql") as (n & l & A); [vm_compute; reflexivity|right; left; reflexivity|discriminate|].
  eapply reach_one; [exact A|reflexivity].
Qed.
Lemma x_frags n fd : aget n kept_frags = Some fd <-> brought text_env (three PropC79.twice_query spare) plain_config "./x.graphql" PropC79.twice_query n fd.
Proof.
  split.
  - intros E. unfold kept_frags in E. cbn [aget] in E. unfold eqb, EqB_string in E. destruct (String.eqb_spec n "F") as [->|_]; [|destruct (String.eqb_spec n "G") as [->|_]; [|discriminate E]]; injection E as <-.
    + exists "./a.graphql", PropC79.twice_a. split; [exact (three_reach_a _ spare (or_introl eq_refl))|]. split; [vm_compute; reflexivity|reflexivity].
    + exists "./b.graphql", spare. split; [exact (three_reach_b spare)|]. split; [vm_compute; reflexivity|reflexivity].
  - intros (t & o & R & Hf & <-).
    destruct (three_reach PropC79.twice_query spare "./x.graphql" PropC79.twice_query t o (or_introl eq_refl) (or_introl eq_refl) (or_introl eq_refl) eq_refl R) as (_ & _ & [[_ ->]|[_ ->]]);
      vm_compute in Hf; injection Hf as <-; reflexivity.
Qed.
Lemma three_none b path contents n fd : In b [spare; PropC79.twice_b] -> In path ["./a.graphql"; "./b.graphql"] -> three PropC79.twice_query b (env_locate text_env path) = Ok contents ->
  ~ brought text_env (three PropC79.twice_query b) plain_config path contents n fd.
Proof.
  intros Ib Ip E (t & o & R & _). destruct (three_reach PropC79.twice_query b path contents t o (or_introl eq_refl) Ib (or_intror Ip) E R) as (-> & _). destruct Ip as [X|[X|[]]]; discriminate X.
Qed.
Lemma three_parts path : In path all_three -> exists contents, three PropC79.twice_query spare (env_locate text_env path) = Ok contents /\
  acyclic text_env (three PropC79.twice_query spare) plain_config path /\
  (forall F C, importer text_env (three PropC79.twice_query spare) plain_config path contents F C -> ~ unclosed_import C) /\
  (forall F C n ln t, importer text_env (three PropC79.twice_query spare) plain_config path contents F C -> imports_at plain_config F C n ln t ->
     exists o, three PropC79.twice_query spare (env_locate text_env t) = Ok o) /\
  (forall t o, reach text_env (three PropC79.twice_query spare) plain_config path contents t o -> ~ holds_operation text_env o).
Proof.
  intros Ip. assert (X : exists contents r, three PropC79.twice_query spare (env_locate text_env path) = Ok contents /\
    add_imports 5 text_env (three PropC79.twice_query spare) plain_config path contents [] [] = Done r).
  { destruct Ip as [<-|[<-|[<-|[]]]]; do 2 eexists; (split; [reflexivity|]); vm_compute; reflexivity. }
  destruct X as (contents & [im ms] & E & Ei). exists contents. split; [exact E|]. split; [eapply done_acyclic; eauto|].
  pose proof (three_reach PropC79.twice_query spare path contents) as Rc. specialize (fun t o => Rc t o (or_introl eq_refl) (or_introl eq_refl) Ip E).
  split; [|split].
  - intros F C I O. apply (add_imports_ok text_env (three PropC79.twice_query spare) plain_config 5) in Ei. destruct Ei as (_ & No). apply (No F C I). apply open_unclosed. exact O.
  - intros F C n ln t I A. assert (K : In (F, C) [("./x.graphql", PropC79.twice_query); ("./a.graphql", PropC79.twice_a); ("./b.graphql", spare)]).
    { destruct I as [[-> ->]|R]; [apply three_read; auto|]. destruct (Rc _ _ R) as (_ & _ & [[-> ->]|[-> ->]]); cbn; auto. }
    destruct (three_step PropC79.twice_query spare F C n ln t (or_introl eq_refl) (or_introl eq_refl) K A) as (_ & [<-|[<-|[]]] & _); eexists; reflexivity.
  - intros t o R (op & Ho). destruct (Rc _ _ R) as (_ & _ & [[_ ->]|[_ ->]]); vm_compute in Ho; discriminate Ho.
Qed.
Lemma three_sources path : In path all_three -> PropC81.settled_source text_env (three PropC79.twice_query spare) plain_config farm path.
Proof.
  intros Ip. destruct (three_parts path Ip) as (contents & E & Ac & Qu & Fo & Fr).
  destruct Ip as [<-|Ip].
  - change (@Ok string string PropC79.twice_query = Ok contents) in E. injection E as <-.
    exists PropC79.twice_query, (x_doc PropC79.twice_query), "Query", (x_sels PropC79.twice_query), kept_frags. split.
    + constructor; auto.
      * exact x_frags.
      * apply compositeb_ok. vm_compute. reflexivity.
      * exists "Query". apply possibles_ok. left. reflexivity.
      * apply (validb_ok farm _ 12). vm_compute. reflexivity.
      * intros v I. vm_compute in I. destruct I.
      * intros z (v & I & _). vm_compute in I. destruct I.
    + apply PropC48.regular_settled; [apply PropC48.undocumented_ok; vm_compute; reflexivity|]. apply (RegCheck.regularb_ok farm _ 12 _ (x_sels PropC79.twice_query)); [vm_compute; reflexivity|tauto].
  - assert (X : exists fdoc, env_parse text_env contents = Ok [DFrag fdoc] /\ In fdoc [a_doc; spare_doc]).
    { destruct Ip as [<-|[<-|[]]].
      - change (@Ok string string PropC79.twice_a = Ok contents) in E. injection E as <-. exists a_doc. split; [vm_compute; reflexivity|left; reflexivity].
      - change (@Ok string string spare = Ok contents) in E. injection E as <-. exists spare_doc. split; [vm_compute; reflexivity|right; left; reflexivity]. }
    destruct X as (fdoc & Ep & If). exists contents, (DFrag fdoc), (fr_cond fdoc), (fr_sels fdoc), []. split.
    + constructor; auto.
      * intros n fd. split; [intros X; discriminate X|]. intros X. destruct (three_none spare path contents n fd (or_introl eq_refl) Ip E X).
      * apply compositeb_ok. destruct If as [<-|[<-|[]]]; vm_compute; reflexivity.
      * exists "Dog". apply possibles_ok. destruct If as [<-|[<-|[]]]; vm_compute; tauto.
      * apply (validb_ok farm _ 12). destruct If as [<-|[<-|[]]]; vm_compute; reflexivity.
      * intros v [].
      * intros z (v & [] & _).
    + apply PropC48.regular_settled; [apply PropC48.undocumented_ok; vm_compute; reflexivity|]. apply (RegCheck.regularb_ok farm _ 12 _ (fr_sels fdoc)); [|tauto]. destruct If as [<-|[<-|[]]]; vm_compute; reflexivity.
Qed.
Fixpoint spread_names (x : selection) : list string :=
  match x with SField _ _ _ _ _ sub | SInline _ _ _ sub => flat_map spread_names sub | SSpread _ n _ => [n] end.
Lemma spreads_in l n : spreads l n -> In n (flat_map spread_names l).
Proof. induction 1 as [l p n d I|l p al n a d sub m I S IH|l p c d sub m I S IH]; apply in_flat_map; eexists; (split; [exact I|]); [left; reflexivity|exact IH|exact IH]. Qed.
Lemma three_accessible : accessible text_env PropC79.twice_listing ".".
Proof.
  split; [|reflexivity]. intros p d H.
  assert (K : forall p x, in_tree PropC79.twice_listing "." p x -> x = WDir "." \/ exists q, x = WFile q).
  { clear. intros p x H. induction H as [|q x i y _ IH En]; [left; reflexivity|]. destruct IH as [->|(z & ->)].
    - vm_compute in En. destruct i as [|[|[|[|i]]]]; try discriminate En; injection En as <-; eauto.
    - destruct i; discriminate En. }
  destruct (K _ _ H) as [X|(q & X)]; [injection X as ->|discriminate X]. do 2 eexists. split; reflexivity.
Qed.
Lemma three_project : valid_project text_env PropC79.twice_listing (three PropC79.twice_query spare) plain_config farm ".".
Proof.
  destruct three_accessible as [A B]. constructor; auto. intros path Sp. apply three_is_source in Sp. destruct (three_sources path Sp) as (x & d & P & l & fr & V & _). exists x, d, P, l, fr. exact V.
Qed.
Lemma three_trimmed b : In b [spare; PropC79.twice_b] ->
  trimmed_project text_env text_env PropC79.twice_listing PropC79.twice_listing plain_config plain_config "." "." PropC96.in_place (three PropC79.twice_query b) (three lone_query b).
Proof.
  intros Ib. constructor.
  - intros p q (<- & I). destruct I as [<-|I].
    + change (three PropC79.twice_query b (env_locate text_env "./x.graphql")) with (@Ok string string PropC79.twice_query).
      change (three lone_query b (env_locate text_env "./x.graphql")) with (@Ok string string lone_query). split; [|split].
      * vm_compute. constructor; [|constructor]. split; [cbn; repeat split; constructor|]. constructor; [tauto|constructor|PropC96.respreading].
      * intros U. exfalso. revert U. apply (PropC96.closed_imports lone_query ["a.graphql"] (tl (lines lone_query))); vm_compute; reflexivity.
      * intros n l t A. destruct (three_step lone_query b "./x.graphql" lone_query n l t (or_intror eq_refl) Ib (or_introl eq_refl) A) as (_ & _ & L). rewrite (L eq_refl).
        destruct (PropC96.root_imports "./x.graphql" PropC79.twice_query ["a.graphql"; "b.graphql"] (tl (tl (lines PropC79.twice_query))) "a.graphql") as (n' & l' & A'); [vm_compute; reflexivity|left; reflexivity|discriminate|].
        exists n', l', "./a.graphql". split; [exact A'|]. split; [reflexivity|cbn; auto].
    + assert (X : exists o, In (p, o) [("./a.graphql", PropC79.twice_a); ("./b.graphql", b)] /\ three PropC79.twice_query b (env_locate text_env p) = Ok o /\ three lone_query b (env_locate text_env p) = Ok o).
      { destruct I as [<-|[<-|[]]]; eexists; (split; [cbn; eauto|split; reflexivity]). }
      destruct X as (o & Io & -> & ->). split; [|split; [auto|]].
      * destruct Io as [Io|[Io|[]]]; injection Io as <- <-; [|destruct Ib as [<-|[<-|[]]]]; vm_compute; (constructor; [|constructor]); (split; [cbn; auto|]); constructor; auto; cbn [fr_sels]; PropC96.respreading.
      * intros n l t A. destruct (three_step lone_query b p o n l t (or_intror eq_refl) Ib (or_intror Io) A) as (-> & _). destruct Io as [X|[X|[]]]; discriminate X.
  - intros path path' Sp _ (<- & _) x y d P l n fd Ex Ey Ep Ro Nd Hb. apply three_is_source in Sp. destruct Sp as [<-|Ip]; [|destruct (three_none b path x n fd Ib Ip Ex Hb)].
    change (@Ok string string PropC79.twice_query = Ok x) in Ex. injection Ex as <-. change (@Ok string string lone_query = Ok y) in Ey. injection Ey as <-.
    assert (El : l = x_sels PropC79.twice_query). { vm_compute in Ep. injection Ep as <-. vm_compute in Ro. injection Ro as _ <-. vm_compute. reflexivity. }
    assert (K : n = "F").
    { clear Hb. induction Nd as [n S|k kd n _ IH Hk S].
      - subst l. apply spreads_in in S. clear - S. vm_compute in S. destruct S as [S|[]]. symmetry. exact S.
      - exfalso. destruct Hk as (t & o & R & Hf & _).
        destruct (three_reach PropC79.twice_query b "./x.graphql" PropC79.twice_query t o (or_introl eq_refl) Ib (or_introl eq_refl) eq_refl R) as (_ & _ & [[_ ->]|[_ ->]]);
          [|destruct Ib as [<-|[<-|[]]]]; vm_compute in Hf; injection Hf as <-; apply spreads_in in S; clear - S; vm_compute in S; exact S. }
    subst n. exists a_doc. exists "./a.graphql", PropC79.twice_a. split; [exact (three_reach_a lone_query b (or_intror eq_refl))|]. split; [vm_compute; reflexivity|reflexivity].
  - intros path Sp. exists path. split; [exact Sp|]. split; [reflexivity|apply three_is_source; exact Sp].
  - intros path Sp. exists path. split; [exact Sp|]. split; [reflexivity|apply three_is_source; exact Sp].
  - auto.
Qed.
Example C97_nonvacuous : exists out g out' g' text,
  qlc 30 (three_world PropC79.twice_query spare) (args_threads 1) (repeat 0 90) = Exited 0 out g /\ qlc 30 (three_world lone_query spare) (args_threads 1) (repeat 0 90) = Exited 0 out' g' /\
  g "./x.graphql.d.ts" = Ok text /\ g' "./x.graphql.d.ts" = Ok text /\
  valid_project text_env PropC79.twice_listing (three lone_query spare) plain_config farm ".".
Proof.
  assert (H : exists out g out' g', qlc 30 (three_world PropC79.twice_query spare) (args_threads 1) (repeat 0 90) = Exited 0 out g /\
    qlc 30 (three_world lone_query spare) (args_threads 1) (repeat 0 90) = Exited 0 out' g').
  { do 4 eexists. split; vm_compute; reflexivity. }
  destruct H as (out & g & out' & g' & H & H'). exists out, g, out', g'.
  assert (Pn : forall text ds d, env_parse text_env text = Ok ds -> In d ds -> PropC56.parsed_named d).
  { intros text ds d E I. cbn [env_parse text_env] in E. destruct (parse_query lenient text) as [ds'|] eqn:Ep; [|discriminate]. injection E as ->. eapply C69_named; eauto. }
  destruct (C97_outputs_partial 30 30 (three_world PropC79.twice_query spare) (three_world lone_query spare) (args_threads 1) (args_threads 1) (repeat 0 90) (repeat 0 90) config_default config_default farm_json farm PropC96.in_place out g 0 out' g'
    (three_settled _ (or_introl eq_refl)) (three_settled _ (or_intror eq_refl)) (conj eq_refl (conj eq_refl (conj eq_refl (conj eq_refl eq_refl)))) PropC79.farm_inhabited (PropC79.disk_types lenient (fun _ => "syntax error") "" (three_world lone_query spare) (PropC77.world_disk PropC79.twice_listing (three lone_query spare)))) as (_ & K & _).
  - repeat constructor.
  - reflexivity.
  - exact farm_text_read.
  - exact farm_text_read.
  - exact Pn.
  - exact Pn.
  - exact (three_trimmed spare (or_introl eq_refl)).
  - exact (three_unique lone_query (or_intror eq_refl)).
  - exact three_project.
  - intros path Sp. apply three_sources. apply three_is_source. exact Sp.
  - exact H.
  - exact H'.
  - destruct (K "./x.graphql" "./x.graphql") as (text & A & B); [apply three_is_source; left; reflexivity|apply three_is_source; left; reflexivity|split; [reflexivity|left; reflexivity]|].
    exists text. do 4 (split; [assumption|]).
    apply (C97_valid text_env text_env PropC79.twice_listing PropC79.twice_listing (three PropC79.twice_query spare) (three lone_query spare) plain_config plain_config farm "." "." PropC96.in_place (three_trimmed spare (or_introl eq_refl)) (fun p => SelWorlds.plain_ok)
      (se_paths _ _ _ _ _ (three_settled lone_query (or_intror eq_refl))) (three_unique lone_query (or_intror eq_refl))).
    exact three_project.
Qed.

(** ** Not with two fragments of one name: both projects are accepted, and the type of the query is another *)
Theorem C97_refuted : exists out g out' g',
  trimmed_project text_env text_env PropC79.twice_listing PropC79.twice_listing plain_config plain_config "." "." PropC96.in_place (three PropC79.twice_query PropC79.twice_b) (three lone_query PropC79.twice_b) /\
  qlc 30 (three_world PropC79.twice_query PropC79.twice_b) (args_threads 1) (repeat 0 90) = Exited 0 out g /\ qlc 30 (three_world lone_query PropC79.twice_b) (args_threads 1) (repeat 0 90) = Exited 0 out' g' /\
  g "./x.graphql.d.ts" <> g' "./x.graphql.d.ts".
Proof.
  do 4 eexists. split; [exact (three_trimmed PropC79.twice_b (or_intror (or_introl eq_refl)))|]. split; [vm_compute; reflexivity|]. split; [vm_compute; reflexivity|]. vm_compute. discriminate.
Qed.
Print Assumptions C97_refuted.
