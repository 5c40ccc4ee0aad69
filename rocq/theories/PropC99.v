(** C99: source files can be added. *)
From Verif Require Import SpecAdd PruneFacts TrimFacts MoveFacts PlaceFacts RefactorFacts RecastFacts LinkFacts GlobalRead EndFacts.
From Verif Require Import Rewrite ImportMain ImportProps ProjectFacts.
From Verif Require LoadName RegCheck PropC07 PropC35 PropC48 PropC49 PropC56 PropC72 PropC78 PropC79 PropC80 PropC81 PropC84 PropC93 PropC96 PropC97 PropC98.

(** Valid projects stay valid *)
Theorem C99_valid : forall e e' ls ls' f f' c c' s root root' m, enlarged_project e e' ls ls' c c' s root root' m f f' ->
  unique_fragments e' ls' f' c' root' -> valid_project e ls f c s root -> valid_project e' ls' f' c' s root'.
Proof.
  intros e e' ls ls' f f' c c' s root root' m [A B C [D1 D2]] U [V1 V2 V3]. constructor; auto. intros path' Sp'. destruct (C path' Sp') as [(path & Sp & Hm)|V]; [|exact V].
  destruct (V2 path Sp) as (x & d & P & l & fr & V).
  destruct (valid_at_moved e e' c c' m f f' s path path' x d P l fr A Hm (fun y n a b => U path' y n a b Sp') V) as (y & d' & l' & fr' & V' & _).
  exists y, d', P, l', fr'. exact V'.
Qed.
Print Assumptions C99_valid.

(** ** What is generated *)
Lemma enlarged_same e e' ls' c c' root' m f f' s path path' : moved_files e e' c c' m f f' -> unique_fragments e' ls' f' c' root' ->
  m path path' -> is_source ls' root' path' -> PropC81.settled_source e f c s path -> PropC84.same_source s c c' e e' f f' path path'.
Proof.
  intros M U Hm Sp' (x & d & P & l & fr & V & St).
  destruct (valid_at_moved e e' c c' m f f' s path path' x d P l fr M Hm (fun y n a b => U path' y n a b Sp') V) as (y & d' & l' & fr' & V' & Sh & Rc).
  pose proof V as [Ex Ep _ _ _ _ Br Ro Su _ _ _ _ _]. pose proof V' as [Ex' Ep' _ _ _ _ Br' Ro' _ _ _ _ _ _].
  exists x, d, fr, P, l, y, d', fr', l'. do 10 (split; [auto|]). split; [exact Ro'|]. apply recast_collects; [exact St|]. apply recasts_told. exact Rc.
Qed.

(** If the project compiled it still does; each output is the same byte for byte, and the module of globals has its
    definitions and perhaps others between them *)
Theorem C99_outputs_partial : forall fuel fuel' wo wo' a a' sched sched' cf cf' js s m out g code' out' g',
  let rc := merge_config (wo_ncpus wo) a cf in
  let rc' := merge_config (wo_ncpus wo') a' cf' in
  let c := cconfig_of rc in
  let c' := cconfig_of rc' in
  let e := wo_env wo in
  let e' := wo_env wo' in
  let ls := wo_listing wo in
  let ls' := wo_listing wo' in
  let root := rc_root_dir rc in
  let root' := rc_root_dir rc' in
  let f := wo_fs wo in
  let f' := wo_fs wo' in
  LinkFacts.settled wo a cf js s -> LinkFacts.settled wo' a' cf' js s -> same_output_options c c' ->
  inhabited_types s -> types_parse e' -> finite (dir_kids ls') (WDir root') -> env_write e' (globals_path c' root') = WOk ->
  wo_schema wo (rc_schema_path rc) = SRDecoded js -> wo_schema wo' (rc_schema_path rc') = SRDecoded js ->
  (forall text ds d, env_parse e text = Ok ds -> In d ds -> PropC56.parsed_named d) ->
  (forall text ds d, env_parse e' text = Ok ds -> In d ds -> PropC56.parsed_named d) ->
  enlarged_project e e' ls ls' c c' s root root' m f f' -> unique_fragments e' ls' f' c' root' ->
  valid_project e ls f c s root -> (forall path, is_source ls root path -> PropC81.settled_source e f c s path) ->
  qlc fuel wo a sched = Exited 0 out g -> qlc fuel' wo' a' sched' = Exited code' out' g' ->
  code' = 0 /\
  (forall path path', is_source ls root path -> is_source ls' root' path' -> m path path' ->
     exists text, g (out_loc e path) = Ok text /\ g' (out_loc e' path') = Ok text) /\
  ((exists n, PropC49.uses_global fuel e ls c s root f n) ->
     exists ds ds', g (env_locate e (globals_path c root)) = Ok (header +++ join (nl +++ nl) ds) /\
       g' (env_locate e' (globals_path c' root')) = Ok (header +++ join (nl +++ nl) ds') /\ part_of ds ds').
Proof.
  intros fuel fuel' wo wo' a a' sched sched' cf cf' js s m out g code' out' g' rc rc' c c' e e' ls ls' root root' f f' Se Se' Ec Inh Ty Fin W Es Es' Pn Pn' M U V Ss H H'.
  pose proof Se' as [Lc In0 Jn N S Gd Ho C Ag Sc Th]. pose proof (in_loaded _ _ In0) as L. pose proof (intro_consistent _ _ In0) as Co.
  pose proof (PropC72.nameable_proper _ _ (LoadName.loaded_nameable _ _ _ L Jn)) as Pr.
  assert (Ls' : parse_schema (rc_schema_path rc') (wo_schema wo' (rc_schema_path rc')) = Ok s) by (rewrite Es'; cbn [parse_schema]; rewrite L; reflexivity).
  pose proof (C99_valid e e' ls ls' f f' c c' s root root' m M U V) as V'.
  assert (Z : code' = 0).
  { pose proof (PropC79.C79_accepts wo' a' cf' s Lc Ls' N S Ho Ag Co C Inh Pr Ty Fin) as K.
    fold rc' in K. fold root' c' in K. destruct (K V' W) as (k0 & K0). clear K.
    destruct (K0 (Nat.max k0 fuel') (Nat.le_max_l _ _) sched') as (K1 & _).
    rewrite <- (qlc_mono _ _ wo' a' sched' (Nat.le_max_r k0 fuel')) in H' by (rewrite H'; discriminate).
    destruct K1 as [K1|(o & h & K1)]; rewrite H' in K1; [discriminate K1|]. injection K1 as -> _ _. reflexivity. }
  subst code'. split; [reflexivity|].
  pose proof (PropC84.runs_compiled fuel fuel' wo wo' a a' sched sched' cf cf' js s out out' g g' Se Se' Ec Es Es' Pn Pn' H H') as K.
  fold rc rc' c c' e e' in K. fold ls ls' root root' f f' in K.
  assert (Sm : forall path path', is_source ls root path -> is_source ls' root' path' -> m path path' -> PropC84.same_source s c c' e e' f f' path path').
  { intros path path' Sp Sp' Hm. exact (enlarged_same e e' ls' c c' root' m f f' s path path' (ep_files _ _ _ _ _ _ _ _ _ _ _ _ M) U Hm Sp' (Ss path Sp)). }
  split.
  { intros path path' Sp Sp' Hm. destruct (K path path' Sp Sp' (Sm path path' Sp Sp' Hm)) as (co & _ & _ & A & B & _). eauto. }
  assert (Ug : forall n, PropC49.uses_global fuel e ls c s root f n -> PropC49.uses_global fuel' e' ls' c' s root' f' n).
  { intros n (path & ms & co & Sp & Fc & I). destruct (ep_to _ _ _ _ _ _ _ _ _ _ _ _ M path Sp) as (path' & Sp' & Hm).
    destruct (K path path' Sp Sp' (Sm path path' Sp Sp' Hm)) as (co1 & ms1 & ms1' & _ & _ & F & F').
    rewrite (PropC84.compiles_once _ _ _ _ _ _ _ _ _ _ F Fc) in I. exists path', ms1', co1. auto. }
  intros Ex. assert (Ex' : exists n, PropC49.uses_global fuel' e' ls' c' s root' f' n) by (destruct Ex as (n & X); exists n; apply Ug; exact X).
  clear Lc In0 Jn N S Gd Ho C Sc Th L Ls'.
  pose proof Se as [Lc In0 Jn N S Gd Ho C _ _ Th]. pose proof Se' as [Lc' In0' Jn' N' S' Gd' Ho' C' _ _ Th']. pose proof (in_loaded _ _ In0) as L.
  assert (Ls : parse_schema (rc_schema_path rc) (wo_schema wo (rc_schema_path rc)) = Ok s) by (rewrite Es; cbn [parse_schema]; rewrite L; reflexivity).
  assert (Ls' : parse_schema (rc_schema_path rc') (wo_schema wo' (rc_schema_path rc')) = Ok s) by (rewrite Es'; cbn [parse_schema]; rewrite L; reflexivity).
  assert (G : exists text l ds, g (env_locate e (globals_path c (rc_root_dir rc))) = Ok text /\ NoDup (List.map fst l) /\ sorted_by fst l /\
         (forall n t, In (n, t) l <-> (exists r, PropC49.uses_global fuel e (wo_listing wo) c s (rc_root_dir rc) (wo_fs wo) r /\ SpecGlobal.leads s r n) /\ get_type s n = Some t) /\
         Forall2 (fun x d => def_text c (fst x) (snd x) d) l ds /\ text = header +++ join (nl +++ nl) ds).
  { destruct Th as [One|[Pos Fl]].
    - destruct (PropC49.C49_end_to_end fuel wo a sched cf s out g Lc Ls N S Gd Ho C One H) as (_ & B & _). destruct (B Ex) as (text & l & ds & B1 & B2 & B3 & B4 & B5 & B6 & _). exists text, l, ds. auto 8.
    - destruct (PropC49.C49_flat fuel wo a sched cf s out g Lc Ls N S Gd Ho C Pos Fl H) as (_ & B & _). destruct (B Ex) as (text & l & ds & B1 & B2 & B3 & B4 & B5 & B6 & _). exists text, l, ds. auto 8. }
  assert (G' : exists text l ds, g' (env_locate e' (globals_path c' (rc_root_dir rc'))) = Ok text /\ NoDup (List.map fst l) /\ sorted_by fst l /\
         (forall n t, In (n, t) l <-> (exists r, PropC49.uses_global fuel' e' (wo_listing wo') c' s (rc_root_dir rc') (wo_fs wo') r /\ SpecGlobal.leads s r n) /\ get_type s n = Some t) /\
         Forall2 (fun x d => def_text c' (fst x) (snd x) d) l ds /\ text = header +++ join (nl +++ nl) ds).
  { destruct Th' as [One|[Pos Fl]].
    - destruct (PropC49.C49_end_to_end fuel' wo' a' sched' cf' s out' g' Lc' Ls' N' S' Gd' Ho' C' One H') as (_ & B & _). destruct (B Ex') as (text & l & ds & B1 & B2 & B3 & B4 & B5 & B6 & _). exists text, l, ds. auto 8.
    - destruct (PropC49.C49_flat fuel' wo' a' sched' cf' s out' g' Lc' Ls' N' S' Gd' Ho' C' Pos Fl H') as (_ & B & _). destruct (B Ex') as (text & l & ds & B1 & B2 & B3 & B4 & B5 & B6 & _). exists text, l, ds. auto 8. }
  destruct G as (text & l & ds & G1 & G2 & G3 & G4 & G5 & G6). destruct G' as (text' & l' & ds' & G1' & G2' & G3' & G4' & G5' & G6').
  exists ds, ds'. split; [etransitivity; [exact G1|rewrite G6; reflexivity]|]. split; [etransitivity; [exact G1'|rewrite G6'; reflexivity]|].
  apply (part_images _ _ l l') with (2 := G5') (3 := G5).
  - apply (sorted_part fst); auto. intros [n t] I. apply G4 in I. destruct I as [(r & X & Y) Z]. apply G4'. split; [exists r; split; [apply Ug; exact X|exact Y]|exact Z].
  - intros [n t] d' d I X' X. apply (placed_text c c' Ec) in X'. cbn [fst snd] in *. eapply def_text_unique; eauto. intros fields E. apply (C n t n fields); auto. apply G4'. exact I.
Qed.
Print Assumptions C99_outputs_partial.

(** ** In place: the same surroundings, configuration and schema *)
(** Any documents here, also with fields under one response key that differ: whatever the runs did with the former sources, they did
    the same *)
Theorem C99_in_place : forall fuel wo wo' a sched sched' cf s out g code' out' g',
  let rc := merge_config (wo_ncpus wo) a cf in
  let rc' := merge_config (wo_ncpus wo') a cf in
  let c := cconfig_of rc in
  let e := wo_env wo in
  let root := rc_root_dir rc in
  let f := wo_fs wo in
  let f' := wo_fs wo' in
  let gl := env_locate e (globals_path c root) in
  load_config (ca_config_file a) (wo_config wo) = Ok cf -> load_config (ca_config_file a) (wo_config wo') = Ok cf ->
  parse_schema (rc_schema_path rc) (wo_schema wo (rc_schema_path rc)) = Ok s -> parse_schema (rc_schema_path rc) (wo_schema wo' (rc_schema_path rc)) = Ok s ->
  wo_env wo' = e -> names_ok (wo_listing wo) -> names_ok (wo_listing wo') ->
  separate e (wo_listing wo) c root f -> separate e (wo_listing wo') c root f' ->
  PropC80.threads_ok (rc_number_threads rc) (wo_listing wo) root -> PropC80.threads_ok (rc_number_threads rc') (wo_listing wo') root ->
  (forall p, order_ok (env_order e p)) -> inputs_consistent s ->
  (forall path, is_source (wo_listing wo') root path -> out_loc e path <> gl) ->
  (* the former sources are still there, and what they read is the same *)
  (forall path, is_source (wo_listing wo) root path -> is_source (wo_listing wo') root path) ->
  (forall path l, is_source (wo_listing wo) root path -> SpecFs.reads e f c path l -> f' l = f l) ->
  qlc fuel wo a sched = Exited 0 out g -> qlc fuel wo' a sched' = Exited code' out' g' ->
  (* their outputs are the same, even if others fail *)
  (forall path, is_source (wo_listing wo) root path -> g' (out_loc e path) = g (out_loc e path)) /\
  (code' = 0 -> (exists n, PropC49.uses_global fuel e (wo_listing wo) c s root f n) ->
     exists ds ds', g gl = Ok (header +++ join (nl +++ nl) ds) /\ g' gl = Ok (header +++ join (nl +++ nl) ds') /\ part_of ds ds').
Proof.
  intros fuel wo wo' a sched sched' cf s out g code' out' g' rc rc' c e root f f' gl Lc Lc' Ls Ls' Ee N N' S S' Th Th' Ho C Gd' Sub A H H'.
  assert (Gd : forall path, is_source (wo_listing wo) root path -> out_loc e path <> gl) by (intros path Sp; apply Gd'; auto). split.
  { intros path Sp. symmetry.
    exact (proj2 (PropC80.C80_output fuel wo wo' a sched sched' cf s 0 out g code' out' g' path Lc Lc' Ls Ls' Ee N N' S S' Th Th' H H' Sp (Sub path Sp) (fun l => A path l Sp) (Gd path Sp)) (or_introl eq_refl)). }
  intros -> Ex.
  assert (Ug : forall n, PropC49.uses_global fuel e (wo_listing wo) c s root f n -> PropC49.uses_global fuel e (wo_listing wo') c s root f' n).
  { intros n (path & ms & co & Sp & Fc & I).
    destruct (PropC98.in_place_compiles fuel wo wo' a sched cf s out g path ms co Lc Ls N S Th H Sp (Gd path Sp) (fun l => A path l Sp) Fc) as (ms' & co' & F' & Eg).
    exists path, ms', co'. split; [exact (Sub path Sp)|]. split; [exact F'|]. rewrite Eg. exact I. }
  assert (Ex' : exists n, PropC49.uses_global fuel e (wo_listing wo') c s root f' n) by (destruct Ex as (n & X); exists n; apply Ug; exact X).
  assert (G : forall w sc o h, load_config (ca_config_file a) (wo_config w) = Ok cf -> parse_schema (rc_schema_path rc) (wo_schema w (rc_schema_path rc)) = Ok s -> wo_env w = e ->
      names_ok (wo_listing w) -> separate e (wo_listing w) c root (wo_fs w) -> (forall path, is_source (wo_listing w) root path -> out_loc e path <> gl) ->
      PropC80.threads_ok (rc_number_threads (merge_config (wo_ncpus w) a cf)) (wo_listing w) root -> qlc fuel w a sc = Exited 0 o h ->
      (exists n, PropC49.uses_global fuel e (wo_listing w) c s root (wo_fs w) n) ->
      exists text l ds, h gl = Ok text /\ NoDup (List.map fst l) /\ sorted_by fst l /\
         (forall n t, In (n, t) l <-> (exists r, PropC49.uses_global fuel e (wo_listing w) c s root (wo_fs w) r /\ SpecGlobal.leads s r n) /\ get_type s n = Some t) /\
         Forall2 (fun x d => def_text c (fst x) (snd x) d) l ds /\ text = header +++ join (nl +++ nl) ds).
  { clear - Ho C. intros w sc o h Lc Ls Ew N S Gd Th H Ex. unfold gl in *. rewrite <- Ew in *. destruct Th as [One|[Pos Fl]].
    - destruct (PropC49.C49_end_to_end fuel w a sc cf s o h Lc Ls N S Gd Ho C One H) as (_ & B & _). destruct (B Ex) as (text & l & ds & B1 & B2 & B3 & B4 & B5 & B6 & _). exists text, l, ds. auto 8.
    - destruct (PropC49.C49_flat fuel w a sc cf s o h Lc Ls N S Gd Ho C Pos Fl H) as (_ & B & _). destruct (B Ex) as (text & l & ds & B1 & B2 & B3 & B4 & B5 & B6 & _). exists text, l, ds. auto 8. }
  destruct (G wo sched out g Lc Ls eq_refl N S Gd Th H Ex) as (text & l & ds & G1 & G2 & G3 & G4 & G5 & G6).
  destruct (G wo' sched' out' g' Lc' Ls' Ee N' S' Gd' Th' H' Ex') as (text' & l' & ds' & G1' & G2' & G3' & G4' & G5' & G6'). clear G.
  exists ds, ds'. split; [rewrite G1, G6; reflexivity|]. split; [rewrite G1', G6'; reflexivity|].
  apply (part_images _ _ l l') with (2 := G5') (3 := G5).
  - apply (sorted_part fst); auto. intros [n t] I. apply G4 in I. destruct I as [(r & X & Y) Z]. apply G4'. split; [exists r; split; [apply Ug; exact X|exact Y]|exact Z].
  - intros [n t] d' d I X' X. cbn [fst snd] in *. eapply def_text_unique; eauto. intros fields E. apply (C n t n fields); auto. apply G4'. exact I.
Qed.
Print Assumptions C99_in_place.

(** ** From texts to texts *)
From Verif Require Import Gql Json Args SpecGtext SpecJson SpecJtext PropC69 PropC72.
From Verif Require SpecArgs PropC65 PropC67 PropC77.
Theorem C99_text_partial : forall ck complaint complaint' jerr jerr' help help' version version' fuel fuel' wo wo' its its' argv argv' a a' nc nc' sched sched' cf cf'
    stext stext' j j' js s m out g code' out' g',
  let rc := merge_config (wo_ncpus wo) a cf in
  let rc' := merge_config (wo_ncpus wo') a' cf' in
  let c := cconfig_of rc in
  let c' := cconfig_of rc' in
  let e := wo_env wo in
  let e' := wo_env wo' in
  let ls := wo_listing wo in
  let ls' := wo_listing wo' in
  let root := rc_root_dir rc in
  let root' := rc_root_dir rc' in
  let f := wo_fs wo in
  let f' := wo_fs wo' in
  on_disk ck complaint jerr wo -> on_disk ck complaint' jerr' wo' ->
  SpecArgs.spelled its argv -> SpecArgs.consistent its -> SpecArgs.complete its -> SpecArgs.says its a nc ->
  SpecArgs.spelled its' argv' -> SpecArgs.consistent its' -> SpecArgs.complete its' -> SpecArgs.says its' a' nc' ->
  LinkFacts.settled wo a cf js s -> LinkFacts.settled wo' a' cf' js s -> same_output_options c c' ->
  inhabited_types s -> finite (dir_kids ls') (WDir root') -> env_write e' (globals_path c' root') = WOk ->
  f (env_locate e (rc_schema_path rc)) = Ok stext -> text_holds stext j -> says_schema j js ->
  f' (env_locate e' (rc_schema_path rc')) = Ok stext' -> text_holds stext' j' -> says_schema j' js -> fits js ->
  enlarged_project e e' ls ls' c c' s root root' m f f' -> unique_fragments e' ls' f' c' root' ->
  valid_project e ls f c s root -> (forall path, is_source ls root path -> PropC81.settled_source e f c s path) ->
  qlc_command help version fuel wo argv sched = Exited 0 out g -> qlc_command help' version' fuel' wo' argv' sched' = Exited code' out' g' ->
  code' = 0 /\
  (forall path path', is_source ls root path -> is_source ls' root' path' -> m path path' ->
     exists text, g (out_loc e path) = Ok text /\ g' (out_loc e' path') = Ok text) /\
  ((exists n, PropC49.uses_global fuel e ls c s root f n) ->
     exists ds ds', g (env_locate e (globals_path c root)) = Ok (header +++ join (nl +++ nl) ds) /\
       g' (env_locate e' (globals_path c' root')) = Ok (header +++ join (nl +++ nl) ds') /\ part_of ds ds').
Proof.
  intros ck complaint complaint' jerr jerr' help help' version version' fuel fuel' wo wo' its its' argv argv' a a' nc nc' sched sched' cf cf'
    stext stext' j j' js s m out g code' out' g' rc rc' c c' e e' ls ls' root root' f f' Hd Hd' Sp Cn Cm Sy Sp' Cn' Cm' Sy' Se Se' Ec Inh Fin W Es Tx Sj Es' Tx' Sj' Fi M U V Ss H H'.
  assert (Pa : parse_args argv = URun a nc) by (apply PropC65.C65_exact; exists its; auto).
  assert (Pa' : parse_args argv' = URun a' nc') by (apply PropC65.C65_exact; exists its'; auto).
  unfold qlc_command in H, H'. rewrite Pa in H. rewrite Pa' in H'.
  assert (Sc : wo_schema wo (rc_schema_path rc) = SRDecoded js) by (rewrite (od_schema _ _ _ _ Hd _ _ Es); apply PropC67.C67_schema; eauto).
  assert (Sc' : wo_schema wo' (rc_schema_path rc') = SRDecoded js) by (rewrite (od_schema _ _ _ _ Hd' _ _ Es'); apply PropC67.C67_schema; eauto).
  assert (Pn : forall k q w, on_disk ck k q w -> forall text ds d, env_parse (wo_env w) text = Ok ds -> In d ds -> PropC56.parsed_named d).
  { intros k q w Hw text ds d E I. rewrite (od_documents _ _ _ _ Hw) in E. destruct (parse_query ck text) as [ds'|] eqn:Ep; [|discriminate]. injection E as ->. eapply C69_named; eauto. }
  exact (C99_outputs_partial fuel fuel' wo wo' a a' sched sched' cf cf' js s m out g code' out' g' Se Se' Ec Inh (PropC79.disk_types _ _ _ _ Hd') Fin W Sc Sc' (Pn _ _ _ Hd) (Pn _ _ _ Hd') M U V Ss H H').
Qed.
Print Assumptions C99_text_partial.


(** ** A query that uses a global type is added to one that uses another *)
Lemma loose_enlarged : enlarged_project text_env text_env (PropC98.loose_listing false) (PropC98.loose_listing true) plain_config plain_config farm "." "." PropC98.only_x (PropC98.loose false) (PropC98.loose true).
Proof.
  constructor.
  - intros p q (-> & ->). change (PropC98.loose false (env_locate text_env "./x.graphql")) with (@Ok string string PropC98.size_query). change (PropC98.loose true (env_locate text_env "./x.graphql")) with (@Ok string string PropC98.size_query).
    split; [|split; [tauto|split]].
    + vm_compute. constructor; [|constructor]. split; [cbn; repeat split; constructor|]. constructor; [tauto|constructor|PropC96.respreading].
    + intros n l t A. destruct (PropC98.loose_step _ _ _ _ _ (or_introl eq_refl) A).
    + intros n l t A. destruct (PropC98.loose_step _ _ _ _ _ (or_introl eq_refl) A).
  - intros path Sp. apply PropC98.loose_is_source in Sp. destruct Sp as [<-|[]]. exists "./x.graphql". split; [apply PropC98.loose_is_source; left; reflexivity|split; reflexivity].
  - intros path' Sp. apply PropC98.loose_is_source in Sp. destruct Sp as [<-|[<-|[]]].
    + left. exists "./x.graphql". split; [apply PropC98.loose_is_source; left; reflexivity|split; reflexivity].
    + right. destruct (PropC98.loose_settled_source true "./b.graphql") as (x & d & P & l & fr & V & _); [right; left; reflexivity|]. exists x, d, P, l, fr. exact V.
  - exact (PropC98.loose_accessible true).
Qed.
Lemma loose_unique more : unique_fragments text_env (PropC98.loose_listing more) (PropC98.loose more) plain_config ".".
Proof. intros path contents n fd fd' Sp E (t & o & R & _). apply PropC98.loose_is_source in Sp. destruct (PropC98.loose_reach more path contents t o Sp E R). Qed.
Example C99_nonvacuous : exists out g out' g' ds ds' text,
  qlc 30 (PropC98.loose_world false) (args_threads 1) (repeat 0 90) = Exited 0 out g /\ qlc 30 (PropC98.loose_world true) (args_threads 1) (repeat 0 90) = Exited 0 out' g' /\
  g "./x.graphql.d.ts" = Ok text /\ g' "./x.graphql.d.ts" = Ok text /\
  g (globals_path plain_config ".") = Ok (header +++ join (nl +++ nl) ds) /\ g' (globals_path plain_config ".") = Ok (header +++ join (nl +++ nl) ds') /\
  part_of ds ds' /\ ds <> ds' /\ valid_project text_env (PropC98.loose_listing true) (PropC98.loose true) plain_config farm ".".
Proof.
  assert (H : exists out g out' g', qlc 30 (PropC98.loose_world false) (args_threads 1) (repeat 0 90) = Exited 0 out g /\ qlc 30 (PropC98.loose_world true) (args_threads 1) (repeat 0 90) = Exited 0 out' g' /\
    g (globals_path plain_config ".") <> g' (globals_path plain_config ".")).
  { do 4 eexists. split; [vm_compute; reflexivity|]. split; [vm_compute; reflexivity|]. vm_compute. discriminate. }
  destruct H as (out & g & out' & g' & H & H' & Df). exists out, g, out', g'.
  assert (Pn : forall text ds d, env_parse text_env text = Ok ds -> In d ds -> PropC56.parsed_named d).
  { intros text ds d E I. cbn [env_parse text_env] in E. destruct (parse_query lenient text) as [ds'|] eqn:Ep; [|discriminate]. injection E as ->. eapply C69_named; eauto. }
  assert (V : valid_project text_env (PropC98.loose_listing false) (PropC98.loose false) plain_config farm ".").
  { destruct (PropC98.loose_accessible false) as [A B]. constructor; auto. intros path Sp. apply PropC98.loose_is_source in Sp. destruct (PropC98.loose_settled_source false path Sp) as (x & d & P & l & fr & V & _). exists x, d, P, l, fr. exact V. }
  destruct (C99_outputs_partial 30 30 (PropC98.loose_world false) (PropC98.loose_world true) (args_threads 1) (args_threads 1) (repeat 0 90) (repeat 0 90) config_default config_default farm_json farm PropC98.only_x out g 0 out' g'
    (PropC98.loose_settled false) (PropC98.loose_settled true) (conj eq_refl (conj eq_refl (conj eq_refl (conj eq_refl eq_refl)))) PropC79.farm_inhabited (PropC79.disk_types lenient (fun _ => "syntax error") "" (PropC98.loose_world true) (PropC77.world_disk (PropC98.loose_listing true) (PropC98.loose true)))) as (_ & O & K).
  - repeat constructor.
  - reflexivity.
  - exact farm_text_read.
  - exact farm_text_read.
  - exact Pn.
  - exact Pn.
  - exact loose_enlarged.
  - exact (loose_unique true).
  - exact V.
  - intros path Sp. apply (PropC98.loose_settled_source false). apply PropC98.loose_is_source. exact Sp.
  - exact H.
  - exact H'.
  - destruct K as (ds & ds' & A & B & C).
    + exists "Size". exists "./x.graphql". do 2 eexists. split; [apply PropC98.loose_is_source; left; reflexivity|]. split; [do 8 eexists; repeat (split; [vm_compute; reflexivity|]); vm_compute; reflexivity|]. vm_compute. auto.
    + destruct (O "./x.graphql" "./x.graphql") as (text & T & T'); [apply PropC98.loose_is_source; left; reflexivity|apply PropC98.loose_is_source; left; reflexivity|split; reflexivity|].
      exists ds, ds', text. do 2 (split; [assumption|]). split; [exact T|]. split; [exact T'|]. split; [exact A|]. split; [exact B|]. split; [exact C|]. split.
      * intros ->. apply Df. etransitivity; [exact A|symmetry; exact B].
      * exact (C99_valid _ _ _ _ _ _ _ _ _ _ _ _ loose_enlarged (loose_unique true) V).
Qed.
Example C99_in_place_nonvacuous : exists out g out' g' ds ds',
  qlc 30 (PropC98.loose_world false) (args_threads 1) (repeat 0 90) = Exited 0 out g /\ qlc 30 (PropC98.loose_world true) (args_threads 1) (repeat 0 90) = Exited 0 out' g' /\
  g' "./x.graphql.d.ts" = g "./x.graphql.d.ts" /\
  g (globals_path plain_config ".") = Ok (header +++ join (nl +++ nl) ds) /\ g' (globals_path plain_config ".") = Ok (header +++ join (nl +++ nl) ds') /\ part_of ds ds'.
Proof.
  assert (H : exists out g out' g', qlc 30 (PropC98.loose_world false) (args_threads 1) (repeat 0 90) = Exited 0 out g /\ qlc 30 (PropC98.loose_world true) (args_threads 1) (repeat 0 90) = Exited 0 out' g').
  { do 4 eexists. split; vm_compute; reflexivity. }
  destruct H as (out & g & out' & g' & H & H'). exists out, g, out', g'.
  pose proof (PropC98.loose_settled false) as [L1 I1 _ N1 S1 _ O1 C1 _ _ _]. pose proof (PropC98.loose_settled true) as [L2 _ _ N2 S2 G2 _ _ _ _ _].
  destruct (C99_in_place 30 (PropC98.loose_world false) (PropC98.loose_world true) (args_threads 1) (repeat 0 90) (repeat 0 90) config_default farm out g 0 out' g') as (A & B); auto.
  - left. reflexivity.
  - left. reflexivity.
  - intros path Sp. apply PropC98.loose_is_source in Sp. apply PropC98.loose_is_source. destruct Sp as [<-|[]]. left. reflexivity.
  - intros path l Sp R. apply PropC98.loose_is_source in Sp. destruct R as [|contents file' contents' n l t E I A].
    + destruct Sp as [<-|[]]. reflexivity.
    + exfalso. destruct I as [[-> ->]|R]; [exact (PropC98.loose_step _ _ _ _ _ (PropC98.loose_read _ _ _ Sp E) A)|exact (PropC98.loose_reach _ _ _ _ _ Sp E R)].
  - destruct B as (ds & ds' & B1 & B2 & B3); [reflexivity| |].
    + exists "Size". exists "./x.graphql". do 2 eexists. split; [apply PropC98.loose_is_source; left; reflexivity|]. split; [do 8 eexists; repeat (split; [vm_compute; reflexivity|]); vm_compute; reflexivity|]. vm_compute. auto.
    + exists ds, ds'. do 2 (split; [assumption|]). split; [exact (A "./x.graphql" (proj2 (PropC98.loose_is_source false _) (or_introl eq_refl)))|]. split; [exact B1|]. split; [exact B2|exact B3].
Qed.
