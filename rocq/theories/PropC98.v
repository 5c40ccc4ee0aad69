(** C98: source files that nothing else needs can be deleted. *)
From Verif Require Import PruneFacts TrimFacts MoveFacts PlaceFacts RefactorFacts RecastFacts LinkFacts GlobalRead EndFacts.
From Verif Require Import Rewrite ImportMain ImportProps ProjectFacts.
From Verif Require LoadName RegCheck PropC07 PropC35 PropC48 PropC49 PropC56 PropC72 PropC78 PropC79 PropC80 PropC81 PropC84 PropC93 PropC96 PropC97.

(** Valid projects stay valid *)
Theorem C98_valid : forall e e' ls ls' f f' c c' s root root' m, pruned_project e e' ls ls' c c' root root' m f f' ->
  (forall p, order_ok (env_order e' p)) -> paths_agree e' f' -> unique_fragments e' ls' f' c' root' ->
  valid_project e ls f c s root -> valid_project e' ls' f' c' s root'.
Proof. intros e e' ls ls' f f' c c' s root root' m. exact (valid_pruned e e' ls ls' c c' root root' m f f' s). Qed.
Print Assumptions C98_valid.

(** ** What is generated *)
Lemma pruned_same e e' ls ls' c c' root root' m f f' s path path' : pruned_project e e' ls ls' c c' root root' m f f' ->
  (forall p, order_ok (env_order e' p)) -> paths_agree e' f' -> unique_fragments e' ls' f' c' root' ->
  m path path' -> is_source ls root path -> is_source ls' root' path' -> PropC81.settled_source e f c s path -> PropC84.same_source s c c' e e' f f' path path'.
Proof.
  intros M Ho Ag U Hm Sp Sp' (x & d & P & l & fr & V & St).
  destruct (valid_at_trimmed e e' c c' m f f' s path path' x d P l fr (pp_files _ _ _ _ _ _ _ _ _ _ _ M) Hm (pp_needs _ _ _ _ _ _ _ _ _ _ _ M _ _ Sp Sp' Hm) (Ho path') Ag (fun y n a b => U path' y n a b Sp') V) as (y & d' & l' & fr' & V' & Sh & Rc).
  pose proof V as [Ex Ep _ _ _ _ Br Ro Su _ _ _ _ _]. pose proof V' as [Ex' Ep' _ _ _ _ Br' Ro' _ _ _ _ _ _].
  exists x, d, fr, P, l, y, d', fr', l'. do 10 (split; [auto|]). split; [exact Ro'|]. apply recast_collects; [exact St|]. apply recasts_told. exact Rc.
Qed.

(** If the project compiled it still does; each output is the same byte for byte, and the module of globals lacks at most
    some of its definitions *)
Theorem C98_outputs_partial : forall fuel fuel' wo wo' a a' sched sched' cf cf' js s m out g code' out' g',
  let rc := merge_config (wo_ncpus wo) a cf in
  let rc' := merge_config (wo_ncpus wo') a' cf' in
  let c := cconfig_of rc in
  let c' := cconfig_of rc' in
  let e := wo_env wo in
  let e' := wo_env wo' in
  let ls := wo_listing wo in
  let ls' := wo_listing wo' in
  let root := rc_root_dir rc in
  let root' := rc_root_dir rc' in
  let f := wo_fs wo in
  let f' := wo_fs wo' in
  LinkFacts.settled wo a cf js s -> LinkFacts.settled wo' a' cf' js s -> same_output_options c c' ->
  inhabited_types s -> types_parse e' -> finite (dir_kids ls') (WDir root') -> env_write e' (globals_path c' root') = WOk ->
  wo_schema wo (rc_schema_path rc) = SRDecoded js -> wo_schema wo' (rc_schema_path rc') = SRDecoded js ->
  (forall text ds d, env_parse e text = Ok ds -> In d ds -> PropC56.parsed_named d) ->
  (forall text ds d, env_parse e' text = Ok ds -> In d ds -> PropC56.parsed_named d) ->
  pruned_project e e' ls ls' c c' root root' m f f' -> unique_fragments e' ls' f' c' root' ->
  valid_project e ls f c s root -> (forall path, is_source ls root path -> PropC81.settled_source e f c s path) ->
  qlc fuel wo a sched = Exited 0 out g -> qlc fuel' wo' a' sched' = Exited code' out' g' ->
  code' = 0 /\
  (forall path path', is_source ls root path -> is_source ls' root' path' -> m path path' ->
     exists text, g (out_loc e path) = Ok text /\ g' (out_loc e' path') = Ok text) /\
  ((exists n, PropC49.uses_global fuel' e' ls' c' s root' f' n) ->
     exists ds ds', g (env_locate e (globals_path c root)) = Ok (header +++ join (nl +++ nl) ds) /\
       g' (env_locate e' (globals_path c' root')) = Ok (header +++ join (nl +++ nl) ds') /\ part_of ds' ds).
Proof.
  intros fuel fuel' wo wo' a a' sched sched' cf cf' js s m out g code' out' g' rc rc' c c' e e' ls ls' root root' f f' Se Se' Ec Inh Ty Fin W Es Es' Pn Pn' M U V Ss H H'.
  pose proof Se' as [Lc In0 Jn N S Gd Ho C Ag Sc Th]. pose proof (in_loaded _ _ In0) as L. pose proof (intro_consistent _ _ In0) as Co.
  pose proof (PropC72.nameable_proper _ _ (LoadName.loaded_nameable _ _ _ L Jn)) as Pr.
  assert (Ls' : parse_schema (rc_schema_path rc') (wo_schema wo' (rc_schema_path rc')) = Ok s) by (rewrite Es'; cbn [parse_schema]; rewrite L; reflexivity).
  pose proof (valid_pruned e e' ls ls' c c' root root' m f f' s M Ho Ag U V) as V'.
  assert (Z : code' = 0).
  { pose proof (PropC79.C79_accepts wo' a' cf' s Lc Ls' N S Ho Ag Co C Inh Pr Ty Fin) as K.
    fold rc' in K. fold root' c' in K. destruct (K V' W) as (k0 & K0). clear K.
    destruct (K0 (Nat.max k0 fuel') (Nat.le_max_l _ _) sched') as (K1 & _).
    rewrite <- (qlc_mono _ _ wo' a' sched' (Nat.le_max_r k0 fuel')) in H' by (rewrite H'; discriminate).
    destruct K1 as [K1|(o & h & K1)]; rewrite H' in K1; [discriminate K1|]. injection K1 as -> _ _. reflexivity. }
  subst code'. split; [reflexivity|].
  pose proof (PropC84.runs_compiled fuel fuel' wo wo' a a' sched sched' cf cf' js s out out' g g' Se Se' Ec Es Es' Pn Pn' H H') as K.
  fold rc rc' c c' e e' in K. fold ls ls' root root' f f' in K.
  assert (Sm : forall path path', is_source ls root path -> is_source ls' root' path' -> m path path' -> PropC84.same_source s c c' e e' f f' path path').
  { intros path path' Sp Sp' Hm. exact (pruned_same e e' ls ls' c c' root root' m f f' s path path' M Ho Ag U Hm Sp Sp' (Ss path Sp)). }
  split.
  { intros path path' Sp Sp' Hm. destruct (K path path' Sp Sp' (Sm path path' Sp Sp' Hm)) as (co & _ & _ & A & B & _). eauto. }
  assert (Ug : forall n, PropC49.uses_global fuel' e' ls' c' s root' f' n -> PropC49.uses_global fuel e ls c s root f n).
  { intros n (path' & ms & co & Sp' & Fc & I). destruct (pp_from _ _ _ _ _ _ _ _ _ _ _ M path' Sp') as (path & Sp & Hm).
    destruct (K path path' Sp Sp' (Sm path path' Sp Sp' Hm)) as (co1 & ms1 & ms1' & _ & _ & F & F').
    rewrite (PropC84.compiles_once _ _ _ _ _ _ _ _ _ _ F' Fc) in I. exists path, ms1, co1. auto. }
  intros Ex'. assert (Ex : exists n, PropC49.uses_global fuel e ls c s root f n) by (destruct Ex' as (n & X); exists n; apply Ug; exact X).
  clear Lc In0 Jn N S Gd Ho C Sc Th L Ls'.
  pose proof Se as [Lc In0 Jn N S Gd Ho C _ _ Th]. pose proof Se' as [Lc' In0' Jn' N' S' Gd' Ho' C' _ _ Th']. pose proof (in_loaded _ _ In0) as L.
  assert (Ls : parse_schema (rc_schema_path rc) (wo_schema wo (rc_schema_path rc)) = Ok s) by (rewrite Es; cbn [parse_schema]; rewrite L; reflexivity).
  assert (Ls' : parse_schema (rc_schema_path rc') (wo_schema wo' (rc_schema_path rc')) = Ok s) by (rewrite Es'; cbn [parse_schema]; rewrite L; reflexivity).
  assert (G : exists text l ds, g (env_locate e (globals_path c (rc_root_dir rc))) = Ok text /\ NoDup (List.map fst l) /\ sorted_by fst l /\
         (forall n t, In (n, t) l <-> (exists r, PropC49.uses_global fuel e (wo_listing wo) c s (rc_root_dir rc) (wo_fs wo) r /\ SpecGlobal.leads s r n) /\ get_type s n = Some t) /\
         Forall2 (fun x d => def_text c (fst x) (snd x) d) l ds /\ text = header +++ join (nl +++ nl) ds).
  { destruct Th as [One|[Pos Fl]].
    - destruct (PropC49.C49_end_to_end fuel wo a sched cf s out g Lc Ls N S Gd Ho C One H) as (_ & B & _). destruct (B Ex) as (text & l & ds & B1 & B2 & B3 & B4 & B5 & B6 & _). exists text, l, ds. auto 8.
    - destruct (PropC49.C49_flat fuel wo a sched cf s out g Lc Ls N S Gd Ho C Pos Fl H) as (_ & B & _). destruct (B Ex) as (text & l & ds & B1 & B2 & B3 & B4 & B5 & B6 & _). exists text, l, ds. auto 8. }
  assert (G' : exists text l ds, g' (env_locate e' (globals_path c' (rc_root_dir rc'))) = Ok text /\ NoDup (List.map fst l) /\ sorted_by fst l /\
         (forall n t, In (n, t) l <-> (exists r, PropC49.uses_global fuel' e' (wo_listing wo') c' s (rc_root_dir rc') (wo_fs wo') r /\ SpecGlobal.leads s r n) /\ get_type s n = Some t) /\
         Forall2 (fun x d => def_text c' (fst x) (snd x) d) l ds /\ text = header +++ join (nl +++ nl) ds).
  { destruct Th' as [One|[Pos Fl]].
    - destruct (PropC49.C49_end_to_end fuel' wo' a' sched' cf' s out' g' Lc' Ls' N' S' Gd' Ho' C' One H') as (_ & B & _). destruct (B Ex') as (text & l & ds & B1 & B2 & B3 & B4 & B5 & B6 & _). exists text, l, ds. auto 8.
    - destruct (PropC49.C49_flat fuel' wo' a' sched' cf' s out' g' Lc' Ls' N' S' Gd' Ho' C' Pos Fl H') as (_ & B & _). destruct (B Ex') as (text & l & ds & B1 & B2 & B3 & B4 & B5 & B6 & _). exists text, l, ds. auto 8. }
  destruct G as (text & l & ds & G1 & G2 & G3 & G4 & G5 & G6). destruct G' as (text' & l' & ds' & G1' & G2' & G3' & G4' & G5' & G6').
  exists ds, ds'. split; [etransitivity; [exact G1|rewrite G6; reflexivity]|]. split; [etransitivity; [exact G1'|rewrite G6'; reflexivity]|].
  apply (part_images _ _ l' l) with (2 := G5) (3 := G5').
  - apply (sorted_part fst); auto. intros [n t] I. apply G4' in I. destruct I as [(r & X & Y) Z]. apply G4. split; [exists r; split; [apply Ug; exact X|exact Y]|exact Z].
  - intros [n t] d d' I X X'. apply (placed_text c c' Ec) in X'. symmetry. eapply def_text_unique; eauto. intros fields E. apply (C n t n fields); auto. apply G4. exact I.
Qed.
Print Assumptions C98_outputs_partial.

(** ** In place: the same surroundings, configuration and schema *)
(** Any documents here, also with fields under one response key that differ: the sources that stay are compiled as before *)
Lemma in_place_compiles fuel wo wo' a sched cf s out g path ms co :
  let rc := merge_config (wo_ncpus wo) a cf in
  let c := cconfig_of rc in
  let e := wo_env wo in
  let root := rc_root_dir rc in
  load_config (ca_config_file a) (wo_config wo) = Ok cf -> parse_schema (rc_schema_path rc) (wo_schema wo (rc_schema_path rc)) = Ok s ->
  names_ok (wo_listing wo) -> separate e (wo_listing wo) c root (wo_fs wo) -> PropC80.threads_ok (rc_number_threads rc) (wo_listing wo) root ->
  qlc fuel wo a sched = Exited 0 out g -> is_source (wo_listing wo) root path -> out_loc e path <> env_locate e (globals_path c root) ->
  (forall l, SpecFs.reads e (wo_fs wo) c path l -> wo_fs wo' l = wo_fs wo l) ->
  GraphqlFacts.file_compiles fuel e (wo_fs wo) c s path ms co ->
  exists ms' co', GraphqlFacts.file_compiles fuel e (wo_fs wo') c s path ms' co' /\ co_globals co' = co_globals co.
Proof.
  intros rc c e root Lc Ls N S Th H Sp Ng A Fc.
  destruct (PropC80.run_parts fuel wo a sched cf s 0 out g Lc Ls N S Th H) as (_ & _ & _ & _ & _ & _ & _ & _ & O1).
  destruct (O1 path Sp Ng) as (f1 & r & E1 & _). destruct (PropC80.run_clean fuel wo a sched cf s 0 out g Lc Ls N S Th H eq_refl path f1 r Sp E1) as (r' & ->).
  pose proof (FsFacts.compile_agree e (wo_fs wo) (wo_fs wo') c fuel s path A) as K. fold rc in E1. fold c e in E1. rewrite E1 in K. destruct K as (g2 & E2 & _).
  apply GraphqlFacts.compile_file_ok in E1 as (ms1 & co1 & F1 & _ & R1). apply GraphqlFacts.compile_file_ok in E2 as (ms2 & co2 & F2 & _ & R2).
  exists ms2, co2. split; [exact F2|]. rewrite <- (PropC84.compiles_once _ _ _ _ _ _ _ _ _ _ Fc F1). rewrite R1 in R2. injection R2. auto.
Qed.
Theorem C98_in_place : forall fuel wo wo' a sched sched' cf s out g code' out' g',
  let rc := merge_config (wo_ncpus wo) a cf in
  let rc' := merge_config (wo_ncpus wo') a cf in
  let c := cconfig_of rc in
  let e := wo_env wo in
  let root := rc_root_dir rc in
  let f := wo_fs wo in
  let f' := wo_fs wo' in
  let gl := env_locate e (globals_path c root) in
  load_config (ca_config_file a) (wo_config wo) = Ok cf -> load_config (ca_config_file a) (wo_config wo') = Ok cf ->
  parse_schema (rc_schema_path rc) (wo_schema wo (rc_schema_path rc)) = Ok s -> parse_schema (rc_schema_path rc) (wo_schema wo' (rc_schema_path rc)) = Ok s ->
  wo_env wo' = e -> names_ok (wo_listing wo) -> names_ok (wo_listing wo') ->
  separate e (wo_listing wo) c root f -> separate e (wo_listing wo') c root f' ->
  PropC80.threads_ok (rc_number_threads rc) (wo_listing wo) root -> PropC80.threads_ok (rc_number_threads rc') (wo_listing wo') root ->
  (forall p, order_ok (env_order e p)) -> inputs_consistent s ->
  (forall path, is_source (wo_listing wo) root path -> out_loc e path <> gl) ->
  (* the sources that stay read what they read before *)
  (forall path, is_source (wo_listing wo') root path -> is_source (wo_listing wo) root path) ->
  (forall path l, is_source (wo_listing wo') root path -> SpecFs.reads e f c path l -> f' l = f l) ->
  qlc fuel wo a sched = Exited 0 out g -> qlc fuel wo' a sched' = Exited code' out' g' ->
  (* their outputs are the same *)
  (forall path, is_source (wo_listing wo') root path -> g' (out_loc e path) = g (out_loc e path)) /\
  (code' = 0 -> (exists n, PropC49.uses_global fuel e (wo_listing wo') c s root f' n) ->
     exists ds ds', g gl = Ok (header +++ join (nl +++ nl) ds) /\ g' gl = Ok (header +++ join (nl +++ nl) ds') /\ part_of ds' ds).
Proof.
  intros fuel wo wo' a sched sched' cf s out g code' out' g' rc rc' c e root f f' gl Lc Lc' Ls Ls' Ee N N' S S' Th Th' Ho C Gd Sub A H H'.
  assert (Gd' : forall path, is_source (wo_listing wo') root path -> out_loc e path <> gl) by (intros path Sp; apply Gd; auto). split.
  { intros path Sp. symmetry.
    exact (proj2 (PropC80.C80_output fuel wo wo' a sched sched' cf s 0 out g code' out' g' path Lc Lc' Ls Ls' Ee N N' S S' Th Th' H H' (Sub path Sp) Sp (fun l => A path l Sp) (Gd' path Sp)) (or_introl eq_refl)). }
  intros -> Ex'.
  assert (Al : forall path, is_source (wo_listing wo) root path -> exists ms co, GraphqlFacts.file_compiles fuel e f c s path ms co).
  { intros path Sp. destruct Th as [One|[Pos Fl]].
    - destruct (PropC49.C49_end_to_end fuel wo a sched cf s out g Lc Ls N S Gd Ho C One H) as (B & _). destruct (B path Sp) as (ms & co & F & _). eauto.
    - destruct (PropC49.C49_flat fuel wo a sched cf s out g Lc Ls N S Gd Ho C Pos Fl H) as (B & _). destruct (B path Sp) as (ms & co & F & _). eauto. }
  assert (Ug : forall n, PropC49.uses_global fuel e (wo_listing wo') c s root f' n -> PropC49.uses_global fuel e (wo_listing wo) c s root f n).
  { intros n (path & ms & co & Sp & Fc & I). destruct (Al path (Sub path Sp)) as (ms1 & co1 & F1).
    destruct (in_place_compiles fuel wo wo' a sched cf s out g path ms1 co1 Lc Ls N S Th H (Sub path Sp) (Gd' path Sp) (fun l => A path l Sp) F1) as (ms' & co' & F' & Eg).
    exists path, ms1, co1. split; [exact (Sub path Sp)|]. split; [exact F1|]. rewrite <- Eg, <- (PropC84.compiles_once _ _ _ _ _ _ _ _ _ _ F' Fc). exact I. }
  assert (Ex : exists n, PropC49.uses_global fuel e (wo_listing wo) c s root f n) by (destruct Ex' as (n & X); exists n; apply Ug; exact X).
  assert (G : forall w sc o h, load_config (ca_config_file a) (wo_config w) = Ok cf -> parse_schema (rc_schema_path rc) (wo_schema w (rc_schema_path rc)) = Ok s -> wo_env w = e ->
      names_ok (wo_listing w) -> separate e (wo_listing w) c root (wo_fs w) -> (forall path, is_source (wo_listing w) root path -> out_loc e path <> gl) ->
      PropC80.threads_ok (rc_number_threads (merge_config (wo_ncpus w) a cf)) (wo_listing w) root -> qlc fuel w a sc = Exited 0 o h ->
      (exists n, PropC49.uses_global fuel e (wo_listing w) c s root (wo_fs w) n) ->
      exists text l ds, h gl = Ok text /\ NoDup (List.map fst l) /\ sorted_by fst l /\
         (forall n t, In (n, t) l <-> (exists r, PropC49.uses_global fuel e (wo_listing w) c s root (wo_fs w) r /\ SpecGlobal.leads s r n) /\ get_type s n = Some t) /\
         Forall2 (fun x d => def_text c (fst x) (snd x) d) l ds /\ text = header +++ join (nl +++ nl) ds).
  { clear - Ho C. intros w sc o h Lc Ls Ew N S Gd Th H Ex. unfold gl in *. rewrite <- Ew in *. destruct Th as [One|[Pos Fl]].
    - destruct (PropC49.C49_end_to_end fuel w a sc cf s o h Lc Ls N S Gd Ho C One H) as (_ & B & _). destruct (B Ex) as (text & l & ds & B1 & B2 & B3 & B4 & B5 & B6 & _). exists text, l, ds. auto 8.
    - destruct (PropC49.C49_flat fuel w a sc cf s o h Lc Ls N S Gd Ho C Pos Fl H) as (_ & B & _). destruct (B Ex) as (text & l & ds & B1 & B2 & B3 & B4 & B5 & B6 & _). exists text, l, ds. auto 8. }
  destruct (G wo sched out g Lc Ls eq_refl N S Gd Th H Ex) as (text & l & ds & G1 & G2 & G3 & G4 & G5 & G6).
  destruct (G wo' sched' out' g' Lc' Ls' Ee N' S' Gd' Th' H' Ex') as (text' & l' & ds' & G1' & G2' & G3' & G4' & G5' & G6'). clear G.
  exists ds, ds'. split; [rewrite G1, G6; reflexivity|]. split; [rewrite G1', G6'; reflexivity|].
  apply (part_images _ _ l' l) with (2 := G5) (3 := G5').
  - apply (sorted_part fst); auto. intros [n t] I. apply G4' in I. destruct I as [(r & X & Y) Z]. apply G4. split; [exists r; split; [apply Ug; exact X|exact Y]|exact Z].
  - intros [n t] d d' I X X'. cbn [fst snd] in *. symmetry. eapply def_text_unique; eauto. intros fields E. apply (C n t n fields); auto. apply G4. exact I.
Qed.
Print Assumptions C98_in_place.

(** ** From texts to texts *)
From Verif Require Import Gql Json Args SpecGtext SpecJson SpecJtext PropC69 PropC72.
From Verif Require SpecArgs PropC65 PropC67 PropC77.
Theorem C98_text_partial : forall ck complaint complaint' jerr jerr' help help' version version' fuel fuel' wo wo' its its' argv argv' a a' nc nc' sched sched' cf cf'
    stext stext' j j' js s m out g code' out' g',
  let rc := merge_config (wo_ncpus wo) a cf in
  let rc' := merge_config (wo_ncpus wo') a' cf' in
  let c := cconfig_of rc in
  let c' := cconfig_of rc' in
  let e := wo_env wo in
  let e' := wo_env wo' in
  let ls := wo_listing wo in
  let ls' := wo_listing wo' in
  let root := rc_root_dir rc in
  let root' := rc_root_dir rc' in
  let f := wo_fs wo in
  let f' := wo_fs wo' in
  on_disk ck complaint jerr wo -> on_disk ck complaint' jerr' wo' ->
  SpecArgs.spelled its argv -> SpecArgs.consistent its -> SpecArgs.complete its -> SpecArgs.says its a nc ->
  SpecArgs.spelled its' argv' -> SpecArgs.consistent its' -> SpecArgs.complete its' -> SpecArgs.says its' a' nc' ->
  LinkFacts.settled wo a cf js s -> LinkFacts.settled wo' a' cf' js s -> same_output_options c c' ->
  inhabited_types s -> finite (dir_kids ls') (WDir root') -> env_write e' (globals_path c' root') = WOk ->
  f (env_locate e (rc_schema_path rc)) = Ok stext -> text_holds stext j -> says_schema j js ->
  f' (env_locate e' (rc_schema_path rc')) = Ok stext' -> text_holds stext' j' -> says_schema j' js -> fits js ->
  pruned_project e e' ls ls' c c' root root' m f f' -> unique_fragments e' ls' f' c' root' ->
  valid_project e ls f c s root -> (forall path, is_source ls root path -> PropC81.settled_source e f c s path) ->
  qlc_command help version fuel wo argv sched = Exited 0 out g -> qlc_command help' version' fuel' wo' argv' sched' = Exited code' out' g' ->
  code' = 0 /\
  (forall path path', is_source ls root path -> is_source ls' root' path' -> m path path' ->
     exists text, g (out_loc e path) = Ok text /\ g' (out_loc e' path') = Ok text) /\
  ((exists n, PropC49.uses_global fuel' e' ls' c' s root' f' n) ->
     exists ds ds', g (env_locate e (globals_path c root)) = Ok (header +++ join (nl +++ nl) ds) /\
       g' (env_locate e' (globals_path c' root')) = Ok (header +++ join (nl +++ nl) ds') /\ part_of ds' ds).
Proof.
  intros ck complaint complaint' jerr jerr' help help' version version' fuel fuel' wo wo' its its' argv argv' a a' nc nc' sched sched' cf cf'
    stext stext' j j' js s m out g code' out' g' rc rc' c c' e e' ls ls' root root' f f' Hd Hd' Sp Cn Cm Sy Sp' Cn' Cm' Sy' Se Se' Ec Inh Fin W Es Tx Sj Es' Tx' Sj' Fi M U V Ss H H'.
  assert (Pa : parse_args argv = URun a nc) by (apply PropC65.C65_exact; exists its; auto).
  assert (Pa' : parse_args argv' = URun a' nc') by (apply PropC65.C65_exact; exists its'; auto).
  unfold qlc_command in H, H'. rewrite Pa in H. rewrite Pa' in H'.
  assert (Sc : wo_schema wo (rc_schema_path rc) = SRDecoded js) by (rewrite (od_schema _ _ _ _ Hd _ _ Es); apply PropC67.C67_schema; eauto).
  assert (Sc' : wo_schema wo' (rc_schema_path rc') = SRDecoded js) by (rewrite (od_schema _ _ _ _ Hd' _ _ Es'); apply PropC67.C67_schema; eauto).
  assert (Pn : forall k q w, on_disk ck k q w -> forall text ds d, env_parse (wo_env w) text = Ok ds -> In d ds -> PropC56.parsed_named d).
  { intros k q w Hw text ds d E I. rewrite (od_documents _ _ _ _ Hw) in E. destruct (parse_query ck text) as [ds'|] eqn:Ep; [|discriminate]. injection E as ->. eapply C69_named; eauto. }
  exact (C98_outputs_partial fuel fuel' wo wo' a a' sched sched' cf cf' js s m out g code' out' g' Se Se' Ec Inh (PropC79.disk_types _ _ _ _ Hd') Fin W Sc Sc' (Pn _ _ _ Hd) (Pn _ _ _ Hd') M U V Ss H H').
Qed.
Print Assumptions C98_text_partial.


(** ** A query with two import lines, of which it needs the first: the file of the second is deleted with its line *)
Definition two : fs := ImportWorlds.files [("./x.graphql", PropC97.lone_query); ("./a.graphql", PropC79.twice_a); ("./schema.json", farm_text)].
Definition two_listing : listing := fun d =>
  if String.eqb d "." then Ok (List.map (fun n => Ok {| de_name := n; de_kind := Ok EkFile |}) ["x.graphql"; "a.graphql"]) else Err "not found".
Definition two_world : world := PropC77.world_on two_listing two.
Definition both : list string := ["./x.graphql"; "./a.graphql"].
Definition stays (a b : string) : Prop := a = b /\ In a both.

Lemma two_step path contents n ln t : In (path, contents) [("./x.graphql", PropC97.lone_query); ("./a.graphql", PropC79.twice_a)] ->
  imports_at plain_config path contents n ln t -> path = "./x.graphql" /\ t = "./a.graphql".
Proof.
  intros K A. destruct (PropC97.three_step PropC97.lone_query PropC97.spare path contents n ln t (or_intror eq_refl) (or_introl eq_refl)) as (X & _ & Y); auto.
  destruct K as [K|[K|[]]]; [left; exact K|right; left; exact K].
Qed.
Lemma two_read path contents : In path both -> two (env_locate text_env path) = Ok contents -> In (path, contents) [("./x.graphql", PropC97.lone_query); ("./a.graphql", PropC79.twice_a)].
Proof.
  intros [<-|[<-|[]]] E.
  - change (@Ok string string PropC97.lone_query = Ok contents) in E. injection E as <-. left. reflexivity.
  - change (@Ok string string PropC79.twice_a = Ok contents) in E. injection E as <-. right. left. reflexivity.
Qed.
Lemma two_reach path contents t o : In path both -> two (env_locate text_env path) = Ok contents ->
  reach text_env two plain_config path contents t o -> path = "./x.graphql" /\ t = "./a.graphql" /\ o = PropC79.twice_a.
Proof.
  intros Ip E R. induction R as [n ln t o A Et|mid mc n ln t o R IH A Et].
  - destruct (two_step path contents n ln t (two_read path contents Ip E) A) as (-> & ->). change (@Ok string string PropC79.twice_a = Ok o) in Et. injection Et as <-. auto.
  - destruct IH as (_ & -> & ->). exfalso. destruct (two_step "./a.graphql" PropC79.twice_a n ln t (or_intror (or_introl eq_refl)) A) as (X & _). discriminate X.
Qed.
Lemma two_is_source path : is_source two_listing "." path <-> In path both.
Proof.
  split.
  - intros [p H]. assert (K : forall p x, in_tree two_listing "." p x -> x = WDir "." \/ exists q, x = WFile q /\ In q both).
    { clear. intros p x H. induction H as [|q x i y _ IH En]; [left; reflexivity|]. destruct IH as [->|(z & -> & _)].
      - vm_compute in En. destruct i as [|[|[|i]]]; try discriminate En; injection En as <-; right; eexists; (split; [reflexivity|]); cbn; auto.
      - destruct i; discriminate En. }
    destruct (K _ _ H) as [X|(q & X & I)]; [discriminate X|]. injection X as ->. exact I.
  - intros [<-|[<-|[]]]; [exists [0]; apply (node_child _ _ [] (WDir ".") 0)|exists [1]; apply (node_child _ _ [] (WDir ".") 1)]; first [constructor|reflexivity].
Qed.
Lemma two_names : names_ok two_listing.
Proof.
  intros d es l. unfold two_listing. destruct (String.eqb d "."); [|discriminate].
  intros H; inversion H; subst; clear H; cbn; intros H; inversion H; subst; clear H; cbn; (split; [|repeat constructor; cbn; intuition discriminate]);
    repeat constructor; repeat split; try discriminate; cbn; intuition discriminate.
Qed.
Lemma two_separate : separate text_env two_listing plain_config "." two.
Proof.
  split.
  - intros p q l Hp Hq R. apply two_is_source in Hp. apply two_is_source in Hq.
    assert (El : In l both).
    { destruct R as [|contents file' contents' n l t E I A]; [exact Hp|]. destruct I as [[-> ->]|R].
      - destruct (two_step p contents n l t (two_read p contents Hp E) A) as (_ & ->). right. left. reflexivity.
      - destruct (two_reach p contents file' contents' Hp E R) as (_ & -> & ->). exfalso.
        destruct (two_step "./a.graphql" PropC79.twice_a n l t (or_intror (or_introl eq_refl)) A) as (X & _). discriminate X. }
    destruct El as [<-|[<-|[]]], Hq as [<-|[<-|[]]]; discriminate.
  - intros p q Hp Hq. apply two_is_source in Hp. apply two_is_source in Hq. destruct Hp as [<-|[<-|[]]], Hq as [<-|[<-|[]]]; auto; discriminate.
Qed.
Lemma two_settled : LinkFacts.settled two_world (args_threads 1) config_default farm_json farm.
Proof.
  destruct PropC35.C35_nonvacuous as (_ & _ & _ & _ & _ & _ & _ & C & _).
  constructor; auto.
  - exact PropC04.farm_intro.
  - exact (se_named _ _ _ _ _ PropC72.disk_settled).
  - exact two_names.
  - exact two_separate.
  - intros p Sp. apply two_is_source in Sp. destruct Sp as [<-|[<-|[]]]; discriminate.
  - intros p. exact SelWorlds.plain_ok.
  - intros a b y z Pe Ea Eb. apply PathFacts.path_eqb_same in Pe. change (two a = Ok y) in Ea. change (two b = Ok z) in Eb. unfold two, ImportWorlds.files in Ea, Eb. cbn [aget] in Ea, Eb.
    unfold eqb, EqB_string in Ea, Eb.
    destruct (String.eqb_spec a "./x.graphql") as [->|]; [|destruct (String.eqb_spec a "./a.graphql") as [->|]; [|destruct (String.eqb_spec a "./schema.json") as [->|]; [|discriminate]]];
    (destruct (String.eqb_spec b "./x.graphql") as [->|]; [|destruct (String.eqb_spec b "./a.graphql") as [->|]; [|destruct (String.eqb_spec b "./schema.json") as [->|]; [|discriminate]]]); congruence || discriminate.
  - intros path contents t o Sp E R. apply two_is_source in Sp. destruct (two_reach path contents t o Sp E R) as (_ & -> & _). apply two_is_source; cbn; auto.
Qed.
Lemma two_unique : unique_fragments text_env two_listing two plain_config ".".
Proof.
  intros path contents n fd fd' Sp E (t & o & R & Hf & En) (t' & o' & R' & Hf' & En'). apply two_is_source in Sp.
  destruct (two_reach path contents t o Sp E R) as (_ & _ & ->). destruct (two_reach path contents t' o' Sp E R') as (_ & _ & ->). congruence.
Qed.
Lemma two_accessible : accessible text_env two_listing ".".
Proof.
  split; [|reflexivity]. intros p d H.
  assert (K : forall p x, in_tree two_listing "." p x -> x = WDir "." \/ exists q, x = WFile q).
  { clear. intros p x H. induction H as [|q x i y _ IH En]; [left; reflexivity|]. destruct IH as [->|(z & ->)].
    - vm_compute in En. destruct i as [|[|[|i]]]; try discriminate En; injection En as <-; eauto.
    - destruct i; discriminate En. }
  destruct (K _ _ H) as [X|(q & X)]; [injection X as ->|discriminate X]. do 2 eexists. split; reflexivity.
Qed.
Lemma two_reach_a : reach text_env two plain_config "./x.graphql" PropC97.lone_query "./a.graphql" PropC79.twice_a.
Proof.
  destruct (PropC96.root_imports "./x.graphql" PropC97.lone_query ["a.graphql"] (tl (lines PropC97.lone_query)) "a.graphql") as (n & l & A); [vm_compute; reflexivity|left; reflexivity|discriminate|].
  eapply reach_one; [exact A|reflexivity].
Qed.
Lemma both_three p : In p both -> In p PropC97.all_three.
Proof. intros [<-|[<-|[]]]; cbn; auto. Qed.
Lemma two_pruned b : In b [PropC97.spare; PropC79.twice_b] ->
  pruned_project text_env text_env PropC79.twice_listing two_listing plain_config plain_config "." "." stays (PropC97.three PropC79.twice_query b) two.
Proof.
  intros Ib. pose proof (PropC97.three_trimmed b Ib) as [Tf Tn _ _ _]. constructor.
  - intros p q (<- & I). specialize (Tf p p (conj eq_refl (both_three _ I))).
    assert (E : two (env_locate text_env p) = PropC97.three PropC97.lone_query b (env_locate text_env p)) by (destruct I as [<-|[<-|[]]]; reflexivity).
    rewrite E. destruct I as [<-|[<-|[]]].
    + change (PropC97.three PropC79.twice_query b (env_locate text_env "./x.graphql")) with (@Ok string string PropC79.twice_query) in *.
      change (PropC97.three PropC97.lone_query b (env_locate text_env "./x.graphql")) with (@Ok string string PropC97.lone_query) in *. destruct Tf as (T1 & T2 & T3). split; [exact T1|]. split; [exact T2|].
      intros n l t A. destruct (two_step _ _ _ _ _ (or_introl eq_refl) A) as (_ & ->). destruct (T3 n l _ A) as (n' & l' & t' & A' & (-> & _)). exists n', l', "./a.graphql". split; [exact A'|]. split; [reflexivity|cbn; auto].
    + change (PropC97.three PropC79.twice_query b (env_locate text_env "./a.graphql")) with (@Ok string string PropC79.twice_a) in *.
      change (PropC97.three PropC97.lone_query b (env_locate text_env "./a.graphql")) with (@Ok string string PropC79.twice_a) in *. destruct Tf as (T1 & T2 & T3). split; [exact T1|]. split; [exact T2|].
      intros n l t A. destruct (two_step _ _ _ _ _ (or_intror (or_introl eq_refl)) A) as (X & _). discriminate X.
  - intros path path' Sp _ (<- & Ip) x y d P l n fd Ex Ey Ep Ro Nd Hb.
    assert (Ey' : PropC97.three PropC97.lone_query b (env_locate text_env path) = Ok y) by (destruct Ip as [<-|[<-|[]]]; exact Ey).
    destruct (Tn path path Sp Sp (conj eq_refl (both_three _ Ip)) x y d P l n fd Ex Ey' Ep Ro Nd Hb) as (fd' & t & o & R & Hf & En).
    destruct (PropC97.three_reach PropC97.lone_query b path y t o (or_intror eq_refl) Ib (both_three _ Ip) Ey' R) as (-> & L & O). rewrite (L eq_refl) in O. destruct O as [(_ & ->)|(X & _)]; [|discriminate X].
    change (@Ok string string PropC97.lone_query = Ok y) in Ey. injection Ey as <-.
    exists fd', "./a.graphql", PropC79.twice_a. split; [exact two_reach_a|]. split; assumption.
  - intros path Sp. apply two_is_source in Sp. exists path. split; [|split; [reflexivity|exact Sp]]. apply PropC97.three_is_source. destruct Sp as [<-|[<-|[]]]; cbn; auto.
  - intros _. exact two_accessible.
Qed.
Example C98_nonvacuous : exists out g out' g' text,
  qlc 30 (PropC97.three_world PropC79.twice_query PropC97.spare) (args_threads 1) (repeat 0 90) = Exited 0 out g /\ qlc 30 two_world (args_threads 1) (repeat 0 90) = Exited 0 out' g' /\
  g "./x.graphql.d.ts" = Ok text /\ g' "./x.graphql.d.ts" = Ok text /\
  valid_project text_env two_listing two plain_config farm ".".
Proof.
  assert (H : exists out g out' g', qlc 30 (PropC97.three_world PropC79.twice_query PropC97.spare) (args_threads 1) (repeat 0 90) = Exited 0 out g /\
    qlc 30 two_world (args_threads 1) (repeat 0 90) = Exited 0 out' g').
  { do 4 eexists. split; vm_compute; reflexivity. }
  destruct H as (out & g & out' & g' & H & H'). exists out, g, out', g'.
  assert (Pn : forall text ds d, env_parse text_env text = Ok ds -> In d ds -> PropC56.parsed_named d).
  { intros text ds d E I. cbn [env_parse text_env] in E. destruct (parse_query lenient text) as [ds'|] eqn:Ep; [|discriminate]. injection E as ->. eapply C69_named; eauto. }
  destruct (C98_outputs_partial 30 30 (PropC97.three_world PropC79.twice_query PropC97.spare) two_world (args_threads 1) (args_threads 1) (repeat 0 90) (repeat 0 90) config_default config_default farm_json farm stays out g 0 out' g'
    (PropC97.three_settled _ (or_introl eq_refl)) two_settled (conj eq_refl (conj eq_refl (conj eq_refl (conj eq_refl eq_refl)))) PropC79.farm_inhabited (PropC79.disk_types lenient (fun _ => "syntax error") "" two_world (PropC77.world_disk two_listing two))) as (_ & K & _).
  - repeat constructor.
  - reflexivity.
  - exact farm_text_read.
  - exact farm_text_read.
  - exact Pn.
  - exact Pn.
  - exact (two_pruned PropC97.spare (or_introl eq_refl)).
  - exact two_unique.
  - exact PropC97.three_project.
  - intros path Sp. apply PropC97.three_sources. apply PropC97.three_is_source. exact Sp.
  - exact H.
  - exact H'.
  - destruct (K "./x.graphql" "./x.graphql") as (text & A & B); [apply PropC97.three_is_source; left; reflexivity|apply two_is_source; left; reflexivity|split; [reflexivity|left; reflexivity]|].
    exists text. do 4 (split; [assumption|]).
    apply (C98_valid text_env text_env PropC79.twice_listing two_listing (PropC97.three PropC79.twice_query PropC97.spare) two plain_config plain_config farm "." "." stays (two_pruned PropC97.spare (or_introl eq_refl)) (fun p => SelWorlds.plain_ok)
      (se_paths _ _ _ _ _ two_settled) two_unique).
    exact PropC97.three_project.
Qed.

(** ** Two queries that use a global type each, one of which is deleted: its global type goes with it *)
Definition size_query : string := "query Q { pet { ... on Cat { size } } }".
Definition mood_query : string := "query R { pet { ... on Dog { owner { mood } } } }".
Definition of_both {A} (more : bool) (x y : A) : list A := if more then [x; y] else [x].
Definition loose (more : bool) : fs := ImportWorlds.files (of_both more ("./x.graphql", size_query) ("./b.graphql", mood_query) ++ [("./schema.json", farm_text)]).
Definition loose_listing (more : bool) : listing := fun d =>
  if String.eqb d "." then Ok (List.map (fun n => Ok {| de_name := n; de_kind := Ok EkFile |}) (of_both more "x.graphql" "b.graphql")) else Err "not found".
Definition loose_world (more : bool) : world := PropC77.world_on (loose_listing more) (loose more).
Definition loose_sources (more : bool) : list string := of_both more "./x.graphql" "./b.graphql".
Definition only_x (a b : string) : Prop := a = "./x.graphql" /\ b = "./x.graphql".

Lemma loose_is_source more path : is_source (loose_listing more) "." path <-> In path (loose_sources more).
Proof.
  split.
  - intros [p H]. assert (K : forall p x, in_tree (loose_listing more) "." p x -> x = WDir "." \/ exists q, x = WFile q /\ In q (loose_sources more)).
    { clear. intros p x H. induction H as [|q x i y _ IH En]; [left; reflexivity|]. destruct IH as [->|(z & -> & _)].
      - destruct more; vm_compute in En; destruct i as [|[|[|i]]]; try discriminate En; injection En as <-; right; eexists; (split; [reflexivity|]); cbn; auto.
      - destruct i; discriminate En. }
    destruct (K _ _ H) as [X|(q & X & I)]; [discriminate X|]. injection X as ->. exact I.
  - destruct more.
    + intros [<-|[<-|[]]]; [exists [0]; apply (node_child _ _ [] (WDir ".") 0)|exists [1]; apply (node_child _ _ [] (WDir ".") 1)]; first [constructor|reflexivity].
    + intros [<-|[]]. exists [0]; apply (node_child _ _ [] (WDir ".") 0); first [constructor|reflexivity].
Qed.
Lemma loose_read more path contents : In path (loose_sources more) -> loose more (env_locate text_env path) = Ok contents -> In (path, contents) [("./x.graphql", size_query); ("./b.graphql", mood_query)].
Proof.
  intros I E. destruct more; [destruct I as [<-|[<-|[]]]|destruct I as [<-|[]]].
  - change (@Ok string string size_query = Ok contents) in E. injection E as <-. left. reflexivity.
  - change (@Ok string string mood_query = Ok contents) in E. injection E as <-. right. left. reflexivity.
  - change (@Ok string string size_query = Ok contents) in E. injection E as <-. left. reflexivity.
Qed.
Lemma loose_step path contents n ln t : In (path, contents) [("./x.graphql", size_query); ("./b.graphql", mood_query)] -> ~ imports_at plain_config path contents n ln t.
Proof.
  intros K A. pose proof (PropC35.imports_target _ _ _ _ _ _ A) as (L & Et). destruct A as (q & _ & (rest & Eq & _) & _).
  destruct K as [K|[K|[]]]; injection K as <- <-; (destruct n as [|n]; vm_compute in L; [injection L as <-; discriminate Eq|destruct n; discriminate L]).
Qed.
Lemma loose_reach more path contents t o : In path (loose_sources more) -> loose more (env_locate text_env path) = Ok contents -> ~ reach text_env (loose more) plain_config path contents t o.
Proof. intros I E R. induction R as [n ln t o A _|mid mc n ln t o _ IH _ _]; [exact (loose_step _ _ _ _ _ (loose_read _ _ _ I E) A)|exact IH]. Qed.
Lemma loose_settled more : LinkFacts.settled (loose_world more) (args_threads 1) config_default farm_json farm.
Proof.
  destruct PropC35.C35_nonvacuous as (_ & _ & _ & _ & _ & _ & _ & C & _).
  constructor; auto.
  - exact PropC04.farm_intro.
  - exact (se_named _ _ _ _ _ PropC72.disk_settled).
  - intros d es l. change (wo_listing (loose_world more)) with (loose_listing more). unfold loose_listing. destruct (String.eqb d "."); [|discriminate]. destruct more;
    (intros H; inversion H; subst; clear H; cbn; intros H; inversion H; subst; clear H; cbn; (split; [|repeat constructor; cbn; intuition discriminate]);
      repeat constructor; repeat split; try discriminate; cbn; intuition discriminate).
  - change (separate text_env (loose_listing more) plain_config "." (loose more)). split.
    + intros p q l Hp Hq R. apply loose_is_source in Hp. apply loose_is_source in Hq.
      assert (El : l = p).
      { destruct R as [|contents file' contents' n l t E I A]; [reflexivity|]. exfalso. destruct I as [[-> ->]|R].
        - exact (loose_step _ _ _ _ _ (loose_read _ _ _ Hp E) A).
        - exact (loose_reach _ _ _ _ _ Hp E R). }
      subst l. destruct more; [destruct Hp as [<-|[<-|[]]], Hq as [<-|[<-|[]]]|destruct Hp as [<-|[]], Hq as [<-|[]]]; discriminate.
    + intros p q Hp Hq. apply loose_is_source in Hp. apply loose_is_source in Hq. destruct more; [destruct Hp as [<-|[<-|[]]], Hq as [<-|[<-|[]]]|destruct Hp as [<-|[]], Hq as [<-|[]]]; auto; discriminate.
  - intros p Sp. apply loose_is_source in Sp. destruct more; [destruct Sp as [<-|[<-|[]]]|destruct Sp as [<-|[]]]; discriminate.
  - intros p. exact SelWorlds.plain_ok.
  - intros a b y z Pe Ea Eb. apply PathFacts.path_eqb_same in Pe. change (loose more a = Ok y) in Ea. change (loose more b = Ok z) in Eb. unfold loose, ImportWorlds.files in Ea, Eb.
    destruct more; cbn [of_both app aget] in Ea, Eb; unfold eqb, EqB_string in Ea, Eb.
    + destruct (String.eqb_spec a "./x.graphql") as [->|]; [|destruct (String.eqb_spec a "./b.graphql") as [->|]; [|destruct (String.eqb_spec a "./schema.json") as [->|]; [|discriminate]]];
      (destruct (String.eqb_spec b "./x.graphql") as [->|]; [|destruct (String.eqb_spec b "./b.graphql") as [->|]; [|destruct (String.eqb_spec b "./schema.json") as [->|]; [|discriminate]]]); congruence || discriminate.
    + destruct (String.eqb_spec a "./x.graphql") as [->|]; [|destruct (String.eqb_spec a "./schema.json") as [->|]; [|discriminate]];
      (destruct (String.eqb_spec b "./x.graphql") as [->|]; [|destruct (String.eqb_spec b "./schema.json") as [->|]; [|discriminate]]); congruence || discriminate.
  - intros path contents t o Sp E R. apply loose_is_source in Sp. destruct (loose_reach more path contents t o Sp E R).
Qed.
Lemma loose_accessible more : accessible text_env (loose_listing more) ".".
Proof.
  split; [|reflexivity]. intros p d H.
  assert (K : forall p x, in_tree (loose_listing more) "." p x -> x = WDir "." \/ exists q, x = WFile q).
  { clear. intros p x H. induction H as [|q x i y _ IH En]; [left; reflexivity|]. destruct IH as [->|(z & ->)].
    - destruct more; vm_compute in En; destruct i as [|[|[|i]]]; try discriminate En; injection En as <-; eauto.
    - destruct i; discriminate En. }
  destruct (K _ _ H) as [X|(q & X)]; [injection X as ->|discriminate X]. destruct more; do 2 eexists; split; reflexivity.
Qed.
Lemma loose_settled_source more path : In path (loose_sources more) -> PropC81.settled_source text_env (loose more) plain_config farm path.
Proof.
  intros I. assert (X : exists contents, loose more (env_locate text_env path) = Ok contents /\ (contents = size_query \/ contents = mood_query)) by (destruct more; [destruct I as [<-|[<-|[]]]|destruct I as [<-|[]]]; eexists; (split; [reflexivity|auto])).
  destruct X as (contents & E & Ec). assert (Nr : forall t o, ~ reach text_env (loose more) plain_config path contents t o) by (intros t o; exact (loose_reach more path contents t o I E)).
  assert (Y : exists r, add_imports 5 text_env (loose more) plain_config path contents [] [] = Done r) by (clear Nr E; destruct more; [destruct I as [<-|[<-|[]]]|destruct I as [<-|[]]]; destruct Ec as [-> | ->]; eexists; vm_compute; reflexivity).
  destruct Y as ([im ms] & Y).
  exists contents, (PropC97.x_doc contents), "Query", (PropC97.x_sels contents), []. split.
  - constructor; auto.
    + destruct Ec as [-> | ->]; vm_compute; reflexivity.
    + eapply done_acyclic; eauto.
    + intros F C Im O. apply (add_imports_ok text_env (loose more) plain_config 5) in Y. destruct Y as (_ & No). apply (No F C Im). apply open_unclosed. exact O.
    + intros F C n ln t Im A. exfalso. destruct Im as [[-> ->]|R]; [exact (loose_step _ _ _ _ _ (loose_read _ _ _ I E) A)|exact (Nr _ _ R)].
    + intros t o R. destruct (Nr _ _ R).
    + intros n fd. split; [intros X; discriminate X|]. intros (t & o & R & _). destruct (Nr _ _ R).
    + destruct Ec as [-> | ->]; vm_compute; reflexivity.
    + destruct Ec as [-> | ->]; vm_compute; reflexivity.
    + apply compositeb_ok. vm_compute. reflexivity.
    + exists "Query". apply possibles_ok. left. reflexivity.
    + apply (validb_ok farm _ 12). destruct Ec as [-> | ->]; vm_compute; reflexivity.
    + intros v Iv. destruct Ec as [-> | ->]; vm_compute in Iv; destruct Iv.
    + intros z (v & Iv & _). destruct Ec as [-> | ->]; vm_compute in Iv; destruct Iv.
  - apply PropC48.regular_settled; [apply PropC48.undocumented_ok; vm_compute; reflexivity|]. apply (RegCheck.regularb_ok farm _ 12 _ (PropC97.x_sels contents)); [destruct Ec as [-> | ->]; vm_compute; reflexivity|tauto].
Qed.
Lemma loose_pruned : pruned_project text_env text_env (loose_listing true) (loose_listing false) plain_config plain_config "." "." only_x (loose true) (loose false).
Proof.
  constructor.
  - intros p q (-> & ->). change (loose true (env_locate text_env "./x.graphql")) with (@Ok string string size_query). change (loose false (env_locate text_env "./x.graphql")) with (@Ok string string size_query). split; [|split; [auto|]].
    + vm_compute. constructor; [|constructor]. split; [cbn; repeat split; constructor|]. constructor; [tauto|constructor|PropC96.respreading].
    + intros n l t A. destruct (loose_step _ _ _ _ _ (or_introl eq_refl) A).
  - intros path path' _ _ (-> & ->) x y d P l n fd Ex _ _ _ _ (t & o & R & _). destruct (loose_reach true "./x.graphql" x t o (or_introl eq_refl) Ex R).
  - intros path' Sp. apply loose_is_source in Sp. destruct Sp as [<-|[]]. exists "./x.graphql". split; [apply loose_is_source; left; reflexivity|split; reflexivity].
  - intros _. exact (loose_accessible false).
Qed.
Example C98_globals_nonvacuous : exists out g out' g' ds ds',
  qlc 30 (loose_world true) (args_threads 1) (repeat 0 90) = Exited 0 out g /\ qlc 30 (loose_world false) (args_threads 1) (repeat 0 90) = Exited 0 out' g' /\
  g (globals_path plain_config ".") = Ok (header +++ join (nl +++ nl) ds) /\ g' (globals_path plain_config ".") = Ok (header +++ join (nl +++ nl) ds') /\
  part_of ds' ds /\ ds' <> ds.
Proof.
  assert (H : exists out g out' g', qlc 30 (loose_world true) (args_threads 1) (repeat 0 90) = Exited 0 out g /\ qlc 30 (loose_world false) (args_threads 1) (repeat 0 90) = Exited 0 out' g' /\
    g (globals_path plain_config ".") <> g' (globals_path plain_config ".")).
  { do 4 eexists. split; [vm_compute; reflexivity|]. split; [vm_compute; reflexivity|]. vm_compute. discriminate. }
  destruct H as (out & g & out' & g' & H & H' & Df). exists out, g, out', g'.
  assert (Pn : forall text ds d, env_parse text_env text = Ok ds -> In d ds -> PropC56.parsed_named d).
  { intros text ds d E I. cbn [env_parse text_env] in E. destruct (parse_query lenient text) as [ds'|] eqn:Ep; [|discriminate]. injection E as ->. eapply C69_named; eauto. }
  destruct (C98_outputs_partial 30 30 (loose_world true) (loose_world false) (args_threads 1) (args_threads 1) (repeat 0 90) (repeat 0 90) config_default config_default farm_json farm only_x out g 0 out' g'
    (loose_settled true) (loose_settled false) (conj eq_refl (conj eq_refl (conj eq_refl (conj eq_refl eq_refl)))) PropC79.farm_inhabited (PropC79.disk_types lenient (fun _ => "syntax error") "" (loose_world false) (PropC77.world_disk (loose_listing false) (loose false)))) as (_ & _ & K).
  - repeat constructor.
  - reflexivity.
  - exact farm_text_read.
  - exact farm_text_read.
  - exact Pn.
  - exact Pn.
  - exact loose_pruned.
  - intros path contents n fd fd' Sp E (t & o & R & _). apply loose_is_source in Sp. destruct (loose_reach false path contents t o Sp E R).
  - destruct (loose_accessible true) as [A B]. constructor; auto. intros path Sp. apply loose_is_source in Sp. destruct (loose_settled_source true path Sp) as (x & d & P & l & fr & V & _). exists x, d, P, l, fr. exact V.
  - intros path Sp. apply loose_settled_source. apply loose_is_source. exact Sp.
  - exact H.
  - exact H'.
  - destruct K as (ds & ds' & A & B & C).
    + exists "Size". exists "./x.graphql". do 2 eexists. split; [apply loose_is_source; left; reflexivity|]. split; [do 8 eexists; repeat (split; [vm_compute; reflexivity|]); vm_compute; reflexivity|]. vm_compute. auto.
    + exists ds, ds'. do 2 (split; [assumption|]). split; [exact A|]. split; [exact B|]. split; [exact C|]. intros ->. apply Df. etransitivity; [exact A|symmetry; exact B].
Qed.

Example C98_in_place_nonvacuous : exists out g out' g' ds ds',
  qlc 30 (loose_world true) (args_threads 1) (repeat 0 90) = Exited 0 out g /\ qlc 30 (loose_world false) (args_threads 1) (repeat 0 90) = Exited 0 out' g' /\
  g' "./x.graphql.d.ts" = g "./x.graphql.d.ts" /\
  g (globals_path plain_config ".") = Ok (header +++ join (nl +++ nl) ds) /\ g' (globals_path plain_config ".") = Ok (header +++ join (nl +++ nl) ds') /\ part_of ds' ds.
Proof.
  assert (H : exists out g out' g', qlc 30 (loose_world true) (args_threads 1) (repeat 0 90) = Exited 0 out g /\ qlc 30 (loose_world false) (args_threads 1) (repeat 0 90) = Exited 0 out' g').
  { do 4 eexists. split; vm_compute; reflexivity. }
  destruct H as (out & g & out' & g' & H & H'). exists out, g, out', g'.
  pose proof (loose_settled true) as [L1 I1 _ N1 S1 G1 O1 C1 _ _ _]. pose proof (loose_settled false) as [L2 _ _ N2 S2 _ _ _ _ _ _].
  destruct (C98_in_place 30 (loose_world true) (loose_world false) (args_threads 1) (repeat 0 90) (repeat 0 90) config_default farm out g 0 out' g') as (A & B); auto.
  - left. reflexivity.
  - left. reflexivity.
  - intros path Sp. apply loose_is_source in Sp. apply loose_is_source. destruct Sp as [<-|[]]. left. reflexivity.
  - intros path l Sp R. apply loose_is_source in Sp. assert (Sp2 : In path (loose_sources true)) by (destruct Sp as [<-|[]]; left; reflexivity). destruct R as [|contents file' contents' n l t E I A].
    + destruct Sp as [<-|[]]. reflexivity.
    + exfalso. destruct I as [[-> ->]|R]; [exact (loose_step _ _ _ _ _ (loose_read _ _ _ Sp2 E) A)|exact (loose_reach _ _ _ _ _ Sp2 E R)].
  - destruct B as (ds & ds' & B1 & B2 & B3); [reflexivity| |].
    + exists "Size". exists "./x.graphql". do 2 eexists. split; [apply loose_is_source; left; reflexivity|]. split; [do 8 eexists; repeat (split; [vm_compute; reflexivity|]); vm_compute; reflexivity|]. vm_compute. auto.
    + exists ds, ds'. do 2 (split; [assumption|]). split; [exact (A "./x.graphql" (proj2 (loose_is_source false _) (or_introl eq_refl)))|]. split; [exact B1|]. split; [exact B2|exact B3].
Qed.

(** ** Not if the deleted file has a fragment of the same name: both projects are accepted, and the type of the query is another *)
Theorem C98_refuted : exists out g out' g',
  pruned_project text_env text_env PropC79.twice_listing two_listing plain_config plain_config "." "." stays (PropC97.three PropC79.twice_query PropC79.twice_b) two /\
  qlc 30 (PropC97.three_world PropC79.twice_query PropC79.twice_b) (args_threads 1) (repeat 0 90) = Exited 0 out g /\ qlc 30 two_world (args_threads 1) (repeat 0 90) = Exited 0 out' g' /\
  g "./x.graphql.d.ts" <> g' "./x.graphql.d.ts".
Proof.
  do 4 eexists. split; [exact (two_pruned PropC79.twice_b (or_intror (or_introl eq_refl)))|]. split; [vm_compute; reflexivity|]. split; [vm_compute; reflexivity|]. vm_compute. discriminate.
Qed.
Print Assumptions C98_refuted.
