(** C95: unions are told apart by __typename. *)
From Verif Require Import SpecNarrow DeclFacts RegCheck ShareWorlds PropC16 RespFacts Written.
From Verif Require Import LinkData LinkExt GlobalRead JsonCheck WrittenEq Package RunFacts PropC56 PropC35 LinkFacts.
From Verif Require Import Gql Json Args SpecGtext SpecJson SpecJtext PropC69 PropC72.
From Verif Require SpecArgs PropC65 PropC67 PropC04.

(** ** From the cover of C16 *)
Lemma chosen {A B} (R : A -> B -> Prop) (l : list A) : (forall x, In x l -> exists y, R x y) -> exists l', Forall2 R l l'.
Proof.
  induction l as [|x l IH]; intros H; [exists []; constructor|]. destruct (H x (or_introl eq_refl)) as (y & Y).
  destruct IH as (l' & F); [intros z I; apply H; right; exact I|]. exists (y :: l'). constructor; auto.
Qed.
Lemma forall2_left {A B} (R : A -> B -> Prop) l l' : Forall2 R l l' -> forall y, In y l' -> exists x, In x l /\ R x y.
Proof. induction 1 as [|x y l l' r F IH]; intros z J; [destruct J|]. destruct J as [E|I]; [subst; exists x; split; [left|]; auto|]. destruct (IH z I) as (w & J & r'). exists w. split; [right|]; auto. Qed.
Lemma forall2_right {A B} (R : A -> B -> Prop) l l' : Forall2 R l l' -> forall x, In x l -> exists y, In y l' /\ R x y.
Proof. induction 1 as [|x y l l' r F IH]; intros z J; [destruct J|]. destruct J as [E|I]; [subst; exists y; split; [left|]; auto|]. destruct (IH z I) as (w & J & r'). exists w. split; [right|]; auto. Qed.
Lemma flat_once {A B} (g : A -> list B) l a a' x : NoDup (flat_map g l) -> In a l -> In a' l -> In x (g a) -> In x (g a') -> a = a'.
Proof.
  induction l as [|b l IH]; intros N I I' X X'; [destruct I|]. cbn [flat_map] in N. destruct I as [E|I], I' as [E'|I'].
  - congruence.
  - subst b. exfalso. apply (NoDup_app_disjoint _ _ x N X). apply in_flat_map. eauto.
  - subst b. exfalso. apply (NoDup_app_disjoint _ _ x N X'). apply in_flat_map. eauto.
  - exact (IH (NoDup_app_right _ _ N) I I' X X').
Qed.
Lemma fst_once {A B} (l : list (A * B)) n x y : NoDup (List.map fst l) -> In (n, x) l -> In (n, y) l -> x = y.
Proof.
  induction l as [|[k z] l IH]; intros N I J; [destruct I|]. cbn in N. apply NoDup_cons_iff in N. destruct N as [Nk N].
  destruct I as [E|I], J as [E'|J]; [congruence| | |auto]; [injection E as -> ->|injection E' as -> ->]; exfalso; apply Nk; apply in_map_iff; eexists; split; eauto; reflexivity.
Qed.
Lemma typename_is js s Q f : introspection js s -> field_of s Q "__typename" f -> f = typename_field.
Proof. intros I F. destruct (field_declared js s I _ _ _ F) as [[E _]|(kind & g & Dc & _)]; [exact E|]. exfalso. eapply typename_undeclared; eauto. Qed.

Lemma covered_narrows js c s frags D : introspection js s -> forall P M main, covered c s frags D P M main -> narrows s frags D P M main.
Proof.
  intros In0. fix IH 4. intros P M main H. destruct H as [P M main groups A N Hp Np X].
  assert (Y : forall g, In g groups -> snd g <> [] /\ exists ms, In (DObj (fst g) ms) D /\ NoDup (List.map m_name ms) /\
    (forall T, In T (snd g) -> (forall k, In k (List.map m_name ms) <-> key s frags P M T k) /\
      (forall m f ss, In m ms -> focc s frags T P M (m_name m) f ss -> prop_type c (snd g) (sf_type f) (m_type m)) /\
      (forall m f ss sub, In m ms -> focc s frags T P M (m_name m) f ss -> composite s (ft_name (sf_type f)) -> core_of (m_type m) = XName sub ->
         narrows s frags D (ft_name (sf_type f)) (merged (focc s frags T P M) (m_name m) (ft_name (sf_type f))) sub))).
  { intros [n ts] I. destruct (X n ts I) as (Nt & ms & Im & Nm & Z). split; [exact Nt|]. exists ms. split; [exact Im|]. split; [exact Nm|].
    intros T J. destruct (Z T J) as (Z1 & Z2 & Z3). split; [exact Z1|]. split; [exact Z2|]. intros m f ss sub K F C E. exact (IH _ _ _ (Z3 m f ss sub K F C E)). }
  clear X IH.
  destruct (chosen (fun g (a : string * (list string * list member)) => fst a = fst g /\ fst (snd a) = snd g /\
     snd g <> [] /\ In (DObj (fst g) (snd (snd a))) D /\ NoDup (List.map m_name (snd (snd a))) /\
    (forall T, In T (snd g) -> (forall k, In k (List.map m_name (snd (snd a))) <-> key s frags P M T k) /\
      (forall m f ss, In m (snd (snd a)) -> focc s frags T P M (m_name m) f ss -> prop_type c (snd g) (sf_type f) (m_type m)) /\
      (forall m f ss sub, In m (snd (snd a)) -> focc s frags T P M (m_name m) f ss -> composite s (ft_name (sf_type f)) -> core_of (m_type m) = XName sub ->
         narrows s frags D (ft_name (sf_type f)) (merged (focc s frags T P M) (m_name m) (ft_name (sf_type f))) sub))) groups) as (alts & Fa).
  { intros [n ts] I. destruct (Y _ I) as (Nt & ms & Z). exists (n, (ts, ms)). cbn [fst snd] in *. auto. }
  clear Y.
  assert (En : List.map fst alts = List.map fst groups) by (clear - Fa; induction Fa as [|g a l l' (E & _) F IH]; cbn; congruence).
  assert (Ga : forall n ts ms, In (n, (ts, ms)) alts -> In (n, ts) groups /\ ts <> [] /\ In (DObj n ms) D /\ NoDup (List.map m_name ms) /\
    (forall T, In T ts -> (forall k, In k (List.map m_name ms) <-> key s frags P M T k) /\
      (forall m f ss, In m ms -> focc s frags T P M (m_name m) f ss -> prop_type c ts (sf_type f) (m_type m)) /\
      (forall m f ss sub, In m ms -> focc s frags T P M (m_name m) f ss -> composite s (ft_name (sf_type f)) -> core_of (m_type m) = XName sub ->
         narrows s frags D (ft_name (sf_type f)) (merged (focc s frags T P M) (m_name m) (ft_name (sf_type f))) sub))).
  { intros n ts ms I. destruct (forall2_left _ _ _ Fa _ I) as ([n' ts'] & J & E1 & E2 & Z). cbn [fst snd] in *. subst n' ts'. split; [exact J|exact Z]. }
  assert (Po : forall T, possible s P T <-> exists n ts ms, In (n, (ts, ms)) alts /\ In T ts).
  { intros T. rewrite <- Hp, in_flat_map. split.
    - intros ([n ts] & I & J). destruct (forall2_right _ _ _ Fa _ I) as ([n' [ts' ms]] & K & E1 & E2 & _). cbn [fst snd] in *. subst n' ts'. eauto 6.
    - intros (n & ts & ms & I & J). exists (n, ts). split; [apply (Ga _ _ _ I)|exact J]. }
  assert (Lit : forall n ts ms k, In (n, (ts, ms)) alts -> tagged_by s frags P M k -> literals_at ms k ts).
  { intros n ts ms k I Tg. destruct (Ga _ _ _ I) as (Ig & Nt & _ & _ & Z). destruct ts as [|T ts]; [congruence|].
    destruct (Z T (or_introl eq_refl)) as (Zk & Zt & _).
    assert (PT : possible s P T) by (apply Po; exists n, (T :: ts), ms; split; [exact I|left; reflexivity]).
    destruct (Tg T PT) as (Q & f & ss & O & F). pose proof (typename_is _ _ _ _ In0 F) as ->.
    assert (Fo : focc s frags T P M k typename_field ss) by (exists Q, "__typename"; auto).
    assert (Ik : In k (List.map m_name ms)) by (apply Zk; exists typename_field, ss; exact Fo).
    apply in_map_iff in Ik. destruct Ik as (m & <- & Im). exists m. split; [exact Im|]. split; [reflexivity|].
    destruct (Zt m typename_field ss Im Fo) as (Ct & De). cbn in Ct, De. intros env v. rewrite De. apply Ct. }
  assert (Un : forall T n ts ms n' ts' ms', In (n, (ts, ms)) alts -> In (n', (ts', ms')) alts -> In T ts -> In T ts' -> n = n' /\ ts = ts' /\ ms = ms').
  { intros T n ts ms n' ts' ms' I I' J J'. pose proof (flat_once snd groups (n, ts) (n', ts') T Np (proj1 (Ga _ _ _ I)) (proj1 (Ga _ _ _ I')) J J') as E.
    injection E as <- <-. rewrite <- En in N. pose proof (fst_once alts _ _ _ N I I') as E. injection E as <-. auto. }
  (* an alternative accepts objects with its literals only *)
  assert (Tag : forall base j n ts ms k kvs x, In (n, (ts, ms)) alts -> tagged_by s frags P M k -> accepts D base j n (VObj kvs) -> aget k kvs = Some x ->
    exists T, In T ts /\ x = VStr T).
  { intros base j n ts ms k kvs x I Tg Ac E. destruct (Lit _ _ _ _ I Tg) as (m & Im & <- & L). destruct (Ga _ _ _ I) as (_ & _ & Id & _).
    destruct j as [|j]; [destruct Ac|]. destruct Ac as [Ac _]. specialize (Ac _ Id eq_refl). destruct Ac as (kvs' & Ek & Fo). injection Ek as <-.
    rewrite Forall_forall in Fo. specialize (Fo m Im). rewrite E in Fo. apply L in Fo. exact Fo. }
  apply (narrows_intro s frags D P M main alts).
  - rewrite En. exact A.
  - rewrite En. exact N.
  - intros n ts ms I. destruct (Ga _ _ _ I) as (_ & Nt & Id & Nm & _). repeat (split; [assumption|]). intros k Tg. exact (Lit _ _ _ _ I Tg).
  - exact Po.
  - exact Un.
  - intros n ts ms T k I J. destruct (Ga _ _ _ I) as (_ & _ & _ & _ & Z). apply (Z T J).
  - intros base i kvs k x Tg Ac E.
    assert (B : exists n ts ms j, In (n, (ts, ms)) alts /\ accepts D base j n (VObj kvs)).
    { destruct A as [A|A].
      - rewrite <- En in A. destruct alts as [|[n [ts ms]] [|? ?]]; try discriminate A. cbn in A. injection A as <-. exists n, ts, ms, i. split; [left; reflexivity|exact Ac].
      - destruct i as [|i]; [destruct Ac|]. destruct Ac as [Ac _]. destruct (Ac _ A eq_refl) as (n & J & Ac'). rewrite <- En in J. apply in_map_iff in J.
        destruct J as ([n' [ts ms]] & <- & J). exists n', ts, ms, i. auto. }
    destruct B as (n & ts & ms & j & I & Aj). destruct (Tag _ _ _ _ _ _ _ _ I Tg Aj E) as (T & J & ->).
    exists T. split; [apply Po; eauto 6|]. split; [reflexivity|]. intros n' ts' ms' I'. split.
    + intros (j' & Aj'). destruct (Tag _ _ _ _ _ _ _ _ I' Tg Aj' E) as (T' & J' & Et). injection Et as <-. exact J'.
    + intros J'. destruct (Un T _ _ _ _ _ _ I I' J J') as (-> & _). eauto.
  - intros n ts ms T m f ss sub I J Im F C E. destruct (Ga _ _ _ I) as (_ & _ & _ & _ & Z). destruct (Z T J) as (_ & _ & Zn). eapply Zn; eauto.
Qed.

Theorem C95_partial : forall js fuel cx c o d ws co P l,
  order_ok (cx_order cx) -> order_ok o -> introspection js (cx_schema cx) -> proper_types (cx_schema cx) ->
  document_file fuel cx c o d ws co -> doc_root d = Some (P, l) -> is_subscription d = false ->
  frags_valid (cx_schema cx) (cx_frags cx) l ->
  regular (cx_schema cx) (cx_frags cx) P (fun x => In x l) ->
  exists m, written_as cx c d co m /\ narrows (cx_schema cx) (cx_frags cx) (tf_decls m) P (fun x => In x l) (def_name d).
Proof.
  intros js fuel cx c o d ws co P l O O' In0 Pt H Dr Su Fv R.
  destruct (C16_partial _ _ _ _ _ _ _ _ _ O O' (intro_consistent _ _ In0) Pt H Dr Su Fv R) as (m & W & K). exists m. split; [exact W|].
  exact (covered_narrows js c _ _ _ In0 _ _ _ K).
Qed.
Print Assumptions C95_partial.

(** ** What is written *)
Lemma bare_narrows s frags D : forall P M main, narrows s frags D P M main -> narrows s frags (List.map bare_decl D) P M main.
Proof.
  intros P M main H. induction H as [P M main alts A N X Po Un Ke Ac _ IH].
  set (bare_alt := fun a : string * (list string * list member) => (fst a, (fst (snd a), List.map bare_member (snd (snd a))))).
  assert (Ef : List.map fst (List.map bare_alt alts) = List.map fst alts) by (rewrite map_map; apply map_ext; intros a; reflexivity).
  assert (Bn : forall ms, List.map m_name (List.map bare_member ms) = List.map m_name ms) by (intros ms; rewrite map_map; apply map_ext; intros m; reflexivity).
  assert (Ia : forall n ts ms, In (n, (ts, ms)) (List.map bare_alt alts) -> exists ms0, ms = List.map bare_member ms0 /\ In (n, (ts, ms0)) alts).
  { intros n ts ms I. apply in_map_iff in I. destruct I as ([n' [ts' ms']] & E & I). unfold bare_alt in E. cbn [fst snd] in E. injection E as <- <- <-. eauto. }
  assert (Ai : forall n ts ms, In (n, (ts, ms)) alts -> In (n, (ts, List.map bare_member ms)) (List.map bare_alt alts)).
  { intros n ts ms I. apply in_map_iff. exists (n, (ts, ms)). split; [reflexivity|exact I]. }
  apply (narrows_intro s frags _ P M main (List.map bare_alt alts)).
  - rewrite Ef. destruct A as [A|A]; [left; exact A|right]. apply in_map_iff. eexists. split; [|exact A]. reflexivity.
  - rewrite Ef. exact N.
  - intros n ts ms I. destruct (Ia _ _ _ I) as (ms0 & -> & J). destruct (X _ _ _ J) as (Id & Nm & Nt & L).
    split; [apply in_map_iff; eexists; split; [|exact Id]; reflexivity|]. rewrite Bn. split; [exact Nm|]. split; [exact Nt|].
    intros k Tg. destruct (L k Tg) as (m & Im & Em & De). exists (bare_member m). split; [apply in_map; exact Im|]. split; [exact Em|exact De].
  - intros T. rewrite Po. split; intros (n & ts & ms & I & J); [eauto 6|]. destruct (Ia _ _ _ I) as (ms0 & -> & K). eauto.
  - intros T n ts ms n' ts' ms' I I' J J'. destruct (Ia _ _ _ I) as (ms0 & -> & K). destruct (Ia _ _ _ I') as (ms1 & -> & K').
    destruct (Un T _ _ _ _ _ _ K K' J J') as (-> & -> & ->). auto.
  - intros n ts ms T k I J. destruct (Ia _ _ _ I) as (ms0 & -> & K). rewrite Bn. eapply Ke; eauto.
  - intros base i kvs k x Tg Aj E. apply (proj2 (accepts_bare D base i main _)) in Aj. destruct (Ac base i kvs k x Tg Aj E) as (T & PT & Ex & Z).
    exists T. split; [exact PT|]. split; [exact Ex|]. intros n ts ms I. destruct (Ia _ _ _ I) as (ms0 & -> & K). rewrite <- (Z _ _ _ K).
    split; intros (j & Y); exists j; [apply (proj2 (accepts_bare D base j n _)); exact Y|apply (proj1 (accepts_bare D base j n _)); exact Y].
  - intros n ts ms T m f ss sub I J Im F C E. destruct (Ia _ _ _ I) as (ms0 & -> & K). apply in_map_iff in Im. destruct Im as (m0 & <- & Im).
    exact (IH n ts ms0 T m0 f ss sub K J Im F C E).
Qed.

(** The run exits with code 0: so for the declarations that the text of every output reads as *)
Theorem C95_run_partial : forall fuel wo a sched cf js s out f',
  let rc := merge_config (wo_ncpus wo) a cf in
  let c := cconfig_of rc in
  let e := wo_env wo in
  let ls := wo_listing wo in
  let root := rc_root_dir rc in
  let f := wo_fs wo in
  settled wo a cf js s -> wo_schema wo (rc_schema_path rc) = SRDecoded js ->
  (forall text ds d, env_parse e text = Ok ds -> In d ds -> parsed_named d) ->
  qlc fuel wo a sched = Exited 0 out f' ->
  forall path, is_source ls root path -> exists contents d frags text,
    f (env_locate e path) = Ok contents /\ env_parse e contents = Ok [d] /\ PropC35.imported_fragments e f c path contents frags /\
    f' (out_loc e path) = Ok text /\
    (is_subscription d = false -> ~ reserved (def_name d) -> exists P l M, doc_root d = Some (P, l) /\ only_reads text M /\
       (regular s frags P (fun x => In x l) -> narrows s frags (module_types M) P (fun x => In x l) (def_name d))).
Proof.
  intros fuel wo a sched cf js s out f' rc c e ls root f Se Es Pn H path Sp.
  pose proof Se as [_ In0 Jn _ _ _ _ _ _ _ _]. pose proof (loaded_nameable _ _ _ (in_loaded _ _ In0) Jn) as Nm.
  destruct (run_compiled fuel wo a sched cf js s out f' Se Es Pn H) as (Outs & _ & _).
  destruct (Outs path Sp) as (contents & d & frags & ws & co & Er & Ep & Ic & D & Oc & Od & Eo & Va & Dn & _).
  exists contents, d, frags, (co_contents co). split; [exact Er|]. split; [exact Ep|]. split; [exact Ic|]. split; [exact Eo|].
  intros Su Nr. destruct (Va Su) as (P & l & Dr & V & Fv). specialize (Dn Nr).
  destruct (document_inv _ _ _ _ _ _ _ Oc Od (intro_consistent _ _ In0) D) as (P' & p' & l' & op & ds & us & vds & vus & _ & _ & _ & _ & _ & _ & _ & _ & _ & _ & W3).
  exists P, l, (tsfile_items (file_of c op (ds ++ vds) (co_globals co))). split; [exact Dr|]. split; [exact (proj2 W3 Nm Dn)|]. intros R.
  destruct (C95_partial js _ _ _ _ _ _ _ _ _ Oc Od In0 (nameable_proper _ _ Nm) D Dr Su Fv R) as (m & W & K).
  pose proof (written_same _ _ _ _ _ _ W3 W Nm Dn) as Ew. fold rc in Ew. fold c in Ew. rewrite Ew.
  assert (E : module_types (tsfile_items m) = List.map bare_decl (tf_decls m)) by exact (items_decls m). rewrite E. apply bare_narrows. exact K.
Qed.
Print Assumptions C95_run_partial.

(** From texts to texts *)
Theorem C95_text_partial : forall ck complaint jerr help version fuel wo its argv a nc sched cf stext j js s out f',
  let rc := merge_config (wo_ncpus wo) a cf in
  let c := cconfig_of rc in
  let e := wo_env wo in
  let ls := wo_listing wo in
  let root := rc_root_dir rc in
  let f := wo_fs wo in
  on_disk ck complaint jerr wo ->
  SpecArgs.spelled its argv -> SpecArgs.consistent its -> SpecArgs.complete its -> SpecArgs.says its a nc ->
  settled wo a cf js s ->
  f (env_locate e (rc_schema_path rc)) = Ok stext -> text_holds stext j -> says_schema j js -> fits js ->
  qlc_command help version fuel wo argv sched = Exited 0 out f' ->
  forall path contents d, is_source ls root path -> f (env_locate e path) = Ok contents -> text_says ck contents [d] ->
    is_subscription d = false -> ~ reserved (def_name d) ->
    exists frags P l text M, PropC35.imported_fragments e f c path contents frags /\ doc_root d = Some (P, l) /\
      f' (out_loc e path) = Ok text /\ only_reads text M /\
      (regular s frags P (fun x => In x l) -> narrows s frags (module_types M) P (fun x => In x l) (def_name d)).
Proof.
  intros ck complaint jerr help version fuel wo its argv a nc sched cf stext j js s out f' rc c e ls root f
    [Hd Hs] Sp Cn Cm Sy Se Es Th Sj Fi H path contents d Src Ec Ts Su Nr.
  assert (Pa : parse_args argv = URun a nc) by (apply PropC65.C65_exact; eauto).
  assert (Hq : qlc fuel wo a sched = Exited 0 out f') by (unfold qlc_command in H; rewrite Pa in H; exact H).
  assert (Sc : wo_schema wo (rc_schema_path rc) = SRDecoded js).
  { rewrite (Hs _ _ Es). apply PropC67.C67_schema. eauto. }
  assert (Pn : forall text ds d, env_parse e text = Ok ds -> In d ds -> parsed_named d).
  { intros text ds d0 E I. rewrite Hd in E. destruct (parse_query ck text) as [ds'|] eqn:Ep; [|discriminate]. injection E as ->. eapply C69_named; eauto. }
  destruct (C95_run_partial fuel wo a sched cf js s out f' Se Sc Pn Hq path Src) as (contents' & d' & frags & text & Ec' & Ep & If & Et & K).
  assert (contents' = contents).
  { assert (X : f (env_locate e path) = Ok contents') by exact Ec'. rewrite Ec in X. congruence. }
  subst contents'.
  assert (d' = d).
  { rewrite Hd in Ep. apply C69_text in Ts. rewrite Ts in Ep. congruence. }
  subst d'. destruct (K Su Nr) as (P & l & M & Dr & Rt & A). exists frags, P, l, text, M. auto 6.
Qed.
Print Assumptions C95_text_partial.

(** ** Non-vacuity: pets with their types, and the size of dogs *)
Definition tag_sels : list selection := [SelWorlds.node 2 "pet" [SelWorlds.leaf 2 "__typename"; SelWorlds.leaf 3 "name"; SelWorlds.on 4 "Dog" [SelWorlds.leaf 4 "size"]]].
Definition tag_decls : list decl :=
  [DObj "Q_pet_Dog" [prop "__typename" (XLit "Dog"); prop "name" (XName "string"); prop "size" (XName "Size")];
   DObj "Q_pet_$$other" [prop "__typename" (XUnion (XLit "Cat") (XLit "Eel")); prop "name" (XName "string")];
   DAlias "Q_pet" ["Q_pet_Dog"; "Q_pet_$$other"]; DObj "Q" [prop "pet" (XName "Q_pet")]].
Lemma tag_regular : regular farm [] "Query" (fun x => In x tag_sels).
Proof. apply (regularb_ok farm [] 9 "Query" tag_sels); [vm_compute; reflexivity|tauto]. Qed.
Lemma tag_named : doc_named [] (query tag_sels) "Q".
Proof. apply (doc_namedb_ok 9). vm_compute. reflexivity. Qed.
Definition tag_place : selset := merged (focc farm [] "Query" "Query" (fun x => In x tag_sels)) "pet" "Pet".
Lemma tag_tagged : tagged_by farm [] "Pet" tag_place "__typename".
Proof.
  intros T _. exists "Pet", typename_field, []. split; [|apply field_get_ok; reflexivity].
  eapply (occ_field _ _ _ _ _ _ None). eexists _, _. split; [eexists _, _; split; [eapply (occ_field _ _ _ _ _ _ None); left; reflexivity|apply field_get_ok; reflexivity]|].
  split; [reflexivity|left; reflexivity].
Qed.
Example C95_nonvacuous : exists ws co, document_file 20 (farm_cx []) plain_config plain_order (query tag_sels) ws co /\
  (exists M, only_reads (co_contents co) M /\ module_types M = tag_decls) /\
  narrows farm [] tag_decls "Query" (fun x => In x tag_sels) "Q" /\ narrows farm [] tag_decls "Pet" tag_place "Q_pet" /\ tagged_by farm [] "Pet" tag_place "__typename" /\
  forall base i kvs, accepts tag_decls base i "Q_pet" (VObj kvs) -> aget "__typename" kvs = Some (VStr "Dog") ->
    (exists j, accepts tag_decls base j "Q_pet_Dog" (VObj kvs)) /\ forall j, ~ accepts tag_decls base j "Q_pet_$$other" (VObj kvs).
Proof.
  assert (X : exists ws co, document_file 20 (farm_cx []) plain_config plain_order (query tag_sels) ws co /\
    exists M, only_reads (co_contents co) M /\ module_types M = tag_decls).
  { do 2 eexists. split; [eexists; split; vm_compute; reflexivity|]. eexists. split; [unfold only_reads; apply (reads_once 2000); vm_compute; reflexivity|reflexivity]. }
  destruct X as (ws & co & H & M & Rm & Em). exists ws, co. split; [exact H|]. split; [eauto|].
  destruct (C95_partial farm_json 20 (farm_cx []) plain_config plain_order (query tag_sels) ws co "Query" tag_sels plain_ok plain_ok PropC04.farm_intro farm_proper H eq_refl eq_refl
    (no_frags_valid farm tag_sels) tag_regular) as (m & W & K).
  assert (Ei : M = tsfile_items m).
  { apply (proj2 W farm_nameable tag_named). apply Rm. reflexivity. }
  assert (E : List.map bare_decl (tf_decls m) = tag_decls) by (rewrite <- Em, Ei; symmetry; exact (items_decls m)).
  apply bare_narrows in K. rewrite E in K. cbn [farm_cx cx_schema cx_frags List.map] in K. split; [exact K|].
  assert (K2 : narrows farm [] tag_decls "Pet" tag_place "Q_pet").
  { inversion K as [P M0 main alts A N X Po Un Ke Ac IH]; subst.
    destruct (proj1 (Po "Query") (proj1 (possibles_ok farm "Query" "Query") (or_introl eq_refl))) as (n & ts & ms & I & J).
    assert (n = "Q").
    { destruct A as [A|A]; [|cbn in A; intuition discriminate]. destruct alts as [|a [|? ?]]; try discriminate A. cbn in A. injection A as A. destruct I as [I|[]]. subst a. exact A. }
    subst n. destruct (X _ _ _ I) as (Id & _). cbn in Id. destruct Id as [Id|[Id|[Id|[Id|[]]]]]; try discriminate Id. injection Id as <-.
    refine (IH "Q" ts _ "Query" (prop "pet" (XName "Q_pet")) (match field_get farm "Query" "pet" with Some f => f | None => root_field end) _ "Q_pet" I J (or_introl eq_refl) _ (proj1 (compositeb_ok farm "Pet") eq_refl) eq_refl).
    eexists _, _. split; [eapply (occ_field _ _ _ _ _ _ None); left; reflexivity|]. apply field_get_ok. reflexivity. }
  split; [exact K2|]. split; [exact tag_tagged|]. intros base i kvs Aj E1.
  inversion K2 as [P M0 main alts A N X Po Un Ke Ac IH]; subst.
  destruct (Ac base i kvs "__typename" (VStr "Dog") tag_tagged Aj E1) as (T & _ & Et & Z). injection Et as <-.
  assert (Al : List.map fst alts = ["Q_pet_Dog"; "Q_pet_$$other"]).
  { destruct A as [A|A].
    - exfalso. destruct alts as [|[n [ts ms]] [|? ?]]; try discriminate A. cbn in A. injection A as ->. destruct (X _ _ _ (or_introl eq_refl)) as (Id & _). cbn in Id. intuition discriminate.
    - cbn in A. destruct A as [A|[A|[A|[A|[]]]]]; try discriminate A. injection A as A. symmetry. exact A. }
  assert (Li : forall n, In n (List.map fst alts) -> exists ts ms, In (n, (ts, ms)) alts /\ literals_at ms "__typename" ts /\ In (DObj n ms) tag_decls).
  { intros n I. apply in_map_iff in I. destruct I as ([n' [ts ms]] & <- & I). exists ts, ms. destruct (X _ _ _ I) as (Id & _ & _ & L). cbn [fst]. split; [exact I|]. split; [exact (L _ tag_tagged)|exact Id]. }
  split.
  - destruct (Li "Q_pet_Dog") as (ts & ms & I & (m0 & Im & Em0 & L) & Id); [rewrite Al; left; reflexivity|]. apply (Z _ _ _ I).
    cbn in Id. destruct Id as [Id|[Id|[Id|[Id|[]]]]]; try discriminate Id. injection Id as <-.
    destruct Im as [<-|[<-|[<-|[]]]]; try discriminate Em0.
    destruct (proj1 (L (fun _ _ => False) (VStr "Dog")) eq_refl) as (T & J & Et). injection Et as <-. exact J.
  - intros j0 Aj0. destruct (Li "Q_pet_$$other") as (ts & ms & I & (m0 & Im & Em0 & L) & Id); [rewrite Al; right; left; reflexivity|].
    assert (J : In "Dog" ts) by (apply (Z _ _ _ I); eauto).
    cbn in Id. destruct Id as [Id|[Id|[Id|[Id|[]]]]]; try discriminate Id. injection Id as <-.
    destruct Im as [<-|[<-|[]]]; try discriminate Em0.
    pose proof (proj2 (L (fun _ _ => False) (VStr "Dog")) (ex_intro _ "Dog" (conj J eq_refl))) as Y. cbn in Y. destruct Y as [Y|Y]; discriminate Y.
Qed.

(** A whole run, on files *)
Example C95_text_nonvacuous : exists out f' text M frags,
  qlc_command "" "" 30 disk_world ["--num-threads"; "1"] (repeat 0 90) = Exited 0 out f' /\
  f' "./g.graphql.d.ts" = Ok text /\ only_reads text M /\
  PropC35.imported_fragments text_env disk_files plain_config "./g.graphql" barn_query frags /\
  narrows farm frags (module_types M) "Query" (fun x => In x disk_sels) "Q".
Proof.
  assert (Pa : parse_args ["--num-threads"; "1"] = URun (args_threads 1) false) by reflexivity.
  apply PropC65.C65_exact in Pa. destruct Pa as (its & Sp & Cn & Cm & Sy).
  assert (X : exists j, text_holds farm_text j /\ says_schema j farm_json /\ fits farm_json) by (apply (PropC67.C67_schema ""); exact farm_text_read).
  destruct X as (j & Th & Sj & Fi).
  assert (H : exists out f', qlc_command "" "" 30 disk_world ["--num-threads"; "1"] (repeat 0 90) = Exited 0 out f').
  { do 2 eexists. vm_compute. reflexivity. }
  destruct H as (out & f' & H).
  assert (Dk : on_disk lenient (fun _ => "syntax error") "" disk_world).
  { split; [reflexivity|]. intros p t E. cbn [disk_world wo_schema]. cbn [disk_world wo_fs wo_env] in E. change (disk_files p = Ok t) in E. rewrite E. reflexivity. }
  destruct (C95_text_partial lenient (fun _ => "syntax error") "" "" "" 30 disk_world its ["--num-threads"; "1"] (args_threads 1) false (repeat 0 90)
    config_default farm_text j farm_json farm out f' Dk Sp Cn Cm Sy disk_settled eq_refl Th Sj Fi H "./g.graphql" barn_query disk_doc)
    as (frags & P & l & text & M & If & Dr & Et & R & K).
  - apply PropC35.pair_is_source. auto.
  - reflexivity.
  - apply C69_text. vm_compute. reflexivity.
  - reflexivity.
  - apply reservedb_ok. reflexivity.
  - assert (X : P = "Query" /\ l = disk_sels) by (injection Dr as <- <-; auto). destruct X as [-> ->].
    exists out, f', text, M, frags. split; [exact H|]. split; [exact Et|]. split; [exact R|]. split; [exact If|]. apply K.
    pose proof (fragments_agree _ _ _ _ _ _ _ If disk_fragments) as Ag.
    eapply regular_ext; [intros n; symmetry; apply Ag|exact disk_regular|tauto].
Qed.

(** ** Not in general: after comparing with Dog, what is left has the name of the owner, where the mood is asked for (finding 1) *)
Definition mixed_sels : list selection :=
  [SelWorlds.node 2 "pet" [SelWorlds.leaf 2 "__typename"; SelWorlds.on 3 "Cat" [SelWorlds.node 3 "owner" [SelWorlds.leaf 3 "name"]]; SelWorlds.on 4 "Dog" [SelWorlds.node 4 "owner" [SelWorlds.leaf 4 "mood"]];
                 SelWorlds.on 5 "Eel" [SelWorlds.node 5 "owner" [SelWorlds.leaf 5 "name"]]]].
Definition mixed_decls : list decl :=
  [DObj "Q_pet_owner" [prop "name" (XName "string")];
   DObj "Q_pet" [prop "__typename" (XUnion (XUnion (XLit "Cat") (XLit "Dog")) (XLit "Eel")); prop "owner" (XName "Q_pet_owner")];
   DObj "Q" [prop "pet" (XName "Q_pet")]].
Theorem C95_refuted : exists ws co M,
  document_file 20 (farm_cx []) plain_config plain_order (query mixed_sels) ws co /\ valid_sels farm [] "Query" mixed_sels /\
  only_reads (co_contents co) M /\ module_types M = mixed_decls /\ ~ narrows farm [] mixed_decls "Query" (fun x => In x mixed_sels) "Q".
Proof.
  do 3 eexists. split; [eexists; split; vm_compute; reflexivity|]. split; [apply (validb_ok farm [] 9); vm_compute; reflexivity|].
  split; [unfold only_reads; apply (reads_once 2000); vm_compute; reflexivity|]. split; [reflexivity|]. intros K.
  assert (Al : forall main (alts : list (string * (list string * list member))) n ts ms, alternatives mixed_decls main (List.map fst alts) ->
    In (n, (ts, ms)) alts -> n = main).
  { intros main alts n ts ms [A|A] I; [|cbn in A; intuition discriminate]. destruct alts as [|a [|? ?]]; try discriminate A. cbn in A. injection A as A.
    destruct I as [I|[]]. subst a. exact A. }
  inversion K as [P M main alts A N0 X Po U0 Ke0 Ac0 IH]; subst.
  destruct (proj1 (Po "Query") (proj1 (possibles_ok farm "Query" "Query") (or_introl eq_refl))) as (n & ts & ms & I & J).
  pose proof (Al _ _ _ _ _ A I) as ->. destruct (X _ _ _ I) as (Im & _).
  cbn in Im. destruct Im as [Im|[Im|[Im|[]]]]; try discriminate Im. injection Im as <-.
  assert (F1 : focc farm [] "Query" "Query" (fun x => In x mixed_sels) "pet" (match field_get farm "Query" "pet" with Some f => f | None => root_field end)
     [SelWorlds.leaf 2 "__typename"; SelWorlds.on 3 "Cat" [SelWorlds.node 3 "owner" [SelWorlds.leaf 3 "name"]]; SelWorlds.on 4 "Dog" [SelWorlds.node 4 "owner" [SelWorlds.leaf 4 "mood"]]; SelWorlds.on 5 "Eel" [SelWorlds.node 5 "owner" [SelWorlds.leaf 5 "name"]]]).
  { eexists _, _. split; [eapply (occ_field _ _ _ _ _ _ None); left; reflexivity|]. apply field_get_ok. reflexivity. }
  assert (K2 := IH _ _ _ _ _ _ _ "Q_pet" I J (or_introl eq_refl) F1 (proj1 (compositeb_ok farm "Pet") eq_refl) eq_refl). clear K A N0 X Po U0 Ke0 Ac0 IH I J F1 alts ts.
  change (narrows farm [] mixed_decls "Pet" (merged (focc farm [] "Query" "Query" (fun x => In x mixed_sels)) "pet" "Pet") "Q_pet") in K2.
  set (M2 := merged _ "pet" "Pet") in K2.
  assert (F2 : focc farm [] "Dog" "Pet" M2 "owner" (match field_get farm "Dog" "owner" with Some f => f | None => root_field end) [SelWorlds.leaf 4 "mood"]).
  { eexists "Dog", "owner". split; [|apply field_get_ok; reflexivity]. eapply (occ_inline _ _ _ _ _ (at_pos 4 3) "Dog" []).
    - eexists _, _. split; [eexists _, _; split; [eapply (occ_field _ _ _ _ _ _ None); left; reflexivity|apply field_get_ok; reflexivity]|].
      split; [reflexivity|]. right. right. left. reflexivity.
    - apply possibles_ok. left; reflexivity.
    - eapply (occ_field _ _ _ _ _ _ None); left; reflexivity. }
  inversion K2 as [P M main alts A N0 X Po U0 Ke0 Ac0 IH]; subst.
  destruct (proj1 (Po "Dog") (proj1 (possibles_ok farm "Pet" "Dog") (or_introl eq_refl))) as (n & ts & ms & I & J).
  pose proof (Al _ _ _ _ _ A I) as ->. destruct (X _ _ _ I) as (Im & _).
  cbn in Im. destruct Im as [Im|[Im|[Im|[]]]]; try discriminate Im. injection Im as <-.
  assert (K3 := IH _ _ _ _ _ _ _ "Q_pet_owner" I J (or_intror (or_introl eq_refl)) F2 (proj1 (compositeb_ok farm "User") eq_refl) eq_refl). clear K2 A N0 X Po U0 Ke0 Ac0 IH I J alts ts.
  change (narrows farm [] mixed_decls "User" (merged (focc farm [] "Dog" "Pet" M2) "owner" "User") "Q_pet_owner") in K3.
  inversion K3 as [P M main alts A N0 X Po U0 Ke Ac0 IH]; subst.
  destruct (proj1 (Po "User") (proj1 (possibles_ok farm "User" "User") (or_introl eq_refl))) as (n & ts & ms & I & J).
  pose proof (Al _ _ _ _ _ A I) as ->. destruct (X _ _ _ I) as (Im & _).
  cbn in Im. destruct Im as [Im|[Im|[Im|[]]]]; try discriminate Im. injection Im as <-.
  enough (Y : In "mood" ["name"]) by (cbn in Y; intuition discriminate). apply (Ke _ _ _ "User" "mood" I J).
  eexists _, []. eexists "User", "mood". split; [|apply field_get_ok; reflexivity].
  eapply (occ_field _ _ _ _ _ _ None). eexists _, _. split; [exact F2|]. split; [reflexivity|left; reflexivity].
Qed.
Print Assumptions C95_refuted.
