(** C07: the output does not depend on the iteration order of hash maps. *)
From Verif Require Import CollectEq FragExt DescFacts RunDet ImportProps ImportWorlds PropC18 PropC31.

(** *** Any document, any schema: at most the order of same-named properties varies *)
Theorem C07_collection : forall n n' cx cx' d ws op ws' r',
  csame cx cx' -> compile_definition n cx d = Some (ws, Ok op) -> compile_definition n' cx' d = Some (ws', r') ->
  exists op', r' = Ok op' /\ op_name op' = op_name op /\ op_kind op' = op_kind op /\
    op_variables op' = op_variables op /\ ieq_cs (op_collection op) (op_collection op').
Proof.
  intros n n' cx cx' d ws op ws' r' S H H'.
  assert (X : forall c p l par q w cs, new_ctrav (cx_schema cx) c p = Ok par -> collect n cx [0] l par RootLocal = Some (q, w, []) ->
    collection_of (cx_order cx) [1] q = Ok cs -> forall q' w' es', collect n' cx' [0] l par RootLocal = Some (q', w', es') ->
    es' = [] /\ exists cs', collection_of (cx_order cx') [1] q' = Ok cs' /\ ieq_cs cs cs').
  { intros c p l par q w cs En Ec Eo q' w' es' Ec'.
    destruct (proj1 (collect_good n n' cx cx' S) [0] [0] l par par RootLocal q w _ (fresh_crel _ _ _ _ En) Ec Ec') as [E R].
    cbn [fst snd] in *. split; auto. unfold collection_of in *.
    destruct (type_ir (cx_order cx) [1] root_field (ftrav_of_ctrav q)) as [ty|] eqn:Et; [|discriminate].
    destruct (type_ir_good (cx_order cx) (cx_order cx') (cs_order _ _ S) (cs_order' _ _ S) _ _ (crel_teq _ _ R) _ _ [1] _ Et) as (ty' & Et' & I).
    rewrite Et'. inversion I as [|?|?|cs0 cs0' I']; subst; injection Eo as <-; eexists; split; try reflexivity; auto; constructor. }
  destruct d as [[p l|k p nm vars dirs l]|f]; cbn [compile_definition build_from_operation] in H, H'; [discriminate| |].
  - rewrite <- (cs_schema _ _ S) in H'. destruct (new_ctrav (cx_schema cx) (op_type_name k) p) as [par|] eqn:En; [|discriminate].
    destruct (collect n cx [0] l par RootLocal) as [[[q w] [|e es]]|] eqn:Ec; try discriminate.
    destruct (collection_of (cx_order cx) [1] q) as [cs|] eqn:Eo; [|discriminate].
    destruct (collect n' cx' [0] l par RootLocal) as [[[q' w'] es']|] eqn:Ec'; [|discriminate].
    destruct (X _ _ _ _ _ _ _ En Ec Eo _ _ _ Ec') as (-> & cs' & Eo' & I). rewrite Eo' in H'.
    destruct (try_build_variable_ir (cx_schema cx) vars); [|discriminate]. injection H as _ <-. injection H' as _ <-.
    eexists. cbn. auto 6.
  - rewrite <- (cs_schema _ _ S) in H'. destruct (new_ctrav (cx_schema cx) (fr_cond f) (fr_pos f)) as [par|] eqn:En; [|discriminate].
    destruct (collect n cx [0] (fr_sels f) par RootLocal) as [[[q w] [|e es]]|] eqn:Ec; try discriminate.
    destruct (collection_of (cx_order cx) [1] q) as [cs|] eqn:Eo; [|discriminate].
    destruct (collect n' cx' [0] (fr_sels f) par RootLocal) as [[[q' w'] es']|] eqn:Ec'; [|discriminate].
    destruct (X _ _ _ _ _ _ _ En Ec Eo _ _ _ Ec') as (-> & cs' & Eo' & I). rewrite Eo' in H'.
    injection H as _ <-. injection H' as _ <-. eexists. cbn. auto 6.
Qed.
Print Assumptions C07_collection.

(** *** Nothing varies when no response key is ambiguous *)
Section Exact.
  Variable s : schema.
  Variable frags : amap string fragdef.
  Hypothesis cons_ok : consistent s.

  Lemma each_names es es' : ieq_each es es' -> List.map irf_prop es = List.map irf_prop es'.
  Proof. induction 1; cbn; f_equal; auto. Qed.

  Definition exact_entry (O : occset) (y : irfield) : Prop := exists x, y = mk_irfield x /\ entry_fits s frags O x.
  Lemma ieq_exact :
    (forall t t', ieq t t' -> forall f M, ty_ok s frags f M t -> kind_agrees s f ->
       (composite s (ft_name (sf_type f)) -> unambiguous s frags (ft_name (sf_type f)) M) -> t = t') /\
    (forall cs cs', ieq_cs cs cs' -> forall P M,
       (forall T fs, In (IRComplex T fs) cs -> fields_ok s frags (focc s frags T P M) fs /\ amb_occ s frags (focc s frags T P M)) -> cs = cs') /\
    (forall fs fs', ieq_fs fs fs' -> forall T P M, fields_ok s frags (focc s frags T P M) fs -> amb_occ s frags (focc s frags T P M) -> fs = fs') /\
    (forall es es', ieq_each es es' -> forall O, Forall (exact_entry O) es -> amb_occ s frags O -> es = es').
  Proof.
    apply ieq_mutind; try reflexivity.
    - intros cs cs' _ IH f M Ty K U. inversion Ty as [| | |? ? ? Cx Cok]; subst. f_equal.
      inversion Cok as [P M0 cs0 So Nd Ps Fs]; subst.
      assert (Cm : composite s (ft_name (sf_type f))) by (apply kind_composite; auto).
      specialize (U Cm). inversion U as [P0 M0 U1 U2]; subst. apply (IH (ft_name (sf_type f)) M). intros T fs I.
      assert (Po : possible s (ft_name (sf_type f)) T) by (apply Ps; apply in_map_iff; exists (IRComplex T fs); auto).
      split; auto. split; eauto.
    - intros T fs fs' cs cs' _ IHf _ IHc P M H. f_equal.
      + f_equal. destruct (H T fs (or_introl eq_refl)). eapply IHf; eauto.
      + apply (IHc P M). intros. apply H. right. auto.
    - intros fs fs' es es' S S' Pm Pm' E IH T P M F A. inversion F as [O l So Nd Fo Ty Cv EO Efs].
      assert (Fe : Forall (exact_entry (focc s frags T P M)) es).
      { apply Forall_forall. intros y I. apply (Permutation_in _ (Permutation_sym Pm)) in I. rewrite <- Efs in I. apply in_map_iff in I.
        destruct I as (x & <- & I). exists x. split; auto. pose proof (entries_fit s frags cons_ok T P M l Fo Ty) as Z.
        rewrite Forall_forall in Z. auto. }
      specialize (IH _ Fe A). subst es'. try rewrite Efs. apply (sorted_perm_eq irf_prop); [exact S|exact S'| |].
      + rewrite <- Efs, props_of_entries. eapply keys_nodup; eauto.
      + eapply perm_trans; [exact Pm|apply Permutation_sym; auto].
    - intros k doc dep m ms t t' es es' _ IH _ IH' O F A. inversion F as [|? ? (x & Ex & Fx) F']; subst. f_equal; [f_equal|eauto].
      destruct x as [[k0 f0] t0]. cbn [mk_irfield] in Ex. injection Ex as -> -> -> -> -> ->. destruct Fx as ((ss & Fk) & K & Ty). cbn [fst snd] in *.
      eapply IH; eauto. intros C. eapply (proj2 A); eauto.
  Qed.

  Lemma coll_exact P M cs cs' : ieq_cs cs cs' -> coll_ok s frags P M cs -> unambiguous s frags P M -> cs = cs'.
  Proof.
    intros I C U. apply (proj1 (proj2 ieq_exact) _ _ I P M). inversion C as [P0 M0 cs0 So Nd Ps Fs]; subst.
    inversion U as [P0 M0 U1 U2]; subst. intros T fs J.
    assert (Po : possible s P T) by (apply Ps; apply in_map_iff; exists (IRComplex T fs); auto).
    split; auto. split; eauto.
  Qed.
End Exact.

(** One compilation of the document, as a module text and its globals, is every compilation *)
Theorem C07_partial : forall n cx c o d ws co P l,
  consistent (cx_schema cx) -> order_ok (cx_order cx) -> order_ok o ->
  document_file n cx c o d ws co -> doc_root d = Some (P, l) -> is_subscription d = false ->
  frags_valid (cx_schema cx) (cx_frags cx) l ->
  unambiguous (cx_schema cx) (cx_frags cx) P (fun x => In x l) ->
  forall cx' o', csame cx cx' -> order_ok o' ->
    (exists m, forall n', m <= n' -> exists ws', document_file n' cx' c o' d ws' co) /\
    (forall n' ws' r', compile_definition n' cx' d = Some (ws', r') ->
       exists op', r' = Ok op' /\ compile_ir c o' (cx_schema cx') op' = Ok co).
Proof.
  intros n cx c o d ws co P l Co O Oo (op & Hd & Hi) Dr Su Fv U cx' o' S Oo'.
  destruct (document_collected _ _ _ _ _ _ _ O Co Hd Dr Su Fv) as [V K].
  assert (Y : forall n' ws' r', compile_definition n' cx' d = Some (ws', r') ->
       exists op', r' = Ok op' /\ compile_ir c o' (cx_schema cx') op' = Ok co).
  { intros n' ws' r' H. destruct (C07_collection _ _ _ _ _ _ _ _ _ S Hd H) as (op' & -> & En & Ek & Ev & I).
    exists op'. split; auto. pose proof (coll_exact _ _ Co _ _ _ _ I K U) as E.
    assert (op' = op) as ->. { destruct op, op'. cbn in *. congruence. }
    rewrite <- (cs_schema _ _ S). rewrite (compile_ir_eq c o Oo) in Hi. rewrite (compile_ir_eq c o' Oo'). exact Hi. }
  split; auto.
  assert (T : exists m, forall n', m <= n' -> compile_definition n' cx' d <> None).
  { pose proof (code_root_doc d Su) as E. rewrite Dr in E. destruct (code_root d) as [[[Q p] l0]|] eqn:Rt; [|discriminate].
    cbn in E. injection E as -> ->.
    pose proof (compile_result cx O Co _ _ _ _ Hd) as R. inversion R as [| | | |P0 p0 l0 ws0 op0 Rt' C X Ev Sh En Ek]; subst.
    rewrite Rt in Rt'. injection Rt' as <- <- <-.
    assert (V' : valid_sels (cx_schema cx') (cx_frags cx') P l) by (rewrite <- (cs_schema _ _ S); apply (valid_ext _ _ _ (cs_frags _ _ S)); auto).
    assert (Co' : consistent (cx_schema cx')) by (rewrite <- (cs_schema _ _ S); auto).
    assert (C' : composite (cx_schema cx') P) by (rewrite <- (cs_schema _ _ S); auto).
    destruct (collection_valid cx' (cs_order' _ _ S) Co' P l p C' V') as [m Hm]. exists m. intros n' L.
    destruct (Hm n' L [0] [1] RootLocal) as (par & Ep & par' & w & cs & Ec & Eo & _).
    destruct d as [[? ?|k q nm vars dirs sels]|f]; cbn in Rt; inversion Rt; subst; cbn [compile_definition build_from_operation].
    - rewrite Ep, Ec, Eo. destruct (try_build_variable_ir (cx_schema cx') vars); discriminate.
    - rewrite Ep, Ec, Eo. discriminate. }
  destruct T as [m Hm]. exists m. intros n' L. specialize (Hm n' L).
  destruct (compile_definition n' cx' d) as [[ws' r']|] eqn:E; [|congruence].
  destruct (Y _ _ _ E) as (op' & -> & Hi'). exists ws', op'. auto.
Qed.
Print Assumptions C07_partial.

(** The hypotheses are met by a document with fragments, aliases, interfaces and unions; the second
    context iterates all its maps backwards *)
Example C07_nonvacuous : exists ws co, document_file 20 (farm_cx [pet_name]) plain_config plain_order (query good_sels) ws co /\
  csame (farm_cx [pet_name]) {| cx_schema := farm; cx_deprecations := cx_deprecations (farm_cx [pet_name]);
     cx_frags := cx_frags (farm_cx [pet_name]); cx_order := back_order |} /\
  consistent farm /\ frags_valid farm [("PetName", pet_name)] good_sels /\
  unambiguous farm [("PetName", pet_name)] "Query" (fun x => In x good_sels).
Proof.
  do 2 eexists. split; [eexists; split; vm_compute; reflexivity|]. split; [|split; [exact farm_consistent|split; [exact good_frags|]]].
  - constructor; auto; [exact plain_ok|exact back_ok].
  - apply (regular_unambiguous _ _ _ _ good_regular).
Qed.

(** Without the condition: two fields of different types under one key come out in hash order *)
Theorem C07_refuted : exists cx cx' ws ws' co co',
  csame cx cx' /\ consistent (cx_schema cx) /\
  document_file 20 cx plain_config plain_order (query twice_sels) ws co /\
  document_file 20 cx' plain_config plain_order (query twice_sels) ws' co' /\
  co_contents co <> co_contents co'.
Proof.
  exists (farm_cx []), {| cx_schema := farm; cx_deprecations := cx_deprecations (farm_cx []); cx_frags := []; cx_order := back_order |}.
  do 4 eexists. split; [constructor; auto; [exact plain_ok|exact back_ok]|]. split; [exact farm_consistent|].
  split; [eexists; split; vm_compute; reflexivity|]. split; [eexists; split; vm_compute; reflexivity|].
  vm_compute. discriminate.
Qed.
Print Assumptions C07_refuted.

(** *** Messages, of any document with a consistent schema *)
Theorem C07_messages : forall n n' cx cx' d ws r ws' r',
  csame cx cx' -> consistent (cx_schema cx) ->
  compile_definition n cx d = Some (ws, r) -> compile_definition n' cx' d = Some (ws', r') ->
  Forall2 wsame ws ws' /\
  match r, r' with
  | Ok op, Ok op' => op_name op' = op_name op /\ op_kind op' = op_kind op /\ op_variables op' = op_variables op /\
                     ieq_cs (op_collection op) (op_collection op')
  | Err es, Err es' => Forall2 esame es es'
  | _, _ => False
  end.
Proof.
  intros n n' cx cx' d ws r ws' r' S Co H H'. pose proof (cs_schema _ _ S) as Es. pose proof (cs_dep _ _ S) as Ed.
  assert (Co' : consistent (cx_schema cx')) by (rewrite <- Es; auto).
  pose proof (compile_result cx (cs_order _ _ S) Co _ _ _ _ H) as R. pose proof (compile_result cx' (cs_order' _ _ S) Co' _ _ _ _ H') as R'.
  assert (Dt : forall P l w e w' e', crun (cx_schema cx) (cx_frags cx) (cx_deprecations cx) RootLocal P (possible (cx_schema cx) P) l w e ->
    crun (cx_schema cx') (cx_frags cx') (cx_deprecations cx') RootLocal P (possible (cx_schema cx') P) l w' e' ->
    Forall2 wsame w w' /\ Forall2 esame e e').
  { rewrite <- Es, <- Ed. intros P l w e w' e' A B.
    destruct (run_det (cx_schema cx) (cx_frags cx) (cx_frags cx') (cs_frags _ _ S) (cx_deprecations cx)) as (_ & _ & X).
    eapply X; eauto. tauto. }
  assert (Fst : Forall2 wsame ws ws' /\ (forall es es', r = Err es -> r' = Err es' -> Forall2 esame es es')).
  { inversion R as [p l Ea|P p l e Rt Nc B|P p l w es Rt C Ne X|P p l w v Rt C X Ev|P p l w op Rt C X Ev Sh En Ek]; subst;
    inversion R' as [p' l' Ea'|P' p' l' e' Rt' Nc' B'|P' p' l' w' es' Rt' C' Ne' X'|P' p' l' w' v' Rt' C' X' Ev'|P' p' l' w' op' Rt' C' X' Ev' Sh' En' Ek'];
    subst; try discriminate; try (rewrite Rt in Rt'; injection Rt' as <- <- <-); try contradiction;
    try (rewrite <- Es in Nc'; contradiction).
    all: try (destruct (Dt _ _ _ _ _ _ X X') as [A B]).
    all: try (split; [first [exact A|constructor]|]; intros es0 es0' Q Q'; try discriminate; injection Q as <-; injection Q' as <-;
       first [exact B|constructor; [|constructor]]).
    all: try (inversion B; congruence).
    all: try congruence.
    - injection Ea' as <- _. constructor.
    - rewrite <- Es in B'. rewrite (bad_cond_fun _ _ _ _ _ B B'). constructor.
    - rewrite <- Es in Ev'. rewrite Ev in Ev'. injection Ev' as <-. constructor. }
  destruct Fst as [Fw Fe]. split; auto. destruct r as [op|es], r' as [op'|es']; auto.
  - destruct (C07_collection _ _ _ _ _ _ _ _ _ S H H') as (op1 & E & X). injection E as <-. exact X.
  - destruct (C07_collection _ _ _ _ _ _ _ _ _ S H H') as (op1 & E & X). discriminate.
  - destruct (C07_collection _ _ _ _ _ _ _ _ _ (csame_sym _ _ S) H' H) as (op1 & E & X). discriminate.
Qed.
Print Assumptions C07_messages.
(** The alternatives a message lists do come in hash order, so the texts can differ *)
Theorem C07_messages_refuted : exists cx cx' d ws ws' es es',
  csame cx cx' /\ consistent (cx_schema cx) /\
  compile_definition 20 cx d = Some (ws, Err es) /\ compile_definition 20 cx' d = Some (ws', Err es') /\
  List.map (ir_error_message (fun _ _ => true) "" "") es <> List.map (ir_error_message (fun _ _ => true) "" "") es'.
Proof.
  exists (farm_cx []), {| cx_schema := farm; cx_deprecations := cx_deprecations (farm_cx []); cx_frags := []; cx_order := back_order |},
    (query [node 2 "pet" [leaf 3 "nam"]]).
  do 4 eexists. split; [constructor; auto; [exact plain_ok|exact back_ok]|]. split; [exact farm_consistent|].
  split; [vm_compute; reflexivity|]. split; [vm_compute; reflexivity|]. vm_compute. discriminate.
Qed.
Print Assumptions C07_messages_refuted.

(** *** Whole files *)
(** The same environment with other iteration orders *)
Definition reorder (e : env) (ord : string -> order) : env :=
  {| env_parse := env_parse e; env_locate := env_locate e; env_write := env_write e; env_similar := env_similar e; env_order := ord |}.
(** [frags] holds the fragments of the files reachable by imports; so no two of them share a name *)
Definition imported_fragments (e : env) (f : fs) (c : cconfig) (path contents : string) (frags : amap string fragdef) : Prop :=
  forall n fd, aget n frags = Some fd <-> exists t o, reach e f c path contents t o /\ holds_fragment e o fd /\ fr_name fd = n.

Lemma add_imports_reorder e ord f c k : forall file contents im ms,
  add_imports k (reorder e ord) f c file contents im ms = add_imports k e f c file contents im ms.
Proof.
  induction k as [|k IH]; intros file contents im ms; [reflexivity|]. rewrite !add_imports_S. generalize 0. revert im ms.
  induction (lines contents) as [|line ls IHl]; intros im ms n; [reflexivity|]. cbn [imp_loop].
  destruct (is_empty line || is_empty (trim line)); auto.
  destruct (negb (starts_with import_start line)); [destruct (starts_with "#" line); auto|].
  destruct (import_target c line (path_pop file)) as [t|]; auto.
  change (read_file (reorder e ord) f t) with (read_file e f t). destruct (read_file e f t) as [other|m]; auto.
  rewrite IH. destruct (add_imports k e f c t other im ms) as [[im' ms']| |]; auto.
Qed.
Lemma foreign_is fuel e f c path contents im ms frags ms1 ifrags : order_ok (env_order e path) -> paths_agree e f ->
  add_imports fuel e f c path contents [] [] = Done (im, ms) -> parse_foreign e path im ms = (frags, ms1) ->
  imported_fragments e f c path contents ifrags -> forall n, aget n frags = aget n ifrags.
Proof.
  intros O Ag Im Pf If n. destruct (aget n frags) as [fd|] eqn:E.
  - symmetry. apply If. eapply stage_frag_sound; eauto.
  - destruct (aget n ifrags) as [fd|] eqn:E'; auto. apply If in E'. destruct E' as (t & o & R & Hf & <-).
    exfalso. eapply stage_frag_complete; eauto.
Qed.
Lemma reach_reorder e ord f c path contents t o : reach (reorder e ord) f c path contents t o <-> reach e f c path contents t o.
Proof. split; (induction 1; [eapply reach_one|eapply reach_more]; eauto). Qed.

Theorem C07_file : forall fuel e f c s path contents d frags P l f1 r ord,
  (forall q, order_ok (env_order e q)) -> (forall q, order_ok (ord q)) -> consistent s -> paths_agree e f ->
  f (env_locate e path) = Ok contents -> env_parse e contents = Ok [d] -> doc_root d = Some (P, l) -> is_subscription d = false ->
  imported_fragments e f c path contents frags ->
  frags_valid s frags l -> unambiguous s frags P (fun x => In x l) ->
  compile_file fuel e f c s path = Done (f1, Ok r) ->
  (exists m, forall n, m <= n -> exists f2 r2, compile_file n (reorder e ord) f c s path = Done (f2, Ok r2)) /\
  (forall n f2 x, compile_file n (reorder e ord) f c s path = Done (f2, x) ->
     (forall q, f2 q = f1 q) /\ exists r2, x = Ok r2 /\ rp_globals r2 = rp_globals r).
Proof.
  intros fuel e f c s path contents d frags P l f1 r ord O O2 Co Ag Rd Pa Dr Su If Fv U H.
  apply compile_file_ok in H. destruct H as (ms & co & C & W & ->).
  destruct C as (contents' & d' & im & ms0 & fr1 & ms1 & ws & op & Rd' & Pa' & Im & Pf & Ec & Ei & _).
  rewrite Rd in Rd'. injection Rd' as <-.
  assert (d' = d) as ->. { unfold parse_file in Pa'. rewrite Pa in Pa'. congruence. }
  pose proof (foreign_is _ _ _ _ _ _ _ _ _ _ _ (O path) Ag Im Pf If) as E1.
  destruct (parse_foreign (reorder e ord) path im ms0) as [fr2 ms2] eqn:Pf2.
  assert (E2 : forall n, aget n fr2 = aget n frags).
  { apply (foreign_is fuel (reorder e ord) f c path contents im ms0 fr2 ms2 frags (O2 path)); auto.
    - rewrite add_imports_reorder. auto.
    - intros n fd. rewrite (If n fd). split; intros (t & o & R & X); exists t, o; (split; [|exact X]); apply reach_reorder in R || apply reach_reorder; auto. }
  assert (S : csame (file_ctx e c s path fr1) (file_ctx (reorder e ord) c s path fr2)).
  { constructor; auto; cbn [cx_frags file_ctx cx_order]; try (intros q A m; first [apply O|apply O2]). intros n. rewrite E1, E2. auto. }
  destruct (C07_partial fuel (file_ctx e c s path fr1) c (suborder (env_order e path) [2; 0]) d ws co P l) with
    (cx' := file_ctx (reorder e ord) c s path fr2) (o' := suborder (ord path) [2; 0]) as [[m Hm] Hu]; auto.
  { intros q A m; apply O. } { intros q A m; apply O. } { exists op. auto. }
  { apply (frags_valid_ext s frags fr1); auto. } { apply (unambiguous_ext s frags fr1 ltac:(auto) P (fun x => In x l)); auto. tauto. }
  { intros q A k. apply O2. }
  pose proof (write_file_ok e f (with_extension path "graphql.d.ts") (co_contents co) f1) as Wo.
  split.
  - exists (Nat.max m fuel). intros n L. destruct (Hm n ltac:(lia)) as (ws2 & op2 & Ec2 & Ei2).
    eexists _, _. apply compile_file_ok. do 2 eexists. split.
    + exists contents, d, im, ms0, fr2, ms2, ws2, op2. split; [exact Rd|]. split; [exact Pa'|].
      split; [rewrite add_imports_reorder, (add_imports_mono e f c fuel n); [exact Im|lia|congruence]|]. split; [exact Pf2|].
      split; [exact Ec2|]. split; [exact Ei2|]. reflexivity.
    + split; [|reflexivity]. exact W.
  - intros n f2 x H. unfold compile_file in H. change (read_file (reorder e ord) f path) with (read_file e f path) in H.
    unfold read_file in H. rewrite Rd in H. change (parse_file (reorder e ord) contents path) with (parse_file e contents path) in H.
    rewrite Pa', add_imports_reorder in H. destruct (add_imports n e f c path contents [] []) as [[im2 ms02]| |] eqn:Im2; try discriminate.
    assert ((im2, ms02) = (im, ms0)) as E.
    { assert (X : forall k j, k <= j -> add_imports k e f c path contents [] [] <> Diverges -> add_imports j e f c path contents [] [] = add_imports k e f c path contents [] [])
        by (intros; apply add_imports_mono; auto).
      destruct (Nat.le_ge_cases n fuel) as [L|L].
      - rewrite (X n fuel L) in Im by congruence. congruence.
      - rewrite (X fuel n L) in Im2 by congruence. congruence. }
    injection E as -> ->. rewrite Pf2 in H. fold (file_ctx (reorder e ord) c s path fr2) in H.
    change {| cx_schema := s; cx_deprecations := cc_deprecations c; cx_frags := fr2; cx_order := suborder (env_order (reorder e ord) path) [1; 0] |}
      with (file_ctx (reorder e ord) c s path fr2) in H.
    destruct (compile_definition n (file_ctx (reorder e ord) c s path fr2) d) as [[ws2 r2]|] eqn:Ec2; [|discriminate].
    destruct (Hu _ _ _ Ec2) as (op2 & -> & Ei2). cbn [file_ctx cx_schema] in Ei2. cbn [env_order reorder] in H. rewrite Ei2 in H.
    change (write_file (reorder e ord) f (with_extension path "graphql.d.ts") (co_contents co))
      with (write_file e f (with_extension path "graphql.d.ts") (co_contents co)) in H.
    rewrite W in H. injection H as <- <-. split; auto. eexists. split; reflexivity.
Qed.
Print Assumptions C07_file.

(** A file that imports a fragment, directly and through another file, meets the hypotheses *)
Lemma chain_fragments : imported_fragments letter_env (chain "S" "F" "F") tiny_config "./a.graphql" (import_line "b.graphql" +++ "S") [("F", tiny_fragment)].
Proof.
  destruct C31_nonvacuous as (O & Ag & im & ms & frags & ms1 & Im & Pf & _ & _).
  assert (One : forall o fd, holds_fragment letter_env o fd -> fd = tiny_fragment).
  { intros o fd H. unfold holds_fragment in H. cbn [letter_env env_parse] in H. destruct (srev o) as [|a z]; [discriminate|].
    destruct (Ascii.eqb a "Q"); [discriminate|]. destruct (Ascii.eqb a "S"); [discriminate|]. destruct (Ascii.eqb a "F"); congruence. }
  assert (Ex : exists t o, reach letter_env (chain "S" "F" "F") tiny_config "./a.graphql" (import_line "b.graphql" +++ "S") t o /\
     holds_fragment letter_env o tiny_fragment).
  { assert (G : exists fd, aget "F" frags = Some fd).
    { vm_compute in Im. injection Im as <- <-. vm_compute in Pf. injection Pf as <- <-. eexists. reflexivity. }
    destruct G as (fd & G). destruct (stage_frag_sound _ _ _ _ _ _ _ _ _ _ O Im Pf _ _ G) as (t & o & R & Hf & _).
    rewrite (One _ _ Hf) in Hf. eauto. }
  intros n fd. split.
  - intros G. cbn [aget] in G. destruct (eqb n "F") eqn:E; [|discriminate]. injection G as <-. apply String.eqb_eq in E. subst n.
    destruct Ex as (t & o & R & Hf). exists t, o. auto.
  - intros (t & o & R & Hf & En). rewrite (One _ _ Hf) in *. subst n. reflexivity.
Qed.
Example C07_file_nonvacuous : exists f1 r,
  consistent tiny_loaded /\ paths_agree letter_env (chain "S" "F" "F") /\
  imported_fragments letter_env (chain "S" "F" "F") tiny_config "./a.graphql" (import_line "b.graphql" +++ "S") [("F", tiny_fragment)] /\
  frags_valid tiny_loaded [("F", tiny_fragment)] [SSpread p0 "F" []] /\
  unambiguous tiny_loaded [("F", tiny_fragment)] "Query" (fun x => In x [SSpread p0 "F" []]) /\
  compile_file 10 letter_env (chain "S" "F" "F") tiny_config tiny_loaded "./a.graphql" = Done (f1, Ok r).
Proof.
  do 2 eexists. split; [apply consistentb_ok; vm_compute; reflexivity|]. split; [apply C31_nonvacuous|]. split; [exact chain_fragments|].
  split; [|split].
  - intros n fd _ E. cbn [aget] in E. destruct (eqb n "F"); [|discriminate]. injection E as <-.
    split; [apply compositeb_ok; reflexivity|]. apply (validb_ok tiny_loaded [("F", tiny_fragment)] 9). vm_compute. reflexivity.
  - apply regular_unambiguous. apply (regularb_ok tiny_loaded [("F", tiny_fragment)] 12 "Query" [SSpread p0 "F" []]); [vm_compute; reflexivity|tauto].
  - vm_compute. reflexivity.
Qed.

(** Two imported files that define fragments of one name: which one counts depends on the order *)
Definition other_fragment : fragdef :=
  {| fr_pos := p0; fr_name := "F"; fr_cond := "Query"; fr_dirs := []; fr_sels := [SField p0 (Some "b") "a" [] [] []] |}.
Definition twin_env (o : order) : env :=
  {| env_parse := fun c => if String.eqb c "F" then Ok [DFrag tiny_fragment] else if String.eqb c "G" then Ok [DFrag other_fragment] else Ok [spread_query];
     env_locate := fun p => p; env_write := fun _ => WOk; env_similar := fun _ _ => false; env_order := fun _ => o |}.
Definition twin_files : fs := files
  [("./a.graphql", import_line "b.graphql" +++ import_line "c.graphql" +++ "S"); ("./b.graphql", "F"); ("./c.graphql", "G")].
Theorem C07_refuted_fragments : exists f1 r1 f2 r2,
  compile_file 10 (twin_env plain_order) twin_files tiny_config tiny_loaded "./a.graphql" = Done (f1, Ok r1) /\
  compile_file 10 (reorder (twin_env plain_order) (fun _ => back_order)) twin_files tiny_config tiny_loaded "./a.graphql" = Done (f2, Ok r2) /\
  unambiguous tiny_loaded [("F", tiny_fragment)] "Query" (fun x => In x [SSpread p0 "F" []]) /\
  unambiguous tiny_loaded [("F", other_fragment)] "Query" (fun x => In x [SSpread p0 "F" []]) /\
  f1 "./a.graphql.d.ts" <> f2 "./a.graphql.d.ts".
Proof.
  do 4 eexists. split; [vm_compute; reflexivity|]. split; [vm_compute; reflexivity|].
  split; [apply regular_unambiguous, (regularb_ok tiny_loaded [("F", tiny_fragment)] 12 "Query" [SSpread p0 "F" []]); [vm_compute; reflexivity|tauto]|].
  split; [apply regular_unambiguous, (regularb_ok tiny_loaded [("F", other_fragment)] 12 "Query" [SSpread p0 "F" []]); [vm_compute; reflexivity|tauto]|].
  vm_compute. discriminate.
Qed.
Print Assumptions C07_refuted_fragments.
