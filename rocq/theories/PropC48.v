(** C48: splitting, repeating and reordering selections is harmless. *)
From Verif Require Import Rewrite PropC18.

(** The document with other selections *)
Definition with_sels (d : definition) (l : list selection) : definition :=
  match d with
  | DOp (OpSelectionSet p _) => DOp (OpSelectionSet p l)
  | DOp (OpNamed k p n vs ds _) => DOp (OpNamed k p n vs ds l)
  | DFrag f => DFrag {| fr_pos := fr_pos f; fr_name := fr_name f; fr_cond := fr_cond f; fr_dirs := fr_dirs f; fr_sels := l |}
  end.

Lemma with_root d P l l' : doc_root d = Some (P, l) -> doc_root (with_sels d l') = Some (P, l').
Proof. destruct d as [[p m|k p n vs ds m]|f]; cbn; try destruct k; try discriminate; congruence. Qed.

(** A valid document that is not a subscription compiles to one operation *)
Lemma valid_operation cx d P l : order_ok (cx_order cx) -> consistent (cx_schema cx) -> doc_root d = Some (P, l) -> is_subscription d = false ->
  composite (cx_schema cx) P -> valid_sels (cx_schema cx) (cx_frags cx) P l ->
  forall vs, try_build_variable_ir (cx_schema cx) (doc_vars d) = Ok vs ->
  exists m, forall n, m <= n -> exists ws op, compile_definition n cx d = Some (ws, Ok op).
Proof.
  intros O Co Dr Su C V vs Ev. pose proof (code_root_doc d Su) as E. rewrite Dr in E. destruct (code_root d) as [[[Q p] l0]|] eqn:Rt; [|discriminate].
  cbn in E. injection E as -> ->. destruct (collection_valid cx O Co P l p C V) as [m Hm]. exists m. intros n L.
  destruct (Hm n L [0] [1] RootLocal) as (par & Ep & par' & w & cs & Ec & Eo & K).
  destruct d as [[? ?|k q nm vars dirs sels]|f]; cbn in Rt; inversion Rt; subst; cbn [compile_definition build_from_operation doc_vars] in *.
  - rewrite Ep, Ec, Eo, Ev. eauto.
  - rewrite Ep, Ec, Eo. eauto.
Qed.

(** Any two documents that differ in their selections only, and collect the same fields for every
    object type at every depth, compile to the same module *)
Theorem C48_collected : forall n cx c o d ws co P l l',
  consistent (cx_schema cx) -> order_ok (cx_order cx) -> order_ok o ->
  document_file n cx c o d ws co -> doc_root d = Some (P, l) -> is_subscription d = false ->
  frags_valid (cx_schema cx) (cx_frags cx) l -> settled (cx_schema cx) (cx_frags cx) P (fun x => In x l) ->
  valid_sels (cx_schema cx) (cx_frags cx) P l' ->
  alike (cx_schema cx) (cx_frags cx) same_data P (fun x => In x l) (fun x => In x l') ->
  (exists m, forall n', m <= n' -> exists ws', document_file n' cx c o (with_sels d l') ws' co) /\
  (forall n' ws' r', compile_definition n' cx (with_sels d l') = Some (ws', r') ->
     exists op', r' = Ok op' /\ compile_ir c o (cx_schema cx) op' = Ok co).
Proof.
  intros n cx c o d ws co P l l' Co O Oo (op & Hd & Hi) Dr Su Fv St V' Al.
  destruct (document_collected _ _ _ _ _ _ _ O Co Hd Dr Su Fv) as [V K].
  pose proof (compile_result cx O Co _ _ _ _ Hd) as R. inversion R as [| | | |P0 p l0 ws0 op0 Rt C X Ev Sh En Ek]; subst.
  pose proof (code_root_doc d Su) as E. rewrite Rt, Dr in E. cbn in E. injection E as -> ->.
  assert (Su' : is_subscription (with_sels d l') = false) by (destruct d as [[? ?|[| |] ? ? ? ? ?]|f]; auto).
  assert (Dr' : doc_root (with_sels d l') = Some (P, l')) by (eapply with_root; eauto).
  assert (Ev' : try_build_variable_ir (cx_schema cx) (doc_vars (with_sels d l')) = Ok (op_variables op)) by (destruct d as [[? ?|? ? ? ? ? ?]|f]; auto).
  destruct (valid_operation cx _ P l' O Co Dr' Su' C V' _ Ev') as [m Hm].
  assert (Same : forall n' ws' op', compile_definition n' cx (with_sels d l') = Some (ws', Ok op') -> op' = op).
  { intros n' ws' op' H'. pose proof (compile_result cx O Co _ _ _ _ H') as R'. inversion R' as [| | | |P1 p1 l1 ws1 op1 Rt1 C1 X1 Ev1 Sh1 En1 Ek1]; subst.
    assert (K' : coll_ok (cx_schema cx) (cx_frags cx) P (fun x => In x l') (op_collection op')).
    { destruct (collection_valid cx O Co P l' (doc_pos d) C V') as [q Hq].
      destruct (Hq (Nat.max q n') (Nat.le_max_l _ _) [0] [1] RootLocal) as (par & Ep & par' & w & cs & Ec & Eo & Kc).
      apply (compile_definition_mono _ _ _ (Nat.max q n') _ (Nat.le_max_r _ _)) in H'.
      destruct d as [[? ?|k pp nm vars dirs sels]|f]; cbn [with_sels compile_definition build_from_operation doc_pos fr_cond fr_pos fr_sels] in *; try discriminate.
      - cbn in Rt. injection Rt as <- _ _. rewrite Ep, Ec, Eo in H'. destruct (try_build_variable_ir _ _); [|discriminate]. injection H' as _ <-. exact Kc.
      - cbn in Rt. injection Rt as <- _ _. rewrite Ep, Ec, Eo in H'. injection H' as _ <-. exact Kc. }
    pose proof (coll_det (cx_schema cx) (cx_frags cx) Co same_data (fun _ _ H => H) _ _ _ Al St _ _ K K') as Ec.
    assert (En2 : def_name (with_sels d l') = def_name d) by (destruct d as [[? ?|? ? ? ? ? ?]|f]; auto).
    assert (Ek2 : def_kind (with_sels d l') = def_kind d) by (destruct d as [[? ?|? ? ? ? ? ?]|f]; auto).
    rewrite Ev' in Ev1. injection Ev1 as Ev1. destruct op, op'. cbn in *. congruence. }
  split.
  - exists m. intros n' L. destruct (Hm n' L) as (ws' & op' & H'). rewrite (Same _ _ _ H') in H'. exists ws', op. auto.
  - intros n' ws' r' H'. destruct (Hm (Nat.max m n') (Nat.le_max_l _ _)) as (ws2 & op2 & H2).
    rewrite (compile_definition_mono _ _ _ _ _ (Nat.le_max_r m n') H') in H2. injection H2 as -> ->.
    exists op2. split; auto. rewrite (Same _ _ _ H'). auto.
Qed.
Print Assumptions C48_collected.

Section Steps.
  Variable s : schema.
  Variable frags : amap string fragdef.
  Lemma near_back P M' : settled s frags P M' -> forall M, near s frags P M M' -> settled s frags P M /\ alike s frags eq P M' M.
  Proof.
    induction 1 as [P M' H1 _ IH]. intros M N. split; constructor.
    - intros T k f ss f' ss' Po F F'. destruct (near_occ s frags _ _ _ _ N Po) as [A _].
      destruct (proj1 (A k f) (ex_intro _ ss F)) as (? & ?). destruct (proj1 (A k f') (ex_intro _ ss' F')) as (? & ?). eauto.
    - intros T k f ss Po F C. destruct (near_occ s frags _ _ _ _ N Po) as [A B]. destruct (proj1 (A k f) (ex_intro _ ss F)) as (ss' & F'). eapply IH; eauto.
    - intros T k f ss Po F. destruct (near_occ s frags _ _ _ _ N Po) as [A _]. destruct (proj2 (A k f) (ex_intro _ ss F)) as (ss' & F'). eauto.
    - intros T k f ss Po F. destruct (near_occ s frags _ _ _ _ N Po) as [A _]. destruct (proj1 (A k f) (ex_intro _ ss F)) as (ss' & F'). eauto.
    - intros T k f ss Po F C. destruct (near_occ s frags _ _ _ _ N Po) as [A B]. eapply IH; eauto.
  Qed.
  Lemma step_near_sets P l l' : step s frags P l l' -> near s frags P (fun x => In x l) (fun x => In x l').
  Proof. intros S. apply (near_step s frags P (fun _ => False) _ _ l l' S); intros x; unfold sor; tauto. Qed.
  Lemma alike_same P M M' : alike s frags eq P M M' -> alike s frags same_data P M M'.
  Proof.
    induction 1 as [P M M' A1 A2 _ IH]. constructor; auto.
    - intros T k f ss Po F. destruct (A1 _ _ _ _ Po F) as (f' & ss' & F' & ->). exists f', ss'. repeat split; auto.
    - intros T k f ss Po F. destruct (A2 _ _ _ _ Po F) as (f' & ss' & F' & ->). exists f, ss'. repeat split; auto.
  Qed.
  Lemma alike_trans P A B : alike s frags eq P A B -> forall C, alike s frags eq P B C -> alike s frags eq P A C.
  Proof.
    induction 1 as [P A B A1 A2 _ IH]. intros C H. inversion H as [? ? ? B1 B2 B3]; subst. constructor.
    - intros T k f ss Po F. destruct (A1 _ _ _ _ Po F) as (f' & ss' & F' & ->). eauto.
    - intros T k f ss Po F. destruct (B2 _ _ _ _ Po F) as (f' & ss' & F' & ->). eauto.
    - intros T k f ss Po F Cm. destruct (A1 _ _ _ _ Po F) as (f' & ss' & F' & <-). eapply IH; eauto.
  Qed.
  Lemma alike_refl P M : settled s frags P M -> alike s frags eq P M M.
  Proof. intros S. apply (near_alike s frags P M S). apply near_same. intros x. tauto. Qed.
  Lemma rewrites_alike P l l' : rewrites s frags P l l' -> composite s P -> valid_sels s frags P l -> settled s frags P (fun x => In x l) ->
    valid_sels s frags P l' /\ alike s frags eq P (fun x => In x l) (fun x => In x l').
  Proof.
    induction 1 as [P l|P l l' l'' S _ IH|P l l' l'' S _ IH]; intros C V St.
    - split; auto. apply alike_refl. auto.
    - destruct (near_alike s frags _ _ St _ (step_near_sets _ _ _ S)) as [A St']. destruct IH as [V' A']; auto.
      { apply (proj1 (step_valid s frags _ _ _ S C)); auto. } split; auto. eapply alike_trans; eauto.
    - destruct (near_back _ _ St _ (step_near_sets _ _ _ S)) as [St' A]. destruct IH as [V' A']; auto.
      { apply (proj2 (step_valid s frags _ _ _ S C)); auto. } split; auto. eapply alike_trans; eauto.
  Qed.
End Steps.

(** Repeating, reordering and splitting selections, wrapping them into inline fragments on the
    enclosing type, replacing an inline fragment by a spread of a fragment with the same content,
    changing positions, arguments and directives: anywhere, at any depth, any number of times, in
    either direction *)
Theorem C48_partial : forall n cx c o d ws co P l l',
  consistent (cx_schema cx) -> order_ok (cx_order cx) -> order_ok o ->
  document_file n cx c o d ws co -> doc_root d = Some (P, l) -> is_subscription d = false ->
  frags_valid (cx_schema cx) (cx_frags cx) l -> settled (cx_schema cx) (cx_frags cx) P (fun x => In x l) ->
  rewrites (cx_schema cx) (cx_frags cx) P l l' ->
  (exists m, forall n', m <= n' -> exists ws', document_file n' cx c o (with_sels d l') ws' co) /\
  (forall n' ws' r', compile_definition n' cx (with_sels d l') = Some (ws', r') ->
     exists op', r' = Ok op' /\ compile_ir c o (cx_schema cx) op' = Ok co).
Proof.
  intros n cx c o d ws co P l l' Co O Oo H Dr Su Fv St Rw.
  assert (Cm : composite (cx_schema cx) P).
  { destruct H as (op & Hd & _). pose proof (compile_result cx O Co _ _ _ _ Hd) as R. inversion R as [| | | |P0 p l0 ws0 op0 Rt C X Ev Sh En Ek]; subst.
    pose proof (code_root_doc d Su) as E. rewrite Rt, Dr in E. cbn in E. congruence. }
  assert (V : valid_sels (cx_schema cx) (cx_frags cx) P l) by (destruct H as (op & Hd & _); eapply document_collected; eauto).
  destruct (rewrites_alike _ _ _ _ _ Rw Cm V St) as [V' A]. eapply C48_collected; eauto. apply alike_same. auto.
Qed.
Print Assumptions C48_partial.

(** *** A concrete case *)
Definition undocumented (s : schema) : bool :=
  forallb (fun x => match st_def (snd x) with
                    | TObject fs | TInterface _ fs _ | TUnion _ _ fs =>
                        forallb (fun y => match sf_doc (snd y) with None => negb (sf_deprecated (snd y)) | _ => false end) fs
                    | _ => true
                    end) s.
Lemma undocumented_ok s : undocumented s = true -> forall P n f, field_of s P n f -> sf_doc f = None /\ sf_deprecated f = false.
Proof.
  intros H c n f (t & E & F). unfold undocumented in H. rewrite forallb_forall in H. apply aget_In in E. specialize (H _ E). cbn [snd] in H.
  assert (X : match sf_doc f with None => negb (sf_deprecated f) | _ => false end = true).
  { destruct (st_def t); try contradiction; rewrite forallb_forall in H; apply aget_In in F; apply (H _ F). }
  destruct (sf_doc f); [discriminate|]. split; auto. destruct (sf_deprecated f); auto; discriminate.
Qed.
Lemma regular_settled s frags : (forall P n f, field_of s P n f -> sf_doc f = None /\ sf_deprecated f = false) ->
  forall P M, regular s frags P M -> settled s frags P M.
Proof.
  intros U. induction 1 as [P M R1 R2 R3 IH]. constructor; auto. intros T k f ss f' ss' Po F F'. split; [eapply R1; eauto|].
  destruct F as (? & ? & _ & F). destruct F' as (? & ? & _ & F'). apply U in F, F'. destruct F, F'. split; congruence.
Qed.

(** The selections of [good_sels] split, wrapped, repeated and reordered *)
Definition good_again : list selection :=
  [SField (at_pos 12 3) (Some "all") "pets" [] [] [leaf 10 "__typename"];
   on 9 "Query" [SField (at_pos 9 3) (Some "all") "pets" [] [] [leaf 9 "name"]];
   node 2 "pet" [on 4 "Dog" [node 4 "owner" [leaf 4 "name"; on 2 "User" [node 5 "pet" [leaf 5 "__typename"; leaf 6 "name"]]]];
                 on 7 "Cat" [SField (at_pos 7 9) (Some "extent") "size" [] [] []];
                 on 3 "Pet" [leaf 1 "name"; on 2 "Dog" [node 2 "owner" [leaf 2 "mood"]]]]].
Example C48_nonvacuous : exists ws co ws',
  document_file 20 (farm_cx [pet_name]) plain_config plain_order (query good_sels) ws co /\
  settled farm [("PetName", pet_name)] "Query" (fun x => In x good_sels) /\
  rewrites farm [("PetName", pet_name)] "Query" good_sels good_again /\
  document_file 20 (farm_cx [pet_name]) plain_config plain_order (with_sels (query good_sels) good_again) ws' co.
Proof.
  do 3 eexists. split; [eexists; split; vm_compute; reflexivity|]. split; [|split].
  - apply regular_settled; [apply undocumented_ok; vm_compute; reflexivity|exact good_regular].
  - unfold good_sels, good_again.
    set (A := SField (at_pos 9 3) (Some "all") "pets" [] [] [leaf 9 "name"; leaf 10 "__typename"]).
    assert (Set' : forall x y l', rewrites farm [("PetName", pet_name)] "Query" [y; x] l' -> rewrites farm [("PetName", pet_name)] "Query" [x; y] l').
    { intros x y l' R. eapply rw_step; [apply st_set|exact R]. intros z. cbn. tauto. }
    (* inside pet *)
    eapply rw_step.
    { unfold node at 1. eapply (st_field _ _ "Query" (at_pos 2 3) None "pet" [] [] _ (at_pos 2 3) None [] []); [apply field_get_ok; vm_compute; reflexivity|reflexivity|].
      apply st_set. intros z. instantiate (1 := [on 4 "Dog" [node 4 "owner" [leaf 4 "name"; node 5 "pet" [leaf 5 "__typename"; leaf 6 "name"]]];
        on 7 "Cat" [SField (at_pos 7 9) (Some "extent") "size" [] [] []]; spread 3 "PetName"]). cbn. tauto. }
    eapply rw_step.
    { eapply (st_field _ _ "Query" (at_pos 2 3) None "pet" [] [] _ (at_pos 2 3) None [] []); [apply field_get_ok; vm_compute; reflexivity|reflexivity|].
      apply (st_inline _ _ "Pet" (at_pos 4 3) "Dog" [] _ (at_pos 4 3) []). eapply (st_field _ _ "Dog" (at_pos 4 3) None "owner" [] [] _ (at_pos 4 3) None [] []); [apply field_get_ok; vm_compute; reflexivity|reflexivity|].
      apply st_set. intros z. instantiate (1 := [node 5 "pet" [leaf 5 "__typename"; leaf 6 "name"]] ++ [leaf 4 "name"]). cbn. tauto. }
    eapply rw_step.
    { eapply (st_field _ _ "Query" (at_pos 2 3) None "pet" [] [] _ (at_pos 2 3) None [] []); [apply field_get_ok; vm_compute; reflexivity|reflexivity|].
      apply (st_inline _ _ "Pet" (at_pos 4 3) "Dog" [] _ (at_pos 4 3) []). eapply (st_field _ _ "Dog" (at_pos 4 3) None "owner" [] [] _ (at_pos 4 3) None [] []); [apply field_get_ok; vm_compute; reflexivity|reflexivity|].
      apply (st_wrap _ _ "User" (at_pos 2 3) []). discriminate. }
    eapply rw_step.
    { eapply (st_field _ _ "Query" (at_pos 2 3) None "pet" [] [] _ (at_pos 2 3) None [] []); [apply field_get_ok; vm_compute; reflexivity|reflexivity|].
      apply (st_inline _ _ "Pet" (at_pos 4 3) "Dog" [] _ (at_pos 4 3) []). eapply (st_field _ _ "Dog" (at_pos 4 3) None "owner" [] [] _ (at_pos 4 3) None [] []); [apply field_get_ok; vm_compute; reflexivity|reflexivity|].
      apply st_set. intros z. instantiate (1 := [leaf 4 "name"; on 2 "User" [node 5 "pet" [leaf 5 "__typename"; leaf 6 "name"]]]). cbn. tauto. }
    eapply rw_step.
    { eapply (st_field _ _ "Query" (at_pos 2 3) None "pet" [] [] _ (at_pos 2 3) None [] []); [apply field_get_ok; vm_compute; reflexivity|reflexivity|].
      apply st_set. intros z. instantiate (1 := [spread 3 "PetName"; on 4 "Dog" [node 4 "owner" [leaf 4 "name"; on 2 "User" [node 5 "pet" [leaf 5 "__typename"; leaf 6 "name"]]]];
        on 7 "Cat" [SField (at_pos 7 9) (Some "extent") "size" [] [] []]]). cbn. tauto. }
    eapply rw_back.
    { eapply (st_field _ _ "Query" (at_pos 2 3) None "pet" [] [] _ (at_pos 2 3) None [] []); [apply field_get_ok; vm_compute; reflexivity|reflexivity|].
      apply (st_spread _ _ "Pet" (at_pos 3 3) [] (at_pos 3 3) "PetName" [] pet_name). reflexivity. }
    eapply rw_step.
    { eapply (st_field _ _ "Query" (at_pos 2 3) None "pet" [] [] _ (at_pos 2 3) None [] []); [apply field_get_ok; vm_compute; reflexivity|reflexivity|].
      apply st_set. intros z. instantiate (1 := [on 4 "Dog" [node 4 "owner" [leaf 4 "name"; on 2 "User" [node 5 "pet" [leaf 5 "__typename"; leaf 6 "name"]]]];
        on 7 "Cat" [SField (at_pos 7 9) (Some "extent") "size" [] [] []]; on 3 "Pet" [leaf 1 "name"; on 2 "Dog" [node 2 "owner" [leaf 2 "mood"]]]]). cbn. tauto. }
    (* all *)
    apply Set'. eapply rw_step.
    { unfold A. apply (st_split _ _ "Query" (at_pos 9 3) (Some "all") "pets" [] [] [leaf 9 "name"] [leaf 10 "__typename"] (at_pos 12 3) (Some "all") [] []);
        [discriminate|discriminate|reflexivity]. }
    eapply rw_step.
    { apply (st_wrap _ _ "Query" (at_pos 9 3) [] [SField (at_pos 9 3) (Some "all") "pets" [] [] [leaf 9 "name"]]). discriminate. }
    eapply rw_step; [|apply rw_refl]. apply st_set. intros z. cbn. tauto.
  - eexists; split; vm_compute; reflexivity.
Qed.

(** Without the condition on documentation: reordering changes which description is written.  The
    field is described differently in the interface and in the object type. *)
Definition told_field (name text : string) (t : jtype) : jfield :=
  {| jf_name := name; jf_description := Some text; jf_type := t; jf_deprecated := None |}.
Definition told_json : jschema :=
  [object_type "Query" [plain_field "pet" (Worlds.nonnull (named_type "INTERFACE" "Pet"))];
   abstract_type "INTERFACE" "Pet" ["Dog"] (Some [told_field "name" "Pet name" (Worlds.nonnull sstring)]);
   object_type "Dog" [told_field "name" "Dog name" (Worlds.nonnull sstring)]; scalar_type "String"].
Definition told : schema := Eval vm_compute in match load_schema told_json with Ok s => s | Err _ => [] end.
Definition told_cx : ctx := {| cx_schema := told; cx_deprecations := false; cx_frags := []; cx_order := plain_order |}.
Definition told_sels (a b : selection) : list selection := [node 2 "pet" [a; b]].
Theorem C48_refuted : exists l l' ws co ws' co',
  load_schema told_json = Ok told /\ consistent told /\ regular told [] "Query" (fun x => In x l) /\
  valid_sels told [] "Query" l /\ rewrites told [] "Query" l l' /\
  document_file 20 told_cx plain_config plain_order (query l) ws co /\
  document_file 20 told_cx plain_config plain_order (query l') ws' co' /\ co_contents co <> co_contents co'.
Proof.
  exists (told_sels (leaf 3 "name") (on 4 "Dog" [leaf 4 "name"])), (told_sels (on 4 "Dog" [leaf 4 "name"]) (leaf 3 "name")).
  do 4 eexists. split; [vm_compute; reflexivity|]. split; [apply consistentb_ok; vm_compute; reflexivity|].
  split; [apply (regularb_ok told [] 12 "Query" (told_sels (leaf 3 "name") (on 4 "Dog" [leaf 4 "name"]))); [vm_compute; reflexivity|tauto]|].
  split; [apply (validb_ok told [] 9); vm_compute; reflexivity|]. split.
  - eapply rw_step; [|apply rw_refl]. eapply (st_field _ _ "Query" (at_pos 2 3) None "pet" [] [] _ (at_pos 2 3) None [] []);
      [apply field_get_ok; vm_compute; reflexivity|reflexivity|]. apply st_set. intros z. cbn. tauto.
  - split; [eexists; split; vm_compute; reflexivity|]. split; [eexists; split; vm_compute; reflexivity|]. vm_compute. discriminate.
Qed.
Print Assumptions C48_refuted.
