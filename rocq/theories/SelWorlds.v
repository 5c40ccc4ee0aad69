(** A small schema and documents used by the examples and refutations about selections, and a
    decision procedure for schema consistency to discharge their hypotheses. *)
From Verif Require Export Worlds SpecSel BaseFacts.

Definition compositeb (s : schema) (c : string) : bool :=
  match get_type s c with
  | Some t => match st_def t with TObject _ | TInterface _ _ _ | TUnion _ _ _ => true | _ => false end
  | None => false
  end.
Lemma compositeb_ok s c : compositeb s c = true <-> composite s c.
Proof.
  unfold compositeb, composite. split.
  - destruct (get_type s c) as [t|]; [|discriminate]. intros H. exists t. split; auto.
    destruct (st_def t); auto; discriminate.
  - intros (t & -> & H). destruct (st_def t); auto; contradiction.
Qed.
Definition kind_agreesb (s : schema) (f : sfield) : bool :=
  match ft_def (sf_type f), option_map st_def (get_type s (ft_name (sf_type f))) with
  | FDObject, Some (TObject _) | FDInterface, Some (TInterface _ _ _) | FDUnion, Some (TUnion _ _ _)
  | FDEnum, Some (TEnum _) => true
  | FDScalar _, _ | FDTypeName, _ => negb (compositeb s (ft_name (sf_type f)))
  | _, _ => false
  end.
Lemma kind_agreesb_ok s f : kind_agreesb s f = true -> kind_agrees s f.
Proof.
  unfold kind_agreesb, kind_agrees.
  destruct (ft_def (sf_type f)); try discriminate; try (intros H; destruct (option_map st_def _) as [[]|]; try discriminate; eauto; fail);
    intros H C; apply compositeb_ok in C; rewrite C in H; discriminate.
Qed.
Definition consistentb (s : schema) : bool :=
  forallb (fun x => match st_def (snd x) with
                    | TObject fs | TInterface _ fs _ | TUnion _ _ fs => forallb (fun y => kind_agreesb s (snd y)) fs
                    | _ => true
                    end) s.
Lemma consistentb_ok s : consistentb s = true -> consistent s.
Proof.
  intros H c n f (t & E & F). unfold consistentb in H. rewrite forallb_forall in H.
  apply aget_In in E. specialize (H _ E). cbn [snd] in H.
  destruct (st_def t); try contradiction; rewrite forallb_forall in H; apply aget_In in F;
    apply kind_agreesb_ok; apply (H _ F).
Qed.

Definition dep_field (name : string) (t : jtype) : jfield :=
  {| jf_name := name; jf_description := None; jf_type := t; jf_deprecated := Some true |}.
Definition abstract_type (kind name : string) (ps : list string) (fs : option (list jfield)) : jtypedef :=
  {| jt_kind := kind; jt_name := name; jt_description := None; jt_possible_types := Some ps;
     jt_input_fields := None; jt_fields := fs; jt_enum_values := None |}.
Definition scalar_type (name : string) : jtypedef :=
  {| jt_kind := "SCALAR"; jt_name := name; jt_description := None; jt_possible_types := None;
     jt_input_fields := None; jt_fields := None; jt_enum_values := None |}.
Definition list_of (t : jtype) : jtype := JT "LIST" None (Some t).
Definition sstring := named_type "SCALAR" "String".
Definition zoo_json : jschema :=
  [object_type "Query" [plain_field "me" (nonnull (named_type "OBJECT" "User"));
                        plain_field "pet" (named_type "INTERFACE" "Pet");
                        plain_field "animals" (nonnull (list_of (nonnull (named_type "UNION" "Animal"))));
                        dep_field "old" sstring;
                        plain_field "color" (nonnull (named_type "ENUM" "Color"))];
   object_type "Mutation" [plain_field "rename" (nonnull (named_type "OBJECT" "User"))];
   object_type "Subscription" [plain_field "ticks" (nonnull (named_type "SCALAR" "Int"))];
   object_type "User" [plain_field "name" (nonnull sstring); dep_field "age" (named_type "SCALAR" "Int");
                       plain_field "pets" (nonnull (list_of (nonnull (named_type "INTERFACE" "Pet"))));
                       plain_field "friend" (named_type "OBJECT" "User")];
   abstract_type "INTERFACE" "Pet" ["Dog"; "Cat"] (Some [plain_field "name" (nonnull sstring)]);
   object_type "Dog" [plain_field "name" (nonnull sstring); plain_field "barks" (nonnull (named_type "SCALAR" "Boolean"));
                      plain_field "owner" (nonnull (named_type "OBJECT" "User"))];
   object_type "Cat" [plain_field "name" (nonnull sstring); plain_field "meows" (nonnull (named_type "SCALAR" "Boolean"));
                      plain_field "owner" (named_type "OBJECT" "User")];
   object_type "Bird" [plain_field "name" (nonnull sstring); plain_field "wings" (nonnull (named_type "SCALAR" "Int"))];
   abstract_type "UNION" "Animal" ["Dog"; "Cat"; "Bird"] None;
   abstract_type "INTERFACE" "Ghost" [] (Some [plain_field "name" (nonnull sstring)]);
   {| jt_kind := "ENUM"; jt_name := "Color"; jt_description := None; jt_possible_types := None;
      jt_input_fields := None; jt_fields := None; jt_enum_values := Some ["RED"; "BLUE"] |};
   {| jt_kind := "INPUT_OBJECT"; jt_name := "Filter"; jt_description := None; jt_possible_types := None;
      jt_input_fields := Some [plain_field "q" sstring]; jt_fields := None; jt_enum_values := None |};
   scalar_type "String"; scalar_type "Int"; scalar_type "Boolean"; scalar_type "ID"; scalar_type "Float"].
Definition zoo : schema := Eval vm_compute in match load_schema zoo_json with Ok s => s | Err _ => [] end.
Lemma zoo_loaded : load_schema zoo_json = Ok zoo.
Proof. vm_compute. reflexivity. Qed.
Lemma zoo_consistent : consistent zoo.
Proof. apply consistentb_ok. vm_compute. reflexivity. Qed.

Lemma plain_ok : order_ok plain_order.
Proof. intros p A l. apply Permutation_refl. Qed.
Lemma back_ok : order_ok back_order.
Proof. intros p A l. apply Permutation_rev. Qed.

Definition at_pos (l c : nat) : pos := {| pos_line := l; pos_col := c |}.
Definition leaf (l : nat) (n : string) : selection := SField (at_pos l 3) None n [] [] [].
Definition node (l : nat) (n : string) (sub : list selection) : selection := SField (at_pos l 3) None n [] [] sub.
Definition on (l : nat) (c : string) (sub : list selection) : selection := SInline (at_pos l 3) (Some c) [] sub.
Definition spread (l : nat) (n : string) : selection := SSpread (at_pos l 3) n [].
Definition query (sels : list selection) : definition :=
  DOp (OpNamed KQuery (at_pos 1 1) (Some "Q") [] [] sels).
Definition frag (n c : string) (sels : list selection) : fragdef :=
  {| fr_pos := at_pos 1 1; fr_name := n; fr_cond := c; fr_dirs := []; fr_sels := sels |}.
Definition zoo_cx (dep : bool) (frags : list fragdef) : ctx :=
  {| cx_schema := zoo; cx_deprecations := dep; cx_frags := List.map (fun f => (fr_name f, f)) frags;
     cx_order := plain_order |}.

(** Every composite type of a field of the zoo has an object type *)
Definition inhabitedb (s : schema) : bool :=
  forallb (fun x => match st_def (snd x) with
                    | TObject fs | TInterface _ fs _ | TUnion _ _ fs =>
                        forallb (fun y => match get_type s (ft_name (sf_type (snd y))) with
                                          | Some t => match st_def t with TInterface _ _ [] | TUnion _ [] _ => false | _ => true end
                                          | None => true end) fs
                    | _ => true
                    end) s.
Lemma inhabitedb_ok s : inhabitedb s = true -> forall c n f, field_of s c n f -> composite s (ft_name (sf_type f)) ->
  exists T, possible s (ft_name (sf_type f)) T.
Proof.
  intros H c n f (t & E & F) (t' & E' & Ct). unfold inhabitedb in H. rewrite forallb_forall in H.
  apply aget_In in E. specialize (H _ E). cbn [snd] in H.
  assert (X : match st_def t' with TInterface _ _ [] | TUnion _ [] _ => false | _ => true end = true).
  { destruct (st_def t); try contradiction; rewrite forallb_forall in H; apply aget_In in F; specialize (H _ F); cbn [snd] in H;
      rewrite E' in H; exact H. }
  destruct (st_def t') as [fs|vs|sn|nm fs ps|nm fs|nm ps fs] eqn:D; try contradiction.
  - exists (ft_name (sf_type f)). exists t'. split; auto. rewrite D. reflexivity.
  - destruct ps as [|T ps]; [discriminate|]. exists T, t'. split; auto. rewrite D. left; auto.
  - destruct ps as [|T ps]; [discriminate|]. exists T, t'. split; auto. rewrite D. left; auto.
Qed.
Lemma zoo_inhabited : forall c n f, field_of zoo c n f -> composite zoo (ft_name (sf_type f)) ->
  exists T, possible zoo (ft_name (sf_type f)) T.
Proof. apply inhabitedb_ok. vm_compute. reflexivity. Qed.
