(** C55: no name is bound twice in a generated module. *)
From Verif Require Import ShareWorlds LoadName JsonCheck WrittenEq.
From Verif Require PropC13 PropC18 PropC23.

(** Names a statement binds *)
Definition binds (i : item) : list string :=
  match i with
  | ItImport ns _ => ns
  | ItType d => [decl_name d]
  | ItEnum n _ => [n]
  | ItConst n _ _ => [n]
  | ItDefault _ => []
  end.
(** The form of the declared names for a document named [n] *)
Definition own_name (n x : string) : Prop := x = n \/ x = n +++ "Variables" \/ exists r, x = n +++ "_" +++ r.

Lemma own_fixed n w : own_name n w -> ~ has_char "_"%char w -> (match srev w with String c _ => Ascii.eqb c "s" | _ => true end) = false -> w = n.
Proof.
  intros [->|[E|(r & E)]] U S; auto; exfalso; subst w.
  - rewrite srev_app in S. discriminate S.
  - apply U. apply has_char_app. right. cbn. auto.
Qed.

(** If what is imported does not look like a name of the document, the names are bound once *)
Theorem C55_partial : forall fuel js cx c o d ws co P l,
  order_ok (cx_order cx) -> order_ok o -> load_schema js = Ok (cx_schema cx) -> consistent (cx_schema cx) -> proper_types (cx_schema cx) ->
  json_nameable c js -> doc_named (cx_frags cx) d (def_name d) ->
  document_file fuel cx c o d ws co -> doc_root d = Some (P, l) -> is_subscription d = false ->
  frags_valid (cx_schema cx) (cx_frags cx) l -> Forall (fun v => valid_gtype (vgtype v) = true) (doc_vars d) ->
  NoDup (List.map vd_name (doc_vars d)) ->
  PropC18.unambiguous (cx_schema cx) (cx_frags cx) P (fun x => In x l) ->
  PropC18.labels_apart (cx_schema cx) (cx_frags cx) P (fun x => In x l) ->
  (forall x, PropC23.imported P l cx d x -> x <> "graphqlDocument" /\ x <> PropC13.node_of d /\ ~ own_name (def_name d) x) ->
  def_name d <> "graphqlDocument" -> def_name d <> PropC13.node_of d ->
  exists is, (forall is', read_module (co_contents co) is' <-> is' = is) /\ NoDup (flat_map binds is).
Proof.
  intros fuel js cx c o d ws co P l O O' L Co Pt Jn Dn H Dr Su Fv V Nv U Lb Fr N1 N2. pose proof (loaded_nameable _ _ _ L Jn) as Nm.
  destruct (PropC13.C13_partial _ _ _ _ _ _ _ O O' Co H Su) as (m1 & W1 & En & _).
  destruct (PropC18.C18_partial _ _ _ _ _ _ _ _ _ O O' Co Pt H Dr Su Fv V Nv U Lb) as (m2 & W2 & Nd & _).
  destruct (PropC23.C23_only _ _ _ _ _ _ _ _ _ O O' Co Pt H Dr Su Fv V) as (m & W & Im & _ & Ng & _).
  destruct (document_inv _ _ _ _ _ _ _ O O' Co H) as (P' & p & l' & op & ds & us & vds & vus & R & C & Hc & En' & Ek & Ev & Sh & Rn & Rv & Eg & W3).
  destruct (items_inj _ _ (written_same _ _ _ _ _ _ W1 W Nm Dn)) as (E1 & _).
  destruct (items_inj _ _ (written_same _ _ _ _ _ _ W2 W Nm Dn)) as (_ & _ & E2 & _).
  destruct (items_inj _ _ (written_same _ _ _ _ _ _ W3 W Nm Dn)) as (_ & _ & E3 & _).
  apply bare_names in E2, E3. rewrite E2 in Nd. cbn [file_of tf_decls] in E3.
  assert (Ow : forall x, In x (List.map decl_name (tf_decls m)) -> own_name (def_name d) x).
  { rewrite <- E3. intros x I. rewrite map_app in I. apply in_app_or in I. destruct I as [I|I].
    - apply in_map_iff in I. destruct I as (y & <- & I). destruct (rnd_coll_names c _ _ _ _ Rn y I) as [E|(r & E)]; rewrite E; [left; auto|right; right; eauto].
    - apply in_map_iff in I. destruct I as (y & <- & I).
      destruct (PropC18.var_decls c _ d op vds vus V Ev Rv Nv) as [->|(ms' & -> & N)]; [destruct I|]. destruct I as [<-|[]].
      cbn [decl_name]. rewrite En'. right. left. reflexivity. }
  exists (tsfile_items m). split; [exact (proj2 W Nm Dn)|].
  assert (Eb : Permutation (flat_map binds (tsfile_items m))
    ("graphqlDocument" :: tf_node m :: tf_globals m ++ List.map decl_name (tf_decls m))).
  { unfold tsfile_items. cbn [flat_map binds app]. rewrite !flat_map_app. cbn [flat_map binds app].
    assert (X : flat_map binds (match tf_globals m with [] => [] | gs => [ItImport gs (tf_globals_from m)] end) = tf_globals m).
    { destruct (tf_globals m); cbn [flat_map binds]; [|rewrite app_nil_r]; reflexivity. }
    assert (Y : flat_map binds (List.map (fun d => ItType (bare_decl d)) (tf_decls m)) = List.map decl_name (tf_decls m)).
    { clear. induction (tf_decls m) as [|[a ms|a ns] q IH]; [reflexivity| |]; cbn [List.map flat_map binds bare_decl decl_name app]; f_equal; exact IH. }
    rewrite X, Y. rewrite app_assoc. etransitivity; [apply perm_skip; apply Permutation_app_comm|]. cbn [app]. apply perm_swap. }
  eapply Permutation_NoDup; [apply Permutation_sym; exact Eb|].
  assert (Og : forall n, own_name (def_name d) n -> In n (tf_globals m) -> False).
  { intros n On Ig. destruct (Fr n (Im n Ig)) as (_ & _ & X). auto. }
  assert (Nn : ~ own_name (def_name d) (PropC13.node_of d)) by (intros X; apply own_fixed in X; [congruence| |]; destruct d as [[|[] ? ? ? ? ?]|]; try reflexivity; cbn; intuition discriminate).
  assert (Ngd : ~ own_name (def_name d) "graphqlDocument") by (intros X; apply own_fixed in X; [congruence| |]; try reflexivity; cbn; intuition discriminate).
  constructor; [|constructor].
  - intros [E|I].
    + rewrite <- E1, En in E. clear - E. destruct d as [[|[] ? ? ? ? ?]|]; discriminate.
    + apply in_app_or in I. destruct I as [I|I]; [destruct (Fr _ (Im _ I)); congruence|auto].
  - rewrite <- E1, En. intros I. apply in_app_or in I. destruct I as [I|I]; [destruct (Fr _ (Im _ I)) as (_ & X & _); congruence|auto].
  - apply NoDup_app_intro; [exact Ng|exact Nd|]. intros x Ig Id. apply (Og x); auto.
Qed.
Print Assumptions C55_partial.

(** The example of a regular document: it imports two enums *)
Example C55_nonvacuous : exists ws co m, document_file 20 (farm_cx [pet_name]) plain_config plain_order (query good_sels) ws co /\
  reads_as co m /\ tf_globals m = ["Mood"; "Size"] /\ NoDup (flat_map binds (tsfile_items m)).
Proof.
  destruct PropC23.C23_nonvacuous as (ws & co & m & H & [Et W] & Eg & I). exists ws, co, m. split; [exact H|]. split; [split; auto|]. split; [exact Eg|].
  destruct (C55_partial 20 farm_json (farm_cx [pet_name]) plain_config plain_order (query good_sels) ws co "Query" good_sels
    plain_ok plain_ok farm_loaded farm_consistent farm_proper ltac:(apply json_nameableb_ok; vm_compute; reflexivity) good_named H eq_refl eq_refl good_frags
    ltac:(constructor) ltac:(constructor) (PropC18.regular_unambiguous _ _ _ _ good_regular) PropC18.good_labels) as (is & R & N).
  - intros x Ix. apply I in Ix. rewrite Eg in Ix.
    assert (O : forall n, own_name "Q" n -> exists r, n = String "Q" r) by (intros n [->|[->|(r & ->)]]; eexists; reflexivity).
    destruct Ix as [<-|[<-|[]]]; (split; [discriminate|]); (split; [discriminate|]); intros X; apply O in X; destruct X; discriminate.
  - discriminate.
  - discriminate.
  - assert (E : tsfile_items m = is) by (apply R, W; reflexivity). rewrite E. exact N.
Qed.

(** A valid query named after an enum it selects: the module imports and declares Mood *)
Definition mood_sels : list selection :=
  [node 2 "pet" [on 3 "Dog" [node 3 "owner" [leaf 3 "mood"]]; on 4 "Cat" [node 4 "owner" [leaf 4 "mood"]]; on 5 "Eel" [node 5 "owner" [leaf 5 "mood"]]]].
Definition mood_query : definition := DOp (OpNamed KQuery (at_pos 1 1) (Some "Mood") [] [] mood_sels).
Theorem C55_refuted : exists ws co is, document_file 20 (farm_cx []) plain_config plain_order mood_query ws co /\
  valid_sels farm [] "Query" mood_sels /\ regular farm [] "Query" (fun x => In x mood_sels) /\
  json_nameable plain_config farm_json /\ doc_named [] mood_query "Mood" /\
  (forall is', read_module (co_contents co) is' <-> is' = is) /\ ~ NoDup (flat_map binds is).
Proof.
  do 3 eexists. split; [eexists; split; vm_compute; reflexivity|]. split; [apply (validb_ok farm [] 9); vm_compute; reflexivity|].
  split; [apply (regularb_ok farm [] 12 "Query" mood_sels); [vm_compute; reflexivity|tauto]|].
  split; [apply json_nameableb_ok; vm_compute; reflexivity|]. split; [apply (doc_namedb_ok 9); vm_compute; reflexivity|].
  split; [apply (reads_once 2000); vm_compute; reflexivity|].
  cbn. intros N. inversion N as [|? ? _ N1]; subst. inversion N1 as [|? ? X _]; subst. apply X. cbn. tauto.
Qed.
Print Assumptions C55_refuted.
