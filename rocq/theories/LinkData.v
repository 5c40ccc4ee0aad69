(** Lemmas for C72: the names a module uses, and acceptance by the module and the globals module together. *)
From Verif Require Export LinkFacts.
From Verif Require Import ShareWorlds GlobalRead JsonCheck WrittenEq Package RespFacts PropC56 PropC04 PropC49 PropC18 PropC35.
From Verif Require PropC17 PropC13.

Lemma last_kind js s n t j : load_schema js = Ok s -> get_type s n = Some t -> last_named jt_name n js j -> type_matches j (st_def t).
Proof. intros L G Lj. destruct (loaded_last _ _ _ _ L G) as (j' & Lj' & M). rewrite (last_fun _ _ _ _ _ Lj Lj'). exact M. Qed.
Lemma global_kind js s n : load_schema js = Ok s -> global_type s n ->
  exists j, last_named jt_name n js j /\ (jt_kind j = "ENUM" \/ jt_kind j = "INPUT_OBJECT").
Proof.
  intros L (t & G & K). destruct (loaded_last _ _ _ _ L G) as (j & Lj & M). exists j. split; auto. inversion M as [? ? ? ? ? E|? ? ? E|? E|? ? ? ? ? ? ? E|? ? ? ? ? E|? ? ? ? ? E]; rewrite <- E in K; auto; destruct K.
Qed.
Lemma kind_dec (j : jtypedef) : jt_kind j = "SCALAR" \/ jt_kind j <> "SCALAR".
Proof. destruct (string_dec (jt_kind j) "SCALAR"); auto. Qed.
Lemma reserved_scalar c js x j : json_nameable c js -> reserved x -> last_named jt_name x js j -> jt_kind j = "SCALAR".
Proof.
  intros Jn R L. destruct (kind_dec j) as [E|E]; auto. exfalso. apply last_in in L. destruct L as [I <-]. eapply (jn_reserved _ _ Jn); eauto.
Qed.
Lemma custom_named c js s x : introspection js s -> PropC17.custom_scalar c s x -> exists n, scalar_named js n /\ custom_written c n x.
Proof.
  intros In (n & W & K). exists n. split.
  2:{ unfold PropC17.written_scalar in W. unfold custom_written. destruct (cc_bottom c); [destruct W|exact W|exact W]. }
  destruct K as [(T & k & f & Fo & D)|(t & sc & G & D)].
  - destruct (field_declared js s In _ _ _ Fo) as [[-> _]|(kind & g & Dc & Ej & Ko & Vg)]; [discriminate D|].
    destruct (json_named kind g Ko Vg _ Ej) as [_ Dk]. rewrite D in Dk. inversion Dk as [|sc' Si E1 E2| | | |].
    inversion Si; subst. destruct (in_kinds _ _ In _ _ _ _ Dc) as (j & L & E). exists j. auto.
  - destruct (loaded_last _ _ _ _ (in_loaded _ _ In) G) as (j & L & M). exists j. split; auto. rewrite D in M. inversion M; auto.
Qed.
Lemma builtin_reserved n : PropC17.builtin n -> reserved n.
Proof. intros [<-|[<-|[<-|[<-|[]]]]]; right; vm_compute; tauto. Qed.

(** *** The statements of the globals module *)
Lemma stmt_of c (l : list (string * jtypedef)) G : Forall2 (fun x it => stmt_for c (fst x) (snd x) it) l G ->
  (forall it, In it G -> exists n j, In (n, j) l /\ stmt_for c n j it) /\ (forall n j, In (n, j) l -> exists it, In it G /\ stmt_for c n j it).
Proof.
  intros F. induction F as [|[n j] it l G S F [A B]]; [split; [intros it []|intros n j []]|]. split.
  - intros it' [<-|I]; [exists n, j; split; [left|]; auto|]. destruct (A it' I) as (m & j' & I' & X). exists m, j'. split; [right|]; auto.
  - intros m j' [E|I]; [injection E as <- <-; exists it; split; [left|]; auto|]. destruct (B m j' I) as (it' & I' & X). exists it'. split; [right|]; auto.
Qed.
Lemma in_types is d : In d (module_types is) <-> In (ItType d) is.
Proof.
  unfold module_types. rewrite in_flat_map. split.
  - intros (i & I & D). destruct i; cbn in D; try contradiction. destruct D as [<-|[]]; auto.
  - intros I. exists (ItType d). split; auto. left; auto.
Qed.
(** An enum of the introspection data that the globals module declares *)
Lemma enum_accepted c js (l : list (string * jtypedef)) G amb : Forall2 (fun x it => stmt_for c (fst x) (snd x) it) l G ->
  (forall n j, In (n, j) l -> last_named jt_name n js j) ->
  forall n j vs v, In (n, j) l -> jt_kind j = "ENUM" -> jt_enum_values j = Some vs ->
    (exists k, global_accepts G amb k n v) <-> exists w, In w vs /\ v = VStr w.
Proof.
  intros F Ks n j vs v I Kj Ej. destruct (stmt_of c l G F) as [A B].
  assert (Sm : forall j', In (n, j') l -> j' = j) by (intros j' I'; eapply last_fun; eauto).
  assert (Nt : forall d, In d (module_types G) -> decl_name d <> n).
  { intros d Id Ed. apply in_types in Id. destruct (A _ Id) as (m & j' & I' & S). inversion S; subst. cbn [decl_name] in *. rewrite (Sm j' I') in *. congruence. }
  assert (En : forall ws, In (ItEnum n ws) G -> exists us, Permutation vs us /\ ws = List.map (fun w => (w, w)) us).
  { intros ws Iw. destruct (A _ Iw) as (m & j' & I' & S). inversion S; subst. rewrite (Sm j' I') in *. exists ws0. split; congruence. }
  destruct (B n j I) as (it & Iit & S). inversion S as [us ws K1 E1 Pm So|]; subst; [|congruence].
  split.
  - intros (k & _ & Ac). destruct k as [|k]; [destruct Ac|]. destruct Ac as [_ [(d & Id & Ed)|[[_ X]|[X _]]]]; [exfalso; eapply Nt; eauto| |exfalso; eapply X; eauto].
    destruct (X _ Iit) as (a & w & Iw & ->). apply in_map_iff in Iw. destruct Iw as (u & E & Iu). injection E as _ <-. exists u. split; auto.
    assert (Some vs = Some us) by congruence. injection H as <-. eapply Permutation_in; [symmetry|]; eauto.
  - intros (w & Iw & ->). exists 1. split; [right; eauto|]. cbn [accepts]. split; [intros d Id Ed; exfalso; eapply Nt; eauto|]. right. left. split; [eauto|].
    intros ws' Iw'. destruct (En _ Iw') as (us' & Pm' & ->). exists w, w. split; auto. apply in_map_iff. exists w. split; auto. eapply Permutation_in; eauto.
Qed.

Lemma global_accepts_mono G amb n n' x v : n <= n' -> global_accepts G amb n x v -> global_accepts G amb n' x v.
Proof. intros Le [A B]. split; auto. eapply accepts_mono; eauto. Qed.

(** *** From acceptance with the meaning of the introspection data to acceptance with the file of globals *)
Section Data.
  Variables (c : cconfig) (js : jschema) (s : schema) (custom amb : string -> value -> Prop).
  Hypothesis In0 : introspection js s.
  Hypothesis Jn : json_nameable c js.
  Hypothesis Al : aliases_apart c js.
  Hypothesis Su : surroundings c js custom amb.
  (** Names that are not declared in the module *)
  Definition outside (x : string) (v : value) : Prop :=
    (forall j, last_named jt_name x js j -> jt_kind j = "SCALAR") /\ amb x v \/
    exists j vs w, last_named jt_name x js j /\ jt_kind j = "ENUM" /\ jt_enum_values j = Some vs /\ In w vs /\ v = VStr w.
  Lemma outside_ok : base_ok c js custom outside.
  Proof.
    constructor.
    - intros b. left. split; [intros j; apply (reserved_scalar c js); auto; right; vm_compute; tauto|apply Su].
    - intros b. left. split; [intros j; apply (reserved_scalar c js); auto; right; vm_compute; tauto|apply Su].
    - intros b. left. split; [intros j; apply (reserved_scalar c js); auto; right; vm_compute; tauto|apply Su].
    - intros b j vs w L K E I. right. exists j, vs, w. auto.
    - intros n x v W Cv. left. pose proof (su_scalars _ _ _ _ Su _ _ Cv) as Sn. split; [apply (Al n x Sn W)|]. eapply su_custom; eauto.
  Qed.

  Lemma linked_accepts m G (l : list (string * jtypedef)) :
    (forall x, In x (tf_globals m) -> global_type s x) ->
    (forall n, PropC17.uses (tf_decls m) n ->
       PropC17.declared (tf_decls m) n \/ PropC17.builtin n \/ PropC17.custom_scalar c s n \/ In n (tf_globals m)) ->
    In (tf_node m) node_names -> tf_globals_from m = cc_globals_module c ->
    Forall2 (fun x it => stmt_for c (fst x) (snd x) it) l G -> (forall n j, In (n, j) l -> last_named jt_name n js j) ->
    (forall n, In n (tf_globals m) -> In n (List.map fst l)) ->
    forall n x v, PropC17.declared (tf_decls m) x -> accepts (tf_decls m) outside n x v ->
      exists k, module_accepts (cc_globals_module c) G (tsfile_items m) amb k x v.
  Proof.
    intros Gt Cl Nn Gf F Ks Gl n x v D A. exists (S n). unfold module_accepts.
    assert (Ty : module_types (tsfile_items m) = List.map bare_decl (tf_decls m)) by (rewrite <- items_decls; reflexivity).
    rewrite Ty. apply (accepts_bare (tf_decls m)). eapply accepts_mono; [apply Nat.le_succ_diag_r|].
    apply (accepts_names (tf_decls m) outside); auto.
    2:{ right. unfold PropC17.declared in D. apply in_map_iff in D. destruct D as (d & E & I). eauto. }
    intros y w U Nd O.
    assert (Im : forall q, imports_from (tsfile_items m) q y -> y = tf_node m \/ In y (tf_globals m)).
    { intros q (ns & I & J). unfold tsfile_items in I. destruct I as [E|I]; [injection E as <- _; destruct J as [<-|[]]; auto|].
      apply in_app_or in I. destruct I as [I|I].
      - destruct (tf_globals m) as [|g gs]; [destruct I|]. destruct I as [E|[]]. injection E as <- _. right; exact J.
      - exfalso. apply in_app_or in I. destruct I as [I|[I|[I|[]]]]; try discriminate. apply in_map_iff in I. destruct I as (z & E & _). discriminate. }
    destruct (Cl y U) as [Dy|[B|[B|B]]].
    - exfalso. unfold PropC17.declared in Dy. apply in_map_iff in Dy. destruct Dy as (d & E & I). eapply Nd; eauto.
    - right. destruct O as [[_ Am]|(j & vs & u & L & K & _)].
      + split; auto. intros q I. destruct (Im q I) as [E|J].
        * rewrite <- E in Nn. clear - B Nn. destruct B as [<-|[<-|[<-|[<-|[]]]]]; cbn in Nn; intuition discriminate.
        * destruct (global_kind js s y (in_loaded _ _ In0) (Gt y J)) as (j & L & K). pose proof (reserved_scalar c js y j Jn (builtin_reserved y B) L) as E. destruct K; congruence.
      + pose proof (reserved_scalar c js y j Jn (builtin_reserved y B) L). congruence.
    - right. destruct (custom_named c js s y In0 B) as (n0 & Sn & W). destruct (Al n0 y Sn W) as [Nno Kj].
      destruct O as [[_ Am]|(j & vs & u & L & K & _)]; [|rewrite (Kj j L) in K; discriminate]. split; auto. intros q I. destruct (Im q I) as [E|J].
      + apply Nno. rewrite E. exact Nn.
      + destruct (global_kind js s y (in_loaded _ _ In0) (Gt y J)) as (j & L & K). rewrite (Kj j L) in K. destruct K; discriminate.
    - left. split.
      + exists (tf_globals m). split; auto. unfold tsfile_items. right. apply in_or_app. left. rewrite Gf. destruct (tf_globals m); [destruct B|left; reflexivity].
      + destruct (global_kind js s y (in_loaded _ _ In0) (Gt y B)) as (j & L & K).
        destruct O as [[Sc _]|(j' & vs & u & L' & K' & E & I & ->)]; [rewrite (Sc j L) in K; destruct K; discriminate|].
        rewrite (last_fun _ _ _ _ _ L L') in *. clear j L K.
        pose proof (Gl y B) as J. apply in_map_iff in J. destruct J as ([y' j] & E1 & J). cbn in E1. subst y'.
        assert (j = j') by (eapply last_fun; [eapply Ks; exact J|exact L']). subst j'.
        destruct (proj2 (enum_accepted c js l G amb F Ks y j vs (VStr u) J K' E)) as (k & X); [eauto|].
        destruct k as [|k]; [destruct X as [_ []]|].
        destruct X as [X1 X2]. split; auto. cbn [accepts] in X2 |- *. destruct X2 as [X2 X3]. split; auto.
        intros d Id Ed. exfalso. apply in_types in Id. destruct (proj1 (stmt_of c l G F) _ Id) as (q & j0 & I0 & S0). inversion S0; subst. cbn [decl_name] in *.
        assert (j0 = j) by (eapply last_fun; eauto). subst. congruence.
  Qed.

  (** ... and back; input objects, which result types do not use, may mean anything *)
  Definition outside_or_input (x : string) (v : value) : Prop :=
    outside x v \/ exists j, last_named jt_name x js j /\ jt_kind j = "INPUT_OBJECT".
  Lemma leaf_outside x v : leaf_name c js x -> outside_or_input x v -> outside x v.
  Proof.
    intros L [O|(j & Lj & K)]; auto. exfalso. destruct L as [B|[(n & Si & W & Sn)|(j' & L' & K')]].
    - pose proof (reserved_scalar c js x j Jn ltac:(right; clear - B; cbn in B; vm_compute; intuition) Lj). congruence.
    - destruct (Al n x Sn W) as [_ Kj]. rewrite (Kj j Lj) in K. discriminate.
    - rewrite (last_fun _ _ _ _ _ Lj L') in K. congruence.
  Qed.
  Lemma linked_back m G (l : list (string * jtypedef)) :
    (forall x, In x (tf_globals m) -> global_type s x) ->
    (forall n, PropC17.uses (tf_decls m) n ->
       PropC17.declared (tf_decls m) n \/ PropC17.builtin n \/ PropC17.custom_scalar c s n \/ In n (tf_globals m)) ->
    (tf_globals m <> [] -> tf_globals_from m = cc_globals_module c) ->
    Forall2 (fun x it => stmt_for c (fst x) (snd x) it) l G -> (forall n j, In (n, j) l -> last_named jt_name n js j) ->
    (forall n, In n (tf_globals m) -> In n (List.map fst l)) ->
    forall n x v, PropC17.declared (tf_decls m) x -> module_accepts (cc_globals_module c) G (tsfile_items m) amb n x v ->
      accepts (tf_decls m) outside_or_input n x v.
  Proof.
    intros Gt Cl Gf F Ks Gl n x v D A. unfold module_accepts in A.
    assert (Ty : module_types (tsfile_items m) = List.map bare_decl (tf_decls m)) by (rewrite <- items_decls; reflexivity).
    rewrite Ty in A. apply (accepts_bare (tf_decls m)) in A. revert A.
    apply (accepts_names (tf_decls m)); auto.
    2:{ right. unfold PropC17.declared in D. apply in_map_iff in D. destruct D as (d & E & I). eauto. }
    intros y w U Nd O.
    assert (Free : (forall j, last_named jt_name y js j -> jt_kind j = "SCALAR") -> outside_or_input y w).
    { intros Sc. left. left. split; auto. destruct O as [[Im [Md _]]|[_ O]]; auto. exfalso.
      destruct Md as [(d & Id & Ed)|(ws & Ie)].
      - destruct (proj1 (stmt_of c l G F) _ Id) as (q & j & Ij & St). inversion St; subst. cbn [decl_name] in *. pose proof (Sc _ (Ks _ _ Ij)). congruence.
      - destruct (proj1 (stmt_of c l G F) _ Ie) as (q & j & Ij & St). inversion St; subst. pose proof (Sc _ (Ks _ _ Ij)). congruence. }
    destruct (Cl y U) as [Dy|[B|[B|B]]].
    - exfalso. unfold PropC17.declared in Dy. apply in_map_iff in Dy. destruct Dy as (d & E & I). eapply Nd; eauto.
    - apply Free. intros j. apply (reserved_scalar c js); auto. apply builtin_reserved; auto.
    - apply Free. destruct (custom_named c js s y In0 B) as (n0 & Sn & W). apply (Al n0 y Sn W).
    - destruct (global_kind js s y (in_loaded _ _ In0) (Gt y B)) as (j & L & K). destruct K as [K|K]; [|right; eauto].
      pose proof (Gl y B) as J. apply in_map_iff in J. destruct J as ([y' j'] & E1 & J). cbn in E1. subst y'.
      assert (j' = j) by (eapply last_fun; [eapply Ks; exact J|exact L]). subst j'.
      assert (Im : imports_from (tsfile_items m) (cc_globals_module c) y).
      { exists (tf_globals m). split; auto. unfold tsfile_items. right. apply in_or_app. left. destruct (tf_globals m) eqn:Et; [destruct B|]. rewrite Gf by discriminate. left; reflexivity. }
      destruct O as [[_ O]|[O _]]; [|exfalso; eapply O; eauto].
      destruct (proj2 (stmt_of c l G F) y j J) as (it & Iit & St).
      assert (exists vs, jt_enum_values j = Some vs) as (vs & Ev) by (inversion St; [eauto|congruence]).
      destruct (proj1 (enum_accepted c js l G amb F Ks y j vs w J K Ev)) as (u & I & ->); [eauto|]. left. right. exists j, vs, u. auto.
  Qed.
End Data.
