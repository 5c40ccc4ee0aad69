(** C73: the variables type of a document allows the variables a server takes. *)
From Verif Require Import RequestFacts LinkData LinkExt IntroCheck ShareWorlds GlobalRead JsonCheck WrittenEq Written FileFacts Package RespFacts InputFacts VarFacts DeclFacts RunFacts.
From Verif Require Import PropC56 PropC04 PropC43 PropC49 PropC18 PropC14 PropC35 PropC72.
From Verif Require Import Gql Json Args SpecGtext SpecJson SpecJtext GlayoutFacts PropC69.
From Verif Require SpecArgs PropC13 PropC17 PropC65 PropC67.

(** The module of a document, as far as variables go *)
Lemma document_variables fuel cx c o d ws co : order_ok (cx_order cx) -> order_ok o -> SpecSel.consistent (cx_schema cx) ->
  document_file fuel cx c o d ws co -> Forall (fun v => valid_gtype (vgtype v) = true) (doc_vars d) ->
  exists m, written_as cx c d co m /\ In (tf_node m) node_names /\ tf_node_from m = cc_docnode_module c /\ tf_globals_from m = cc_globals_module c /\
    (forall n, In n (tf_globals m) <-> In n (co_globals co)) /\
    (forall x, In x (tf_decls m) -> declares_name (def_name d) (decl_name x)) /\
    (doc_vars d = [] /\ tf_args m = (match d with DFrag _ => [def_name d] | DOp _ => [def_name d; "never"] end) \/
     doc_vars d <> [] /\ tf_args m = [def_name d; def_name d +++ "Variables"] /\
     exists ms vs, In (DObj (def_name d +++ "Variables") ms) (tf_decls m) /\
       (forall x, In x (tf_decls m) -> decl_name x = def_name d +++ "Variables" -> x = DObj (def_name d +++ "Variables") ms) /\
       Permutation (doc_vars d) vs /\ Forall2 (var_prop c (cx_schema cx)) vs ms /\
       Forall (good_var (cx_schema cx)) (doc_vars d) /\
       forall v, In v (doc_vars d) -> var_global (cx_schema cx) (gbase (vgtype v)) -> In (gbase (vgtype v)) (tf_globals m)).
Proof.
  intros O O' Co H V.
  destruct (document_inv _ _ _ _ _ _ _ O O' Co H) as (P & p & l & op & ds & us & vds & vus & R & C & Hc & En & Ek & Ev & Sh & Rn & Rv & Eg & Et).
  exists (file_of c op (ds ++ vds) (co_globals co)). split; auto. cbn [file_of tf_node tf_node_from tf_globals tf_globals_from tf_decls tf_args].
  assert (Gi : forall n, In n (sort_by (fun x => x) (co_globals co)) <-> In n (co_globals co)).
  { intros n. split; intros I; (eapply Permutation_in; [|exact I]); [symmetry|]; apply sort_by_perm. }
  assert (Nd : Forall (fun x => decl_name x <> def_name d +++ "Variables") ds).
  { apply Forall_forall. intros x I. destruct (rnd_coll_names c _ _ _ _ Rn x I) as [->|(r & ->)]; intros E.
    - rewrite <- (sapp_nil_r (def_name d)) in E at 1. apply sapp_inj_l in E. discriminate.
    - apply sapp_inj_l in E. discriminate. }
  assert (Nds : forall x, In x ds -> declares_name (def_name d) (decl_name x)).
  { intros x I. destruct (rnd_coll_names c _ _ _ _ Rn x I) as [E|(r & E)]; [left; auto|right; right; eauto]. }
  split; [destruct (op_kind op); cbn; auto|]. split; auto. split; auto. split; auto.
  unfold try_build_variable_ir in Ev. unfold r_variables in Rv.
  destruct (doc_vars d) as [|v vs] eqn:Ed.
  - injection Ev as Ev. rewrite <- Ev in Rv. inversion Rv; subst. rewrite app_nil_r. split; auto. left. split; auto.
    unfold node_args, vars_arg. rewrite <- Ev, Ek, En. destruct d as [[? ?|[| |] ? ? ? ? ?]|f]; reflexivity.
  - assert (Gd : Forall (good_var (cx_schema cx)) (v :: vs)).
    { apply C14_accepted; auto. unfold try_build_variable_ir. destruct (collect_res _); inversion Ev. eauto. }
    destruct (collect_res (List.map (build_variable (cx_schema cx)) (v :: vs))) as [r|] eqn:Er; [|discriminate].
    injection Ev as Ev. rewrite <- Ev in Rv.
    destruct (vars_written c _ _ _ V Gd Er) as (rs & us' & E1 & Hu & vs' & Pm & So & F).
    rewrite E1 in Rv. inversion Rv; subst. split.
    { intros x I. apply in_app_or in I. destruct I as [I|[<-|[]]]; [auto|]. cbn [decl_name]. rewrite En. right. left. reflexivity. }
    right. split; [discriminate|]. split.
    { unfold node_args, vars_arg. rewrite <- Ev, Ek, En. destruct d as [[? ?|[| |] ? ? ? ? ?]|f]; cbn in *; try discriminate; reflexivity. }
    rewrite En. eexists _, vs'. split; [apply in_or_app; right; left; reflexivity|]. split; [|split; [exact Pm|split; [exact F|split; [exact Gd|]]]].
    + intros x I E. apply in_app_or in I. destruct I as [I|[<-|[]]]; [|reflexivity]. exfalso. rewrite Forall_forall in Nd. exact (Nd x I E).
    + intros w I Gw. apply Gi. rewrite Eg. apply In_sunion. right. apply in_or_app. right. apply Hu. exists w. auto.
Qed.

(** What an input object refers to *)
Lemma leads_snoc s r n m : leads s r n -> refers s n m -> leads s r m.
Proof. intros L R. induction L as [n|n a k Ra _ IH]; [eapply leads_step; [exact R|apply leads_refl]|eapply leads_step; [exact Ra|auto]]. Qed.
Lemma takes_refers js s n k kind g t : load_schema js = Ok s -> inputs_proper js -> get_type s n = Some t -> takes js n k kind g -> kind <> "SCALAR" ->
  refers s n (gbase g).
Proof.
  intros L Ip Gt T Nk. exists t. split; auto. pose proof T as (j & fs & f & Lj & K & Ef & Lf & Et).
  destruct (ip_refs _ Ip _ _ _ _ _ Lj K Ef Lf) as (kind' & g' & Et' & Ki & _). pose proof Et' as Et2. rewrite Et in Et'. apply json_of_inj in Et'. destruct Et' as [<- <-]. clear Et2.
  pose proof (last_kind js s n t j L Gt Lj) as M. inversion M as [? ? E|? E|E|? ? ? E|fs' m E E' Lm Ed|? ? E]; subst; try congruence.
  rewrite Ef in E'. injection E' as <-. destruct (proj1 Lm k f Lf) as (sf & A & (_ & _ & _ & (kk & B & Dk))).
  assert (X : kk = kind /\ ft_name (sf_type sf) = gbase g).
  { clear - B Et Ki. rewrite Et in B. clear Et. revert B. generalize (ft_name (sf_type sf)). intros n.
    induction g as [b|g IH|g IH]; cbn [json_of gbase]; intros B.
    - inversion B as [? ? ? ? ?|? ? ? ? ? [X|X]]; subst; auto; cbn in Ki; intuition discriminate.
    - inversion B; subst; try congruence; auto.
    - inversion B; subst; try congruence; auto. }
  destruct X as [-> X]. exists (jt_name j), m, k, sf. split; auto. split; [apply aget_In; exact A|]. split; auto.
  cbn in Ki. destruct Ki as [E0|[<-|[<-|[]]]]; [congruence| |]; inversion Dk; auto.
Qed.

(** The run exits with code 0, whatever the parser: every document has an output that reads as a module [M],
    whose constant has the variables type as second type argument; and that type, as declared by [M] and the
    globals module [G], allows exactly the variables of the requests that are spelled out, scalars having the
    values that the surroundings give them, whether null is among them or not *)
Theorem C73_exact_partial : forall fuel wo a sched cf js s out f',
  let rc := merge_config (wo_ncpus wo) a cf in
  let c := cconfig_of rc in
  let e := wo_env wo in
  let ls := wo_listing wo in
  let root := rc_root_dir rc in
  let f := wo_fs wo in
  let gl := env_locate e (globals_path c root) in
  settled wo a cf js s -> wo_schema wo (rc_schema_path rc) = SRDecoded js ->
  inputs_proper js -> flat_inputs js -> aliases_apart c js -> cc_docnode_module c <> cc_globals_module c ->
  (forall text ds d, env_parse e text = Ok ds -> In d ds -> parsed_named d) ->
  qlc fuel wo a sched = Exited 0 out f' ->
  forall path, is_source ls root path -> exists contents d,
    f (env_locate e path) = Ok contents /\ env_parse e contents = Ok [d] /\
    (~ reserved (def_name d) -> Forall (fun v => valid_gtype (vgtype v) = true) (doc_vars d) ->
     (forall x, input_typename c js x -> ~ declares_name (def_name d) x) ->
     exists text M G node rest,
       f' (out_loc e path) = Ok text /\ only_reads text M /\
       (forall x, imports_from M (cc_globals_module c) x ->
          module_declares G x /\ exists gtext, f' gl = Ok gtext /\ only_reads gtext G) /\
       In (ItConst "graphqlDocument" node (def_name d :: rest)) M /\ In (ItDefault "graphqlDocument") M /\
       (doc_vars d = [] -> rest = match d with DFrag _ => [] | DOp _ => ["never"] end) /\
       (doc_vars d <> [] -> rest = [def_name d +++ "Variables"] /\
          forall amb v, (exists n, module_allows (cc_globals_module c) G M amb n (def_name d +++ "Variables") v) <->
            wide_request js (surrounding c amb) (doc_vars d) v)).
Proof.
  intros fuel wo a sched cf js s out f' rc c e ls root f gl Se Es Ip Fl Al Dm Pn H path Sp.
  pose proof Se as [_ In0 Jn _ _ _ _ _ _ _ _]. pose proof (in_loaded _ _ In0) as L. pose proof (intro_consistent _ _ In0) as Co.
  pose proof (loaded_nameable _ _ _ L Jn) as Nm.
  destruct (run_linked fuel wo a sched cf js s out f' Se Es Pn H) as (Outs & Gt & Globs).
  destruct (Outs path Sp) as (contents & d & frags & ws & co & Er & Ep & Ic & D & Oc & Od & Eo & Va & Dn & Ug).
  exists contents, d. split; [exact Er|]. split; [exact Ep|]. intros Nr Vv Le. specialize (Dn Nr).
  destruct (document_variables _ _ _ _ _ _ _ Oc Od Co D Vv) as (m & W & Nn & Nf & Gf & Gi & Dd & Vs).
  assert (Gin : forall n, In n (tf_globals m) -> uses_global fuel e ls c s root f n) by (intros n J; apply Ug, Gi, J).
  assert (Ga : exists G (lj : list (string * jtypedef)), Forall2 (fun x it => stmt_for c (fst x) (snd x) it) lj G /\
            (forall n j, In (n, j) lj -> last_named jt_name n js j) /\
            (forall n, In n (tf_globals m) -> In n (List.map fst lj)) /\
            (tf_globals m <> [] -> exists gtext, f' gl = Ok gtext /\ only_reads gtext G) /\
            (forall n k kind g, In n (List.map fst lj) -> takes js n k kind g -> kind <> "SCALAR" -> In (gbase g) (List.map fst lj))).
  { destruct (tf_globals m) as [|g gs] eqn:Et.
    - exists [], []. split; [constructor|]. split; [intros n j []|]. split; [intros n []|]. split; [congruence|intros n k kind g []].
    - destruct Globs as (gtext & lj & G & Eg2 & Og & _ & Fg & Kl & Kg). { exists g. apply Gin. left; auto. }
      exists G, lj. split; auto. split; auto. split; [|split; [eauto|]].
      + intros n J. apply Kg. split; [exists n; split; [apply Gin; auto|constructor]|]. destruct (Gt n (Gin n J)) as (t & Gn & _). congruence.
      + intros n k kind g0 J T Nk. apply Kg in J. destruct J as ((r & Ur & Lr) & Gn). destruct (get_type s n) as [t|] eqn:En; [|congruence].
        apply Kg. split; [exists r; split; [exact Ur|eapply leads_snoc; [exact Lr|eapply takes_refers; eauto]]|].
        destruct (ip_kinds _ Ip _ _ _ _ T) as (j & Lj & _). destruct (load_ok _ _ L) as (_ & La & _). destruct (La _ _ Lj) as (t' & E' & _). congruence. }
  destruct Ga as (G & lj & Fg & Kl & Gl & Gr & Cl).
  assert (Ta : exists rest, tf_args m = def_name d :: rest /\
    (doc_vars d = [] -> rest = match d with DFrag _ => [] | DOp _ => ["never"] end) /\
    (doc_vars d <> [] -> rest = [def_name d +++ "Variables"])).
  { destruct Vs as [(E & ->)|(E & -> & _)]; [|eexists; split; [reflexivity|split; [congruence|auto]]].
    destruct d; eexists; (split; [reflexivity|split; [auto|congruence]]). }
  destruct Ta as (rest & Ta & Ra & Rb).
  assert (Im : forall q x, imports_from (tsfile_items m) q x -> x = tf_node m /\ q = cc_docnode_module c \/ In x (tf_globals m)).
  { intros q x (ns & I & J). unfold tsfile_items in I. destruct I as [E|I]; [injection E as <- E; left; destruct J as [<-|[]]; split; [reflexivity|rewrite <- E; exact Nf]|].
    apply in_app_or in I. destruct I as [I|I].
    - right. destruct (tf_globals m) as [|g gs]; [destruct I|]. destruct I as [E|[]]. injection E as <- _. exact J.
    - exfalso. apply in_app_or in I. destruct I as [I|[I|[I|[]]]]; try discriminate. apply in_map_iff in I. destruct I as (z & E & _). discriminate. }
  assert (Mg : forall x, In x (tf_globals m) -> imports_from (tsfile_items m) (cc_globals_module c) x).
  { intros x I. exists (tf_globals m). split; auto. unfold tsfile_items. right. apply in_or_app. left. rewrite Gf. destruct (tf_globals m); [destruct I|left; reflexivity]. }
  assert (Md : forall x, In x (List.map fst lj) -> module_declares G x).
  { intros x I. apply in_map_iff in I. destruct I as ([x' j] & E & Ij). cbn in E. subst x'.
    destruct (proj2 (stmt_of c lj G Fg) x j Ij) as (it & Iit & S). destruct S; [right; eauto|left]. eexists. split; [exact Iit|reflexivity]. }
  exists (co_contents co), (tsfile_items m), G, (tf_node m), rest.
  split; [exact Eo|]. split; [exact (proj2 W Nm Dn)|]. split; [|split; [|split; [|split; [exact Ra|]]]].
  - intros x I. destruct (Im _ _ I) as [[_ E]|J]; [exfalso; apply Dm; rewrite <- E; reflexivity|].
    split; [auto|]. apply Gr. intros E. rewrite E in J. destruct J.
  - unfold tsfile_items. right. apply in_or_app. right. apply in_or_app. right. left. rewrite Ta. reflexivity.
  - unfold tsfile_items. right. apply in_or_app. right. apply in_or_app. right. right. left. reflexivity.
  - intros Ne. split; [auto|]. destruct Vs as [(E & _)|(_ & _ & ms & vs & Iv & Uv & Pm & Fv & Gd & Gg)]; [congruence|].
    intros amb v.
    assert (Ty : module_types (tsfile_items m) = List.map bare_decl (tf_decls m)) by (rewrite <- items_decls; reflexivity).
    pose (DD := List.map bare_decl (tf_decls m)).
    pose (bb := fun N y w => imports_from (tsfile_items m) (cc_globals_module c) y /\ global_allows G amb N y w \/
                             (forall q, ~ imports_from (tsfile_items m) q y) /\ amb y w).
    (* the type of a variable *)
    assert (Bv : forall w, In w (doc_vars d) -> exists kind, present js lj kind (gbase (vgtype w)) /\
      input_base (cc_bottom c) kind (gbase (vgtype w)) = var_base c s (gbase (vgtype w)) /\
      (forall x, In x DD -> decl_name x <> var_base c s (gbase (vgtype w))) /\
      forall N y, bb (S N) (var_base c s (gbase (vgtype w))) y <->
        allows (module_types G) (enum_or G amb) (S N) (input_base (cc_bottom c) kind (gbase (vgtype w))) y).
    { intros w Iw. rewrite Forall_forall in Gd. destruct (Gd w Iw) as [_ Kn]. set (b := gbase (vgtype w)) in *.
      assert (Und : forall x, input_typename c js x -> forall z, In z DD -> decl_name z <> x).
      { intros x Nx z Iz E. apply in_map_iff in Iz. destruct Iz as (z0 & Ez & Iz). apply (Le x Nx). rewrite <- E, <- Ez.
        replace (decl_name (bare_decl z0)) with (decl_name z0) by (destruct z0; reflexivity). apply Dd. exact Iz. }
      assert (Sc : scalar_known js b -> var_base c s b = scalar_text (cc_bottom c) b -> exists kind, present js lj kind b /\
        input_base (cc_bottom c) kind b = var_base c s b /\ (forall x, In x DD -> decl_name x <> var_base c s b) /\
        forall N y, bb (S N) (var_base c s b) y <-> allows (module_types G) (enum_or G amb) (S N) (input_base (cc_bottom c) kind b) y).
      { intros Sb Eb. exists "SCALAR". split; [left; auto|]. split; [symmetry; exact Eb|].
        assert (Nx : input_typename c js (scalar_text (cc_bottom c) b)).
        { destruct (in_dec string_dec b builtin_scalars) as [I|N]; [left; apply scalar_text_builtin; exact I|]. right. left. exists b.
          destruct Sb as [I|Sb]; [contradiction|]. split; auto. apply scalar_text_custom. exact N. }
        rewrite Eb. split; [apply Und; exact Nx|]. intros N y. rewrite input_base_scalar.
        rewrite (scalar_allowed c js amb Jn Al lj G Fg Kl N b y Sb).
        assert (Ni : forall q, ~ imports_from (tsfile_items m) q (scalar_text (cc_bottom c) b)).
        { intros q I. destruct (Im _ _ I) as [[E _]|J].
          - destruct (in_dec string_dec b builtin_scalars) as [Ib|N0].
            + destruct (scalar_text_builtin c b Ib) as [X|[X|[X|[]]]]; rewrite <- X in E; rewrite <- E in Nn; cbn in Nn; intuition discriminate.
            + destruct Sb as [Ib|Sb]; [contradiction|]. destruct (Al b _ Sb (scalar_text_custom c b N0)) as [X _]. apply X. rewrite E. exact Nn.
          - destruct (global_kind js s _ L (Gt _ (Gin _ J))) as (j & Lj & K). pose proof (scalar_free c js amb Jn Al b Sb j Lj). destruct K; congruence. }
        split; [intros [[I _]|[_ X]]; [exfalso; eapply Ni; eauto|exact X]|intros X; right; split; auto]. }
      unfold var_base. destruct (is_builtin b) eqn:Eb.
      { replace (scalar_text (cc_bottom c) b) with (var_base c s b) by (unfold var_base; rewrite Eb; reflexivity). apply Sc; [left; apply builtin_in; exact Eb|].
        unfold var_base. rewrite Eb. reflexivity. }
      destruct Kn as [Kn|Kn]; [congruence|]. destruct (get_type s b) as [t|] eqn:Et; [|exfalso; exact (Kn Et)].
      destruct (loaded_last _ _ _ _ L Et) as (j & Lj & Mt).
      assert (Vb : var_base c s b = match st_def t with TScalar _ => scalar_text (cc_bottom c) b | _ => b end) by (unfold var_base; rewrite Eb, Et; reflexivity).
      rewrite <- Vb.
      destruct (kind_dec j) as [Kj|Kj].
      { assert (Es' : exists z, st_def t = TScalar z) by (inversion Mt; try congruence; eauto). destruct Es' as (z & Es'). rewrite Es' in Vb.
        apply Sc; [right; exists j; auto|exact Vb]. }
      assert (Ns : forall z, st_def t <> TScalar z) by (intros z E; rewrite E in Mt; inversion Mt; congruence).
      assert (Vb' : var_base c s b = b) by (rewrite Vb; destruct (st_def t); try reflexivity; exfalso; eapply Ns; reflexivity).
      assert (Ig : In b (tf_globals m)) by (apply Gg; [exact Iw|]; split; [exact Eb|]; exists t; split; [exact Et|exact Ns]).
      destruct (global_kind js s b L (Gt b (Gin b Ig))) as (j' & Lj' & Ke). pose proof (last_fun _ _ _ _ _ Lj Lj') as <-. clear Lj'.
      pose proof (Gl b Ig) as Il. pose proof Il as Il'. apply in_map_iff in Il'. destruct Il' as ([b' j'] & E & Ij). cbn in E. subst b'.
      pose proof (last_fun _ _ _ _ _ Lj (Kl _ _ Ij)) as <-. exists (jt_kind j). split; [right; exists j; auto|].
      assert (Ib : input_base (cc_bottom c) (jt_kind j) b = b) by (destruct Ke as [-> | ->]; reflexivity).
      rewrite Vb', Ib. split; auto. split; [apply Und; right; right; exists j; auto|]. intros N y. split.
      - intros [[_ [_ X]]|[X _]]; [exact X|exfalso; eapply X; apply Mg; exact Ig].
      - intros X. left. split; [apply Mg; exact Ig|]. split; [apply Md; exact Il|exact X]. }
    assert (Pv : forall w, In w (doc_vars d) <-> In w vs) by (intros w; split; apply Permutation_in; [|symmetry]; exact Pm).
    assert (F1 : forall w, In w vs -> exists x, In x ms /\ var_prop c s w x).
    { clear - Fv. intros w I. induction Fv as [|z x vs ms V F IH]; [destruct I|]. destruct I as [<-|I]; [exists x; split; [left|]; auto|]. destruct (IH I) as (y & J & Y). exists y. split; [right|]; auto. }
    assert (F2 : forall x, In x ms -> exists w, In w vs /\ var_prop c s w x).
    { clear - Fv. intros w I. induction Fv as [|z x vs ms V F IH]; [destruct I|]. destruct I as [<-|I]; [exists z; split; [left|]; auto|]. destruct (IH I) as (y & J & Y). exists y. split; [right|]; auto. }
    assert (Ud : forall x, In x DD -> decl_name x = def_name d +++ "Variables" -> x = DObj (def_name d +++ "Variables") (List.map bare_member ms)).
    { intros x I E. apply in_map_iff in I. destruct I as (x0 & <- & I). rewrite (Uv x0 I); [reflexivity|]. destruct x0; exact E. }
    assert (Id : In (DObj (def_name d +++ "Variables") (List.map bare_member ms)) DD) by (apply in_map_iff; exists (DObj (def_name d +++ "Variables") ms); auto).
    assert (K : forall N w y, In w (doc_vars d) -> allows DD (bb (S (S N))) (S N) (var_base c s (gbase (vgtype w))) y <->
      wide_value js (surrounding c amb) (S (S N)) (gbase (vgtype w)) y).
    { intros N w y Iw. destruct (Bv w Iw) as (kind & Pr & Eb & Un & Eq). rewrite (allows_free DD) by exact Un. rewrite Eq. eapply allowed_wide; eauto. }
    split.
    + intros (N & Al0). unfold module_allows in Al0. rewrite Ty in Al0. change (allows DD (bb N) N (def_name d +++ "Variables") v) in Al0.
      destruct N as [|N]; [destruct Al0|]. destruct Al0 as [A0 _]. destruct (A0 _ Id eq_refl) as [(kvs & -> & Fm) Ex].
      exists (S N), kvs. split; auto. split.
      * intros k x Ek. specialize (Ex kvs k x eq_refl Ek). rewrite map_map in Ex. apply in_map_iff in Ex. destruct Ex as (x0 & <- & I).
        destruct (F2 x0 I) as (w & Iw & (_ & _ & En & _)). cbn [bare_member m_name]. rewrite En. apply in_map. apply Pv. exact Iw.
      * intros w Iw. destruct (F1 w (proj1 (Pv w) Iw)) as (x & Ix & (_ & _ & En & Eop & _ & _ & _ & Ew)).
        rewrite Forall_forall in Fm. specialize (Fm (bare_member x) (in_map _ _ _ Ix)). cbn [bare_member m_name m_type m_optional] in Fm. rewrite En in Fm.
        destruct (aget (vd_name w) kvs) as [y|]; [|congruence]. apply Ew in Fm. revert Fm. apply wide_values_mono. intros z Z.
        destruct N as [|N]; [destruct Z|]. apply K in Z; auto.
    + intros (n & kvs & -> & Ks & Vw). exists (S (S n)). unfold module_allows. rewrite Ty.
      change (allows DD (bb (S (S n))) (S (S n)) (def_name d +++ "Variables") (VObj kvs)).
      split; [|left; eexists; split; [exact Id|reflexivity]]. intros x Ix E. rewrite (Ud x Ix E). split.
      * exists kvs. split; auto. apply Forall_forall. intros x0 I0. apply in_map_iff in I0. destruct I0 as (x1 & <- & I1).
        cbn [bare_member m_name m_type m_optional]. destruct (F2 x1 I1) as (w & Iw & (_ & _ & En & Eop & _ & _ & _ & Ew)). rewrite En.
        apply Pv in Iw. specialize (Vw w Iw). destruct (aget (vd_name w) kvs) as [y|] eqn:Ey; [|rewrite Eop; exact Vw].
        apply Ew. revert Vw. apply wide_values_mono. intros z Z. apply K; auto. eapply wide_value_mono; [|exact Z]. lia.
      * intros kvs' k y Ev Ek. injection Ev as <-. pose proof (Ks k y Ek) as J. apply in_map_iff in J. destruct J as (w & <- & Iw).
        destruct (F1 w (proj1 (Pv w) Iw)) as (x1 & Ix1 & (_ & _ & En & _)). rewrite map_map. apply in_map_iff. exists x1. split; auto.
Qed.
Print Assumptions C73_exact_partial.
(** In terms of what a server takes: these are at most the variables of the requests that are spelled out if the
    surroundings give scalars no more values than the server takes, at least these if they give no less *)
Theorem C73_run_partial : forall fuel wo a sched cf js s out f',
  let rc := merge_config (wo_ncpus wo) a cf in
  let c := cconfig_of rc in
  let e := wo_env wo in
  let ls := wo_listing wo in
  let root := rc_root_dir rc in
  let f := wo_fs wo in
  let gl := env_locate e (globals_path c root) in
  settled wo a cf js s -> wo_schema wo (rc_schema_path rc) = SRDecoded js ->
  inputs_proper js -> flat_inputs js -> aliases_apart c js -> cc_docnode_module c <> cc_globals_module c ->
  (forall text ds d, env_parse e text = Ok ds -> In d ds -> parsed_named d) ->
  qlc fuel wo a sched = Exited 0 out f' ->
  forall path, is_source ls root path -> exists contents d,
    f (env_locate e path) = Ok contents /\ env_parse e contents = Ok [d] /\
    (~ reserved (def_name d) -> Forall (fun v => valid_gtype (vgtype v) = true) (doc_vars d) ->
     (forall x, input_typename c js x -> ~ declares_name (def_name d) x) ->
     exists text M G node rest,
       f' (out_loc e path) = Ok text /\ only_reads text M /\
       (forall x, imports_from M (cc_globals_module c) x ->
          module_declares G x /\ exists gtext, f' gl = Ok gtext /\ only_reads gtext G) /\
       In (ItConst "graphqlDocument" node (def_name d :: rest)) M /\ In (ItDefault "graphqlDocument") M /\
       (doc_vars d = [] -> rest = match d with DFrag _ => [] | DOp _ => ["never"] end) /\
       (doc_vars d <> [] -> rest = [def_name d +++ "Variables"] /\
          forall scalar_in has_default amb v,
            (tight c js scalar_in amb -> forall n, module_allows (cc_globals_module c) G M amb n (def_name d +++ "Variables") v ->
               request js scalar_in false has_default (doc_vars d) v) /\
            (loose c js scalar_in amb -> request js scalar_in false has_default (doc_vars d) v ->
               exists n, module_allows (cc_globals_module c) G M amb n (def_name d +++ "Variables") v))).
Proof.
  intros fuel wo a sched cf js s out f' rc c e ls root f gl Se Es Ip Fl Al Dm Pn H path Sp.
  destruct (C73_exact_partial fuel wo a sched cf js s out f' Se Es Ip Fl Al Dm Pn H path Sp) as (contents & d & Er & Ep & K).
  exists contents, d. split; [exact Er|]. split; [exact Ep|]. intros Nr Vv Le.
  destruct (K Nr Vv Le) as (text & M & G & node & rest & Et & Rt & Im & Ic & Idf & Ra & A).
  exists text, M, G, node, rest. split; [exact Et|]. split; [exact Rt|]. split; [exact Im|]. split; [exact Ic|]. split; [exact Idf|]. split; [exact Ra|].
  intros Ne. destruct (A Ne) as (Er' & B). split; [exact Er'|]. intros scalar_in hd amb v. split.
  - intros Ti n An. eapply wide_request_taken; [exact Ti|]. apply B. eauto.
  - intros Lo Rq. apply B. eapply taken_request_wide; eauto.
Qed.
Print Assumptions C73_run_partial.

(** ** From texts to texts *)
(** The command line [argv] says [a]; the file of the schema says [js]; the process exits with code 0.  Then
    for every source file with a text that says one document with variables there is an output that reads as a
    module [M]; the variables type of its constant allows the variables of the requests that are spelled out,
    and everything it allows is taken by a server, also if this is lenient *)
Theorem C73_text_partial : forall ck complaint jerr help version fuel wo its argv a nc sched cf stext j js s out f',
  let rc := merge_config (wo_ncpus wo) a cf in
  let c := cconfig_of rc in
  let e := wo_env wo in
  let ls := wo_listing wo in
  let root := rc_root_dir rc in
  let f := wo_fs wo in
  let gl := env_locate e (globals_path c root) in
  on_disk ck complaint jerr wo ->
  SpecArgs.spelled its argv -> SpecArgs.consistent its -> SpecArgs.complete its -> SpecArgs.says its a nc ->
  settled wo a cf js s ->
  f (env_locate e (rc_schema_path rc)) = Ok stext -> text_holds stext j -> says_schema j js -> fits js ->
  inputs_proper js -> flat_inputs js -> aliases_apart c js -> cc_docnode_module c <> cc_globals_module c ->
  qlc_command help version fuel wo argv sched = Exited 0 out f' ->
  forall path contents d, is_source ls root path ->
    f (env_locate e path) = Ok contents -> text_says ck contents [d] -> ~ reserved (def_name d) -> doc_vars d <> [] ->
    (forall x, input_typename c js x -> ~ declares_name (def_name d) x) ->
    exists text M G node,
      f' (out_loc e path) = Ok text /\ only_reads text M /\
      (forall x, imports_from M (cc_globals_module c) x ->
         module_declares G x /\ exists gtext, f' gl = Ok gtext /\ only_reads gtext G) /\
      In (ItConst "graphqlDocument" node [def_name d; def_name d +++ "Variables"]) M /\ In (ItDefault "graphqlDocument") M /\
      forall scalar_in has_default amb v,
        (loose c js scalar_in amb -> request js scalar_in false has_default (doc_vars d) v ->
           exists n, module_allows (cc_globals_module c) G M amb n (def_name d +++ "Variables") v) /\
        (tight c js scalar_in amb -> forall lenient n, module_allows (cc_globals_module c) G M amb n (def_name d +++ "Variables") v ->
           request js scalar_in lenient has_default (doc_vars d) v).
Proof.
  intros ck complaint jerr help version fuel wo its argv a nc sched cf stext j js s out f' rc c e ls root f gl
    [Hd Hs] Sp Cn Cm Sy Se Es Th Sj Fi Ip Fl Al Dm H path contents d Src Ec Ts Nr Nv Le.
  assert (Pa : parse_args argv = URun a nc) by (apply PropC65.C65_exact; eauto).
  assert (Hq : qlc fuel wo a sched = Exited 0 out f') by (unfold qlc_command in H; rewrite Pa in H; exact H).
  assert (Sc : wo_schema wo (rc_schema_path rc) = SRDecoded js).
  { rewrite (Hs _ _ Es). apply PropC67.C67_schema. eauto. }
  assert (Pn : forall text ds d, env_parse e text = Ok ds -> In d ds -> parsed_named d).
  { intros text ds d0 E I. rewrite Hd in E. destruct (parse_query ck text) as [ds'|] eqn:Ep; [|discriminate]. injection E as ->. eapply C69_named; eauto. }
  destruct (C73_run_partial fuel wo a sched cf js s out f' Se Sc Ip Fl Al Dm Pn Hq path Src) as (contents' & d' & Ec' & Ep & K).
  assert (contents' = contents).
  { assert (X : f (env_locate e path) = Ok contents') by exact Ec'. rewrite Ec in X. congruence. }
  subst contents'.
  assert (d' = d).
  { rewrite Hd in Ep. apply C69_text in Ts. rewrite Ts in Ep. congruence. }
  subst d'.
  destruct (K Nr (text_vars_valid ck contents [d] d Ts (or_introl eq_refl)) Le) as (text & M & G & node & rest & Et & Rt & Im & Ic & Idf & _ & A).
  destruct (A Nv) as (-> & B).
  exists text, M, G, node. split; [exact Et|]. split; [exact Rt|]. split; [exact Im|]. split; [exact Ic|]. split; [exact Idf|].
  intros scalar_in hd amb v. destruct (B scalar_in hd amb v) as [B1 B2]. split; [exact B2|].
  intros Ti [|] n X; [apply request_lenient|]; eapply B1; eauto.
Qed.
Print Assumptions C73_text_partial.

From Verif Require PropC24.

(** ** Non-vacuity: input objects, an enum, a list, a variable with a default *)
Definition shop_json : jschema :=
  [object_type "Query" [plain_field "find" (Worlds.nonnull sstring)];
   PropC24.input_type "Filter" [plain_field "tags" (SelWorlds.list_of (Worlds.nonnull sstring)); plain_field "mood" (Worlds.nonnull (named_type "ENUM" "Mood"));
                                plain_field "sort" (named_type "INPUT_OBJECT" "Sort")];
   PropC24.input_type "Sort" [plain_field "by" (Worlds.nonnull sstring)];
   enum_type "Mood" ["GLAD"; "SAD"]; scalar_type "String"; scalar_type "Int"].
Definition shop : schema := Eval vm_compute in match load_schema shop_json with Ok s => s | Err _ => [] end.
Definition shop_text : string := Eval vm_compute in show_json (w_schema shop_json).
Definition shop_query : string := "query Q($f: Filter!, $t: [String!], $n: Int! = 3) { find(filter: $f, tags: $t, first: $n) }".
Definition shop_files : fs := ImportWorlds.files [("./x.graphql", shop_query); ("./schema.json", shop_text)].
Definition shop_world : world :=
  {| wo_env := text_env; wo_listing := flat_listing; wo_ncpus := 4; wo_config := fun _ => CRNotFound "not found";
     wo_schema := fun p => match shop_files p with Ok t => schema_of_text "" t | Err m => SRIoError m end; wo_fs := shop_files |}.
Lemma shop_text_read : schema_of_text "" shop_text = SRDecoded shop_json.
Proof. vm_compute. reflexivity. Qed.
Lemma shop_read path contents : is_source flat_listing "." path -> shop_files (env_locate text_env path) = Ok contents ->
  path = "./x.graphql" /\ contents = shop_query.
Proof. intros ->%PropC43.flat_source E. split; [reflexivity|]. vm_compute in E |- *. congruence. Qed.
Lemma shop_step n l t : ~ imports_at plain_config "./x.graphql" shop_query n l t.
Proof.
  intros H. pose proof (PropC35.imports_target _ _ _ _ _ _ H) as (L & E). destruct H as (q & _ & (rest & Eq & _) & _).
  destruct n as [|[|n]]; vm_compute in L; try discriminate; injection L as <-. discriminate.
Qed.
Lemma shop_reach t o : ~ reach text_env shop_files plain_config "./x.graphql" shop_query t o.
Proof. intros R. induction R as [n l t o A Eo|mid mc n l t o R IH A Eo]; [eapply shop_step; eauto|exact IH]. Qed.
Lemma shop_settled : settled shop_world (args_threads 1) config_default shop_json shop.
Proof.
  constructor.
  - reflexivity.
  - apply (introb_ok shop_json shop true); vm_compute; reflexivity.
  - apply json_nameableb_ok. vm_compute. reflexivity.
  - apply PropC43.C43_nonvacuous.
  - split.
    + intros x y l Hx Hy R. apply PropC43.flat_source in Hy. subst y. change (l <> "./x.graphql.d.ts").
      destruct R as [|contents file' contents' n l t E I A]; [apply PropC43.flat_source in Hx; subst; discriminate|]. exfalso.
      destruct (shop_read _ _ Hx E) as [-> ->]. destruct I as [[-> ->]|R]; [eapply shop_step; eauto|eapply shop_reach; eauto].
    + intros x y Hx Hy _. apply PropC43.flat_source in Hx. apply PropC43.flat_source in Hy. subst. auto.
  - intros p Hp. apply PropC43.flat_source in Hp. subst. discriminate.
  - intros p. exact plain_ok.
  - intros n t nm fs G E. apply aget_In in G. cbn in G.
    repeat (destruct G as [G|G]; [injection G as <- <-; try discriminate E; cbn in E; injection E as <- <-; (split; [reflexivity|]);
      (split; [repeat constructor; cbn; intuition discriminate|]); intros fn f0 I; cbn in I;
      repeat (destruct I as [I|I]; [inversion I; subst; cbn; repeat eexists|]); contradiction|]). destruct G.
  - intros a b x y Pe Ea Eb. apply path_eqb_same in Pe. change (shop_files a = Ok x) in Ea. change (shop_files b = Ok y) in Eb. unfold shop_files, ImportWorlds.files in Ea, Eb. cbn [aget] in Ea, Eb.
    unfold eqb, EqB_string in Ea, Eb.
    destruct (String.eqb_spec a "./x.graphql") as [->|]; [|destruct (String.eqb_spec a "./schema.json") as [->|]; [|discriminate]];
    (destruct (String.eqb_spec b "./x.graphql") as [->|]; [|destruct (String.eqb_spec b "./schema.json") as [->|]; [|discriminate]]); congruence || discriminate.
  - intros path contents t o Sp E R. exfalso. destruct (shop_read _ _ Sp E) as [-> ->]. eapply shop_reach; eauto.
  - left. reflexivity.
Qed.
Lemma shop_takes T k kind g : takes shop_json T k kind g ->
  T = "Filter" /\ k = "tags" /\ kind = "SCALAR" /\ g = GList (GNonNull (GNamed "String")) \/
  T = "Filter" /\ k = "mood" /\ kind = "ENUM" /\ g = GNonNull (GNamed "Mood") \/
  T = "Filter" /\ k = "sort" /\ kind = "INPUT_OBJECT" /\ g = GNamed "Sort" \/
  T = "Sort" /\ k = "by" /\ kind = "SCALAR" /\ g = GNonNull (GNamed "String").
Proof.
  intros (j & fs & f & L & K & Ef & Lf & Et). apply last_in in L. destruct L as [J <-]. cbn in J.
  repeat (destruct J as [<-|J]; [try discriminate K|]); try destruct J; injection Ef as <-;
    apply last_in in Lf; destruct Lf as [I <-]; cbn [In] in I.
  - destruct I as [<-|[<-|[<-|[]]]]; cbn [jf_type plain_field] in Et.
    + left. change (json_of "SCALAR" (GList (GNonNull (GNamed "String"))) = json_of kind g) in Et. apply json_of_inj in Et. destruct Et as [<- <-]. auto.
    + right. left. change (json_of "ENUM" (GNonNull (GNamed "Mood")) = json_of kind g) in Et. apply json_of_inj in Et. destruct Et as [<- <-]. auto.
    + right. right. left. change (json_of "INPUT_OBJECT" (GNamed "Sort") = json_of kind g) in Et. apply json_of_inj in Et. destruct Et as [<- <-]. auto.
  - destruct I as [<-|[]]. right. right. right. change (json_of "SCALAR" (GNonNull (GNamed "String")) = json_of kind g) in Et. apply json_of_inj in Et. destruct Et as [<- <-]. auto.
Qed.
Lemma shop_proper : inputs_proper shop_json.
Proof.
  constructor.
  - intros T j fs k f L K Ef Lf. apply last_in in L. destruct L as [J <-]. cbn in J.
    repeat (destruct J as [<-|J]; [try discriminate K|]); try destruct J; injection Ef as <-;
      apply last_in in Lf; destruct Lf as [I <-]; cbn [In] in I.
    + destruct I as [<-|[<-|[<-|[]]]].
      * exists "SCALAR", (GList (GNonNull (GNamed "String"))). cbn. auto 8.
      * exists "ENUM", (GNonNull (GNamed "Mood")). cbn. auto 8.
      * exists "INPUT_OBJECT", (GNamed "Sort"). cbn. auto 8.
    + destruct I as [<-|[]]. exists "SCALAR", (GNonNull (GNamed "String")). cbn. auto 8.
  - intros T k kind g H. apply shop_takes in H. destruct H as [(_ & _ & -> & ->)|[(_ & _ & -> & ->)|[(_ & _ & -> & ->)|(_ & _ & -> & ->)]]];
      eexists; (split; [apply lastb_ok; vm_compute; reflexivity|reflexivity]).
  - intros j J I. cbn in J. repeat (destruct J as [<-|J]; [try reflexivity; cbn in I; intuition discriminate|]). destruct J.
Qed.
Lemma shop_flat : flat_inputs shop_json.
Proof. intros T k kind g H. apply shop_takes in H. destruct H as [(_ & _ & _ & ->)|[(_ & _ & _ & ->)|[(_ & _ & _ & ->)|(_ & _ & _ & ->)]]]; cbn; lia. Qed.
Lemma shop_aliases : aliases_apart plain_config shop_json.
Proof.
  intros n x _ W. cbn in W. subst x. split; [cbn; intuition discriminate|]. intros y L. apply last_in in L. destruct L as [J En]. cbn in J.
  repeat (destruct J as [<-|J]; [discriminate En|]). destruct J.
Qed.
Lemma shop_names x : input_typename plain_config shop_json x -> ~ declares_name "Q" x.
Proof.
  intros L D. assert (Q : exists r, x = String "Q" r) by (destruct D as [->|[->|(r & ->)]]; cbn; eauto).
  destruct Q as (r & ->). destruct L as [L|[(n & _ & W)|(j & L & K)]].
  - cbn in L. intuition discriminate.
  - discriminate W.
  - apply last_in in L. destruct L as [J En]. cbn in J. repeat (destruct J as [<-|J]; [try discriminate En; destruct K; discriminate|]). destruct J.
Qed.
Definition shop_doc : definition := Eval vm_compute in match parse_query lenient shop_query with Some [d] => d | _ => DFrag pet_name end.
(** The values of scalars, as the surroundings have them *)
Definition shop_scalar (sc : scalar) (v : value) : Prop :=
  match sc with
  | ScBoolean => exists b, v = VBool b | ScString | ScId => exists x, v = VStr x | ScInt | ScFloat => exists r, v = VNum r
  | ScCustom _ => False
  end.
Lemma shop_loose js : loose plain_config js shop_scalar disk_amb.
Proof. intros b sc x v _ _ W H. destruct sc; cbn in W, H; subst; cbn; auto. Qed.
Lemma shop_tight js : tight plain_config js shop_scalar disk_amb.
Proof. intros b sc x v _ _ W H. destruct sc; cbn in W; subst; cbn in H |- *; try (destruct H as (y & ->); split; [eauto|discriminate]); destruct H. Qed.
(** what the schema says about names, for the examples *)
Lemma shop_input n : n = "Filter" \/ n = "Sort" -> exists j, last_named jt_name n shop_json j /\ jt_kind j = "INPUT_OBJECT".
Proof. intros [-> | ->]; eexists; (split; [apply lastb_ok; vm_compute; reflexivity|reflexivity]). Qed.
Lemma shop_mood si l hd n w : In w ["GLAD"; "SAD"] -> input_value shop_json si l hd (S n) "Mood" (VStr w).
Proof. intros I. right. left. eexists _, _, w. split; [apply lastb_ok; vm_compute; reflexivity|]. split; [reflexivity|]. split; [reflexivity|]. auto. Qed.
Lemma shop_string l hd n x : input_value shop_json shop_scalar l hd (S n) "String" (VStr x).
Proof. left. split; [left; cbn; auto|]. exists ScString. split; [constructor|cbn; eauto]. Qed.
Lemma shop_int l hd n x : input_value shop_json shop_scalar l hd (S n) "Int" (VNum x).
Proof. left. split; [left; cbn; auto|]. exists ScInt. split; [constructor|cbn; eauto]. Qed.
Lemma has_takes T k kind g j fs f : lastb jt_name T shop_json = Some j -> jt_kind j = "INPUT_OBJECT" -> jt_input_fields j = Some fs ->
  lastb jf_name k fs = Some f -> jf_type f = json_of kind g -> takes shop_json T k kind g.
Proof. intros A B C D E. apply lastb_ok in A. apply lastb_ok in D. exists j, fs, f. auto. Qed.
Lemma shop_has : takes shop_json "Filter" "tags" "SCALAR" (GList (GNonNull (GNamed "String"))) /\ takes shop_json "Filter" "mood" "ENUM" (GNonNull (GNamed "Mood")) /\
  takes shop_json "Filter" "sort" "INPUT_OBJECT" (GNamed "Sort") /\ takes shop_json "Sort" "by" "SCALAR" (GNonNull (GNamed "String")).
Proof. repeat split; eapply has_takes; vm_compute; reflexivity. Qed.
(** nested objects *)
Definition sort : value := VObj [("by", VStr "name")].
Definition filter : value := VObj [("sort", sort); ("tags", VList [VStr "a"; VStr "b"]); ("mood", VStr "SAD")].
Lemma shop_sort l hd n : input_value shop_json shop_scalar l hd (S (S n)) "Sort" sort.
Proof.
  right. right. destruct (shop_input "Sort") as (j & L & K); auto. exists j, [("by", VStr "name")]. split; auto. split; auto. split; auto. split.
  - intros k x E. cbn [aget] in E. unfold eqb, EqB_string in E. destruct (String.eqb_spec k "by") as [->|]; [|discriminate]. injection E as <-.
    exists "SCALAR", (GNonNull (GNamed "String")). split; [apply shop_has|]. split; [|discriminate]. right. apply shop_string.
  - intros k kind g T N E. apply shop_takes in T. destruct T as [(? & _)|[(? & _)|[(? & _)|(_ & -> & _)]]]; discriminate.
Qed.
Lemma shop_filter l hd n : input_value shop_json shop_scalar l hd (S (S (S n))) "Filter" filter.
Proof.
  right. right. destruct (shop_input "Filter") as (j & L & K); auto. eexists j, _. split; auto. split; auto. split; [reflexivity|]. split.
  - intros k x E. cbn [aget] in E. unfold eqb, EqB_string in E.
    destruct (String.eqb_spec k "sort") as [->|]; [|destruct (String.eqb_spec k "tags") as [->|]; [|destruct (String.eqb_spec k "mood") as [->|]; [|discriminate]]]; injection E as <-.
    + exists "INPUT_OBJECT", (GNamed "Sort"). split; [apply shop_has|]. right. apply shop_sort.
    + exists "SCALAR", (GList (GNonNull (GNamed "String"))). split; [apply shop_has|]. right. left. eexists. split; [reflexivity|].
      repeat apply Forall_cons; try apply Forall_nil; (split; [right; apply shop_string|discriminate]).
    + exists "ENUM", (GNonNull (GNamed "Mood")). split; [apply shop_has|]. split; [|discriminate]. right. apply shop_mood. cbn. auto.
  - intros k kind g T N E. apply shop_takes in T. destruct T as [(_ & _ & _ & ->)|[(_ & -> & _)|[(_ & _ & _ & ->)|(? & _)]]]; discriminate.
Qed.
Definition full_request : value := VObj [("n", VNum "7"); ("f", filter)].
Lemma shop_request hd : request shop_json shop_scalar false hd (doc_vars shop_doc) full_request.
Proof.
  exists 3. eexists. split; [reflexivity|]. split.
  - intros k x E. cbn [aget] in E. unfold eqb, EqB_string in E.
    destruct (String.eqb_spec k "n") as [->|]; [cbn; auto|]. destruct (String.eqb_spec k "f") as [->|]; [cbn; auto|discriminate].
  - intros d I. cbn in I. destruct I as [<-|[<-|[<-|[]]]].
    + split; [|discriminate]. right. apply (shop_filter _ _ 0).
    + left. reflexivity.
    + split; [|discriminate]. right. apply (shop_int _ _ 2).
Qed.
Definition no_default (T k : string) : Prop := False.
(** The run leaves an output for ./x.graphql and a globals file that read as [M] and [G] *)
Definition leaves (wo : world) (M G : list SpecRead.item) : Prop := exists out f' text gtext,
  qlc_command "" "" 30 wo ["--num-threads"; "1"] (repeat 0 90) = Exited 0 out f' /\
  f' "./x.graphql.d.ts" = Ok text /\ only_reads text M /\ f' "./graphql-globals.ts" = Ok gtext /\ only_reads gtext G.
Lemma shop_exact : exists M G, leaves shop_world M G /\ forall scalar_in has_default amb v,
  (loose plain_config shop_json scalar_in amb -> request shop_json scalar_in false has_default (doc_vars shop_doc) v ->
     exists n, module_allows "graphql-globals" G M amb n "QVariables" v) /\
  (tight plain_config shop_json scalar_in amb -> forall lenient n, module_allows "graphql-globals" G M amb n "QVariables" v ->
     request shop_json scalar_in lenient has_default (doc_vars shop_doc) v).
Proof.
  assert (Pa : parse_args ["--num-threads"; "1"] = URun (args_threads 1) false) by reflexivity.
  apply PropC65.C65_exact in Pa. destruct Pa as (its & Sp & Cn & Cm & Sy).
  assert (X : exists j, text_holds shop_text j /\ says_schema j shop_json /\ fits shop_json) by (apply (PropC67.C67_schema ""); exact shop_text_read).
  destruct X as (j & Th & Sj & Fi).
  assert (H : exists out f', qlc_command "" "" 30 shop_world ["--num-threads"; "1"] (repeat 0 90) = Exited 0 out f' /\
    exists text is, f' "./x.graphql.d.ts" = Ok text /\ only_reads text is /\ In (ItImport ["Filter"] "graphql-globals") is).
  { do 2 eexists. split; [vm_compute; reflexivity|]. do 2 eexists. split; [vm_compute; reflexivity|].
    split; [unfold only_reads; apply (reads_once 2000); vm_compute; reflexivity|]. right; left; reflexivity. }
  destruct H as (out & f' & H & text & is & Et & R & I).
  assert (Dk : on_disk lenient (fun _ => "syntax error") "" shop_world).
  { split; [reflexivity|]. intros p t E. cbn [shop_world wo_schema]. cbn [shop_world wo_fs wo_env] in E. change (shop_files p = Ok t) in E. rewrite E. reflexivity. }
  destruct (C73_text_partial lenient (fun _ => "syntax error") "" "" "" 30 shop_world its ["--num-threads"; "1"] (args_threads 1) false (repeat 0 90)
    config_default shop_text j shop_json shop out f' Dk Sp Cn Cm Sy shop_settled eq_refl Th Sj Fi shop_proper shop_flat shop_aliases)
    with (path := "./x.graphql") (contents := shop_query) (d := shop_doc) as (text' & M & G & node & Et' & R' & Im & _ & _ & A).
  - discriminate.
  - exact H.
  - apply PropC43.C43_nonvacuous.
  - reflexivity.
  - apply C69_text. vm_compute. reflexivity.
  - apply reservedb_ok. reflexivity.
  - discriminate.
  - exact shop_names.
  - assert (Ex : text' = text) by (assert (X : f' "./x.graphql.d.ts" = Ok text') by exact Et'; congruence). subst text'.
    assert (Ei : M = is) by (apply R; apply R'; reflexivity). subst M.
    assert (Ii : imports_from is "graphql-globals" "Filter") by (exists ["Filter"]; split; [exact I|left; reflexivity]).
    destruct (Im _ Ii) as (_ & gtext & Eg & Rg). exists is, G. split; [exists out, f', text, gtext; auto|exact A].
Qed.
Example C73_nonvacuous : exists M G, leaves shop_world M G /\
  request shop_json shop_scalar false no_default (doc_vars shop_doc) full_request /\
  exists n, module_allows "graphql-globals" G M disk_amb n "QVariables" full_request.
Proof.
  destruct shop_exact as (M & G & L & A). exists M, G. split; auto. split; [apply shop_request|].
  apply (A shop_scalar no_default disk_amb); [apply shop_loose|apply shop_request].
Qed.

(** ** Without the guards *)
Lemma allows_decl D base n name v d : allows D base n name v -> In d D -> decl_name d = name -> exists m, n = S m /\ decl_only (allows D base m) d v.
Proof. intros A I E. destruct n as [|n]; [destruct A|]. exists n. split; auto. apply (proj1 A); auto. Qed.

(** A variable with a default may be left out of a request, and one item may stand for a list; the type takes neither *)
Theorem C73_lenient_refuted : exists M G, leaves shop_world M G /\ loose plain_config shop_json shop_scalar disk_amb /\ tight plain_config shop_json shop_scalar disk_amb /\
  exists v w, (forall k, aget k v = None <-> aget k w = None \/ k = "n") /\
    request shop_json shop_scalar true no_default (doc_vars shop_doc) (VObj v) /\
    (forall n, ~ module_allows "graphql-globals" G M disk_amb n "QVariables" (VObj v)) /\
    aget "t" w = Some (VStr "a") /\
    request shop_json shop_scalar true no_default (doc_vars shop_doc) (VObj w) /\
    (forall n, ~ module_allows "graphql-globals" G M disk_amb n "QVariables" (VObj w)).
Proof.
  assert (L : exists M G, leaves shop_world M G /\ In (DObj "QVariables"
    [{| m_comment := ""; m_readonly := false; m_name := "f"; m_optional := false; m_type := XName "Filter" |};
     {| m_comment := ""; m_readonly := false; m_name := "n"; m_optional := false; m_type := XName "number" |};
     {| m_comment := ""; m_readonly := false; m_name := "t"; m_optional := true; m_type := XUnion (XArr (XName "string")) XNull |}]) (module_types M)).
  { eexists _, _. split.
    - do 4 eexists. split; [vm_compute; reflexivity|]. split; [vm_compute; reflexivity|]. split; [unfold only_reads; apply (reads_once 2000); vm_compute; reflexivity|].
      split; [vm_compute; reflexivity|]. unfold only_reads. apply (reads_once 2000). vm_compute. reflexivity.
    - vm_compute. right. left. reflexivity. }
  destruct L as (M & G & L & I). exists M, G. split; auto. split; [apply shop_loose|]. split; [apply shop_tight|].
  exists [("f", filter); ("t", VList [VStr "a"])], [("f", filter); ("t", VStr "a"); ("n", VNum "3")].
  split; [|split; [|split; [|split; [reflexivity|split]]]].
  - intros k. cbn [aget]. unfold eqb, EqB_string. destruct (String.eqb_spec k "f") as [->|]; [split; [discriminate|intros [?|?]; discriminate]|].
    destruct (String.eqb_spec k "t") as [->|]; [split; [discriminate|intros [?|?]; discriminate]|]. destruct (String.eqb_spec k "n") as [->|]; tauto.
  - exists 3. eexists. split; [reflexivity|]. split.
    + intros k x E. cbn [aget] in E. unfold eqb, EqB_string in E. destruct (String.eqb_spec k "f") as [->|]; [cbn; auto|]. destruct (String.eqb_spec k "t") as [->|]; [cbn; auto|discriminate].
    + intros d J. cbn in J. destruct J as [<-|[<-|[<-|[]]]].
      * split; [|discriminate]. right. apply (shop_filter _ _ 0).
      * right. left. eexists. split; [reflexivity|]. apply Forall_cons; [|apply Forall_nil]. split; [|discriminate]. right. apply (shop_string _ _ 2).
      * right. split; [reflexivity|discriminate].
  - intros n A. apply (allows_decl _ _ _ _ _ _ A) in I; [|reflexivity]. destruct I as (m & _ & (kvs & E & F) & _). injection E as <-.
    apply Forall_inv_tail, Forall_inv in F. discriminate F.
  - exists 3. eexists. split; [reflexivity|]. split.
    + intros k x E. cbn [aget] in E. unfold eqb, EqB_string in E. destruct (String.eqb_spec k "f") as [->|]; [cbn; auto|]. destruct (String.eqb_spec k "t") as [->|]; [cbn; auto|].
      destruct (String.eqb_spec k "n") as [->|]; [cbn; auto|discriminate].
    + intros d J. cbn in J. destruct J as [<-|[<-|[<-|[]]]].
      * split; [|discriminate]. right. apply (shop_filter _ _ 0).
      * right. right. split; [reflexivity|]. split; [discriminate|]. split; [|discriminate]. right. apply (shop_string _ _ 2).
      * split; [|discriminate]. right. apply (shop_int _ _ 2).
  - intros n A. apply (allows_decl _ _ _ _ _ _ A) in I; [|reflexivity]. destruct I as (m & _ & (kvs & E & F) & _). injection E as <-.
    apply Forall_inv_tail, Forall_inv_tail, Forall_inv in F. destruct F as [(l & E & _)|E]; discriminate E.
Qed.
Print Assumptions C73_lenient_refuted.

(** The numbers of TypeScript are more than the integers a server takes *)
Definition whole_scalar (sc : scalar) (v : value) : Prop :=
  match sc with ScInt => exists r, v = VNum r /\ Forall (fun a => 48 <= nat_of_ascii a <= 57) (list_ascii_of_string r) | _ => shop_scalar sc v end.
Theorem C73_number_refuted : exists M G, leaves shop_world M G /\ loose plain_config shop_json whole_scalar disk_amb /\
  exists v n, module_allows "graphql-globals" G M disk_amb n "QVariables" v /\
    forall lenient, ~ request shop_json whole_scalar lenient no_default (doc_vars shop_doc) v.
Proof.
  destruct shop_exact as (M & G & L & A). exists M, G. split; auto. split.
  { intros b sc x v Sb Si W H. destruct sc; try (eapply (shop_loose shop_json); [exact Sb|exact Si|exact W|exact H]). cbn in W. subst x. destruct H as (r & -> & _). cbn. eauto. }
  assert (R : request shop_json shop_scalar false no_default (doc_vars shop_doc) (VObj [("n", VNum "1.5"); ("f", filter)])).
  { exists 3. eexists. split; [reflexivity|]. split.
    - intros k x E. cbn [aget] in E. unfold eqb, EqB_string in E.
      destruct (String.eqb_spec k "n") as [->|]; [cbn; auto|]. destruct (String.eqb_spec k "f") as [->|]; [cbn; auto|discriminate].
    - intros d I. cbn in I. destruct I as [<-|[<-|[<-|[]]]].
      + split; [|discriminate]. right. apply (shop_filter _ _ 0).
      + left. reflexivity.
      + split; [|discriminate]. right. apply (shop_int _ _ 2). }
  destruct (proj1 (A shop_scalar no_default disk_amb _) (shop_loose _) R) as (n & X). eexists _, n. split; [exact X|].
  intros len (m & kvs & E & _ & K). injection E as <-. specialize (K _ (or_intror (or_intror (or_introl eq_refl)))). destruct K as [[E|K] _]; [discriminate E|].
  destruct m as [|m]; [destruct K|]. destruct K as [(_ & sc & Si & K)|[(j & vs & w & _ & _ & _ & _ & E)|(j & kvs & _ & _ & E & _)]]; try discriminate E.
  inversion Si as [| | | | |? N]; subst; [|exfalso; apply N; cbn; auto]. destruct K as (r & E & F). injection E as <-. inversion F as [|? ? _ F']. inversion F' as [|? ? X' _]. cbn in X'. lia.
Qed.
Print Assumptions C73_number_refuted.

(** A list of lists in an input object is written as one value *)
Definition grid_json : jschema :=
  [object_type "Query" [plain_field "find" (Worlds.nonnull sstring)];
   PropC24.input_type "Grid" [plain_field "cells" (SelWorlds.list_of (Worlds.nonnull (SelWorlds.list_of (named_type "SCALAR" "Int"))))];
   scalar_type "String"; scalar_type "Int"].
Definition grid_query : string := "query Q($g: Grid) { find(grid: $g) }".
Definition grid_files : fs := ImportWorlds.files [("./x.graphql", grid_query)].
Definition grid_world : world :=
  {| wo_env := text_env; wo_listing := flat_listing; wo_ncpus := 4; wo_config := fun _ => CRNotFound "not found";
     wo_schema := fun _ => SRDecoded grid_json; wo_fs := grid_files |}.
Definition grid_doc : definition := Eval vm_compute in match parse_query lenient grid_query with Some [d] => d | _ => DFrag pet_name end.
Theorem C73_nested_refuted : exists M G, leaves grid_world M G /\ loose plain_config grid_json shop_scalar disk_amb /\
  exists v, request grid_json shop_scalar false no_default (doc_vars grid_doc) v /\
    forall n, ~ module_allows "graphql-globals" G M disk_amb n "QVariables" v.
Proof.
  assert (L : exists M G, leaves grid_world M G /\
    In (DObj "QVariables" [{| m_comment := ""; m_readonly := false; m_name := "g"; m_optional := true; m_type := XUnion (XName "Grid") XNull |}]) (module_types M) /\
    (forall d, In d (module_types M) -> decl_name d <> "Grid") /\
    In (DObj "Grid" [{| m_comment := ""; m_readonly := false; m_name := "cells"; m_optional := true; m_type := XUnion (XName "number") XNull |}]) (module_types G) /\
    (forall d, In d (module_types G) -> decl_name d <> "number") /\ (forall vs, ~ In (ItEnum "number" vs) G)).
  { eexists _, _. split.
    - do 4 eexists. split; [vm_compute; reflexivity|]. split; [vm_compute; reflexivity|]. split; [unfold only_reads; apply (reads_once 2000); vm_compute; reflexivity|].
      split; [vm_compute; reflexivity|]. unfold only_reads. apply (reads_once 2000). vm_compute. reflexivity.
    - split; [vm_compute; right; left; reflexivity|]. split; [intros d [<-|[<-|[]]]; discriminate|]. split; [vm_compute; left; reflexivity|].
      split; [intros d [<-|[]]; discriminate|]. intros vs [E|[]]. discriminate E. }
  destruct L as (M & G & L & I & U & Ig & Ug & Ne). exists M, G. split; auto. split; [apply shop_loose|].
  exists (VObj [("g", VObj [("cells", VList [VList [VNum "1"]])])]). split.
  - exists 2. eexists. split; [reflexivity|]. split.
    + intros k x E. cbn [aget] in E. unfold eqb, EqB_string in E. destruct (String.eqb_spec k "g") as [->|]; [cbn; auto|discriminate].
    + intros d J. cbn in J. destruct J as [<-|[]]. right. right. right. eexists _, _.
      split; [apply lastb_ok; vm_compute; reflexivity|]. split; [reflexivity|]. split; [reflexivity|]. split.
      * intros k x E. cbn [aget] in E. unfold eqb, EqB_string in E. destruct (String.eqb_spec k "cells") as [->|]; [|discriminate]. injection E as <-.
        exists "SCALAR", (GList (GNonNull (GList (GNamed "Int")))). split.
        { eexists _, _, _. split; [apply lastb_ok; vm_compute; reflexivity|]. split; [reflexivity|]. split; [reflexivity|].
          split; [apply lastb_ok; vm_compute; reflexivity|reflexivity]. }
        right. left. eexists. split; [reflexivity|]. apply Forall_cons; [|apply Forall_nil]. split; [|discriminate]. right. left. eexists. split; [reflexivity|].
        apply Forall_cons; [|apply Forall_nil]. right. left. split; [left; cbn; auto|]. exists ScInt. split; [constructor|cbn; eauto].
      * intros k kind g (j & fs & f & Lj & _ & Ef & Lf & Et) N E. apply last_in in Lj. destruct Lj as [J _]. cbn in J.
        repeat (destruct J as [<-|J]; [try discriminate Ef|]); try destruct J. injection Ef as <-. apply last_in in Lf. destruct Lf as [[<-|[]] <-]. discriminate E.
  - intros n A. apply (allows_decl _ _ _ _ _ _ A) in I; [|reflexivity]. destruct I as (m & -> & (kvs & E & F) & _). injection E as <-.
    apply Forall_inv in F. cbn [m_type m_name denote aget eqb] in F. destruct F as [F|F]; [|discriminate F].
    destruct m as [|m]; [destruct F|]. destruct F as [_ [(d & Id & Ed)|B]]; [eapply U; eauto|].
    destruct B as [[_ [_ B]]|[_ B]]; [|destruct B].
    apply (allows_decl _ _ _ _ _ _ B) in Ig; [|reflexivity]. destruct Ig as (q & _ & (kvs & E & F) & _). injection E as <-.
    apply Forall_inv in F. destruct F as [F|F]; [|discriminate F]. destruct q as [|q]; [destruct F|]. destruct F as [_ [(d & Id & Ed)|F]]; [eapply Ug; eauto|].
    destruct F as [[(vs & X) _]|[_ (r & F)]]; [eapply Ne; eauto|discriminate F].
Qed.
Print Assumptions C73_nested_refuted.
