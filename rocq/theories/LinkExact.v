(** Lemmas: what is allowed by a module and the file of globals together. *)
From Verif Require Import SpecExact SpecWide SpecStmt ExactFacts LinkData LinkExt IntroCheck RespFacts RequestFacts.
From Verif Require Import PropC56.
From Verif Require PropC17.

Lemma decl_only_names (env env' : string -> value -> Prop) d v : (forall n y, In n (decl_uses d) -> env n y -> env' n y) -> decl_only env d v -> decl_only env' d v.
Proof. intros H [A B]. split; auto. eapply decl_values_names; eauto. Qed.
Lemma allows_names D (base base' : string -> value -> Prop) :
  (forall x v, PropC17.uses D x -> (forall d, In d D -> decl_name d <> x) -> base x v -> base' x v) ->
  forall n x v, (PropC17.uses D x \/ exists d, In d D /\ decl_name d = x) -> allows D base n x v -> allows D base' n x v.
Proof.
  intros H. induction n as [|n IH]; intros x v U A; [exact A|]. cbn [allows] in *. destruct A as [A B].
  assert (C : forall d, In d D -> decl_name d = x -> decl_only (allows D base' n) d v).
  { intros d I E. eapply decl_only_names; [|exact (A d I E)]. intros y w J. apply IH. left. exists d. auto. }
  split; auto. destruct B as [B|B]; auto.
  destruct (in_dec string_dec x (List.map decl_name D)) as [I|N].
  - left. apply in_map_iff in I. destruct I as (d & E & I). eauto.
  - right. destruct U as [U|(d & I & E)]; [|exfalso; apply N, in_map_iff; eauto]. apply H; auto. intros d I E. apply N, in_map_iff. eauto.
Qed.
Lemma allows_bare D base : forall n x v, allows D base n x v <-> allows (List.map bare_decl D) base n x v.
Proof.
  assert (Mb : forall ms, List.map m_name (List.map bare_member ms) = List.map m_name ms).
  { intros ms. rewrite map_map. reflexivity. }
  assert (Vb : forall env d v, decl_only env (bare_decl d) v <-> decl_only env d v).
  { intros env [a ms|a l] v; [|reflexivity]. unfold decl_only. cbn [bare_decl decl_values]. rewrite Mb. unfold obj_values.
    split; intros [(kvs & -> & F) Q]; (split; [exists kvs; split; [reflexivity|]; rewrite Forall_forall in *|exact Q]).
    - intros m I. specialize (F (bare_member m) (in_map _ _ _ I)). exact F.
    - intros m I. apply in_map_iff in I. destruct I as (m' & <- & I). exact (F m' I). }
  assert (Nb : forall d, decl_name (bare_decl d) = decl_name d) by (intros [? ?|? ?]; reflexivity).
  induction n as [|n IH]; intros x v; [reflexivity|]. cbn [allows].
  split; intros [A B]; (split; [|destruct B as [(d & I & E)|B]; [left|right; exact B]]).
  - intros d I E. apply in_map_iff in I. destruct I as (d' & <- & I). apply Vb. rewrite Nb in E.
    eapply decl_only_mono; [|apply (A d' I E)]. intros; apply IH; auto.
  - exists (bare_decl d). split; [apply in_map; auto|]. rewrite Nb. auto.
  - intros d I E. apply Vb. eapply decl_only_mono; [|apply (A (bare_decl d) (in_map _ _ _ I))]; [intros; apply IH; auto|]. rewrite Nb. auto.
  - apply in_map_iff in I. destruct I as (d' & <- & I). exists d'. rewrite Nb in E. auto.
Qed.

Section Link.
  Variables (c : cconfig) (js : jschema) (s : schema) (custom amb : string -> value -> Prop).
  Hypothesis In0 : introspection js s.
  Hypothesis Jn : json_nameable c js.
  Hypothesis Al : aliases_apart c js.
  Variables (G : list item) (l : list (string * jtypedef)).
  Hypothesis F : Forall2 (fun x it => stmt_for c (fst x) (snd x) it) l G.
  Hypothesis Ks : forall n j, In (n, j) l -> last_named jt_name n js j.
  (** As [outside], and input objects mean what they are declared as (variables types use them) *)
  Definition beyond (k : nat) (x : string) (v : value) : Prop :=
    outside js amb x v \/ exists j, last_named jt_name x js j /\ jt_kind j = "INPUT_OBJECT" /\ global_allows G amb k x v.
  Lemma beyond_ok k : surroundings c js custom amb -> base_ok c js custom (beyond k).
  Proof. intros Su. destruct (outside_ok c js custom amb Jn Al Su) as [A1 A2 A3 A4 A5]. constructor; intros; left; eauto. Qed.
  Lemma beyond_tight k : surroundings_tight c js custom amb -> base_tight c js custom (beyond k).
  Proof.
    intros Su.
    assert (Re : forall x, reserved x -> forall v, beyond k x v -> amb x v).
    { intros x Rx v [[[_ H]|(j & vs & w & L & K & _)]|(j & L & K & _)]; auto; pose proof (reserved_scalar c js x j Jn Rx L); congruence. }
    constructor.
    - intros v H. apply (st_boolean _ _ _ _ Su). apply Re; auto. right; vm_compute; tauto.
    - intros v H. apply (st_string _ _ _ _ Su). apply Re; auto. right; vm_compute; tauto.
    - intros v H. apply (st_number _ _ _ _ Su). apply Re; auto. right; vm_compute; tauto.
    - intros b j v L K [[[Sc _]|(j' & vs & w & L' & K' & E & I & ->)]|(j' & L' & K' & _)].
      + rewrite (Sc j L) in K. discriminate.
      + rewrite (last_fun _ _ _ _ _ L L'). eauto.
      + rewrite (last_fun _ _ _ _ _ L L') in K. congruence.
    - intros n x v j L K Si Sw H. apply (st_custom _ _ _ _ Su n x); [exists j; auto|exact Sw|]. destruct (Al n x (ex_intro _ j (conj L K)) Sw) as [_ Kj].
      destruct H as [[[_ H]|(j' & vs & w & L' & K' & _)]|(j' & L' & K' & _)]; auto; rewrite (Kj j' L') in K'; discriminate.
  Qed.

  Lemma beyond_means k : base_means c js (surrounding c amb) (beyond k).
  Proof.
    assert (Sc : forall x, (forall j, last_named jt_name x js j -> jt_kind j = "SCALAR") -> forall v, beyond k x v <-> amb x v).
    { intros x H v. split; [|intros A; left; left; auto].
      intros [[[_ A]|(j & vs & w & L & K & _)]|(j & L & K & _)]; auto; rewrite (H j L) in K; discriminate. }
    constructor.
    - intros b j sc x v L K Si Sw.
      assert (Kx : forall j', last_named jt_name x js j' -> jt_kind j' = "SCALAR").
      { destruct sc; try (cbn in Sw; subst x; intros j'; apply (reserved_scalar c js _ _ Jn); right; vm_compute; tauto).
        inversion Si as [| | | | |y Ny]; subst. eapply Al; [exists j; split; [exact L|exact K]|exact Sw]. }
      rewrite (Sc x Kx). split.
      + intros A. exists x. auto.
      + intros (x' & Sw' & A). rewrite (written_fun _ _ _ _ Sw Sw'). exact A.
    - intros b j v L K. split.
      + intros [[[Kb _]|(j' & vs & w & L' & K' & E & I & ->)]|(j' & L' & K' & _)].
        * rewrite (Kb j L) in K. discriminate.
        * rewrite (last_fun _ _ _ _ _ L L'). eauto.
        * rewrite (last_fun _ _ _ _ _ L L') in K. congruence.
      + intros (vs & w & E & I & ->). left. right. exists j, vs, w. auto.
  Qed.

  Variable m : tsfile.
  Hypothesis Gt : forall x, In x (tf_globals m) -> global_type s x.
  Hypothesis Cl : forall n, PropC17.uses (tf_decls m) n ->
       PropC17.declared (tf_decls m) n \/ PropC17.builtin n \/ PropC17.custom_scalar c s n \/ In n (tf_globals m).
  Hypothesis Nn : In (tf_node m) node_names.
  Hypothesis Gf : tf_globals_from m = cc_globals_module c.
  Hypothesis Gl : forall n, In n (tf_globals m) -> In n (List.map fst l).

  Lemma imported_what q y : imports_from (tsfile_items m) q y -> y = tf_node m \/ In y (tf_globals m).
  Proof.
    intros (ns & I & J). unfold tsfile_items in I. destruct I as [E|I]; [injection E as <- _; destruct J as [<-|[]]; auto|].
    apply in_app_or in I. destruct I as [I|I].
    - destruct (tf_globals m) as [|g gs]; [destruct I|]. destruct I as [E|[]]. injection E as <- _. right; exact J.
    - exfalso. apply in_app_or in I. destruct I as [I|[I|[I|[]]]]; try discriminate. apply in_map_iff in I. destruct I as (z & E & _). discriminate.
  Qed.
  Lemma imported_global y : In y (tf_globals m) -> imports_from (tsfile_items m) (cc_globals_module c) y.
  Proof. intros B. exists (tf_globals m). split; auto. unfold tsfile_items. right. apply in_or_app. left. rewrite Gf. destruct (tf_globals m); [destruct B|left; reflexivity]. Qed.
  Lemma link_means k y w : PropC17.uses (tf_decls m) y -> (forall d, In d (tf_decls m) -> decl_name d <> y) ->
    beyond (S k) y w <->
    imports_from (tsfile_items m) (cc_globals_module c) y /\ global_allows G amb (S k) y w \/
    (forall q, ~ imports_from (tsfile_items m) q y) /\ amb y w.
  Proof.
    intros U Nd.
    assert (Free : (forall j, last_named jt_name y js j -> jt_kind j = "SCALAR") -> y <> tf_node m -> (beyond (S k) y w <-> amb y w) /\ forall q, ~ imports_from (tsfile_items m) q y).
    { intros Sc Ny. split.
      - split; [|intros H; left; left; auto]. intros [[[_ H]|(j & vs & u & L & K & _)]|(j & L & K & _)]; auto; rewrite (Sc j L) in K; discriminate.
      - intros q I. destruct (imported_what q y I) as [E|J]; auto. destruct (global_kind js s y (in_loaded _ _ In0) (Gt y J)) as (j & L & K).
        rewrite (Sc j L) in K. destruct K; discriminate. }
    assert (Fin : (beyond (S k) y w <-> amb y w) /\ (forall q, ~ imports_from (tsfile_items m) q y) -> beyond (S k) y w <->
      imports_from (tsfile_items m) (cc_globals_module c) y /\ global_allows G amb (S k) y w \/ (forall q, ~ imports_from (tsfile_items m) q y) /\ amb y w).
    { intros [A B]. rewrite A. split; [intros H; right; auto|]. intros [[I _]|[_ H]]; auto. exfalso. eapply B; eauto. }
    destruct (Cl y U) as [Dy|[B|[B|B]]].
    - exfalso. unfold PropC17.declared in Dy. apply in_map_iff in Dy. destruct Dy as (d & E & I). eapply Nd; eauto.
    - apply Fin, Free.
      + intros j. apply (reserved_scalar c js); auto. apply builtin_reserved; auto.
      + intros E. rewrite <- E in Nn. clear - B Nn. destruct B as [<-|[<-|[<-|[<-|[]]]]]; cbn in Nn; intuition discriminate.
    - destruct (custom_named c js s y In0 B) as (n0 & Sn & W). destruct (Al n0 y Sn W) as [Nno Kj]. apply Fin, Free; auto. intros E. apply Nno. rewrite E. exact Nn.
    - pose proof (imported_global y B) as Im. destruct (global_kind js s y (in_loaded _ _ In0) (Gt y B)) as (j & L & K).
      pose proof (Gl y B) as J. apply in_map_iff in J. destruct J as ([y' j'] & E1 & J). cbn in E1. subst y'.
      assert (j' = j) by (eapply last_fun; [eapply Ks; exact J|exact L]). subst j'.
      destruct (proj2 (stmt_of c l G F) y j J) as (it & Iit & St).
      assert (Md : module_declares G y) by (destruct St; [right; eauto|left; eexists; split; [exact Iit|reflexivity]]).
      assert (X : beyond (S k) y w <-> global_allows G amb (S k) y w).
      { destruct K as [K|K].
        - assert (exists vs, jt_enum_values j = Some vs) as (vs & Ev) by (inversion St; [eauto|congruence]).
          split.
          + intros [[[Sc _]|(j' & vs' & u & L' & K' & E & I & ->)]|(j' & L' & K' & _)]; [rewrite (Sc j L) in K; discriminate| |rewrite (last_fun _ _ _ _ _ L L') in K; congruence].
            split; auto. apply (enum_allowed c js amb l G F Ks k y j vs (VStr u) J K Ev). rewrite (last_fun _ _ _ _ _ L L') in Ev. rewrite Ev in E. injection E as <-. eauto.
          + intros [_ A]. apply (enum_allowed c js amb l G F Ks k y j vs w J K Ev) in A. destruct A as (u & I & ->). left. right. exists j, vs, u. auto.
        - split.
          + intros [[[Sc _]|(j' & vs' & u & L' & K' & _)]|(j' & L' & K' & A)]; auto; [rewrite (Sc j L) in K; discriminate|rewrite (last_fun _ _ _ _ _ L L') in K; congruence].
          + intros A. right. exists j. auto. }
      rewrite X. split; [intros A; left; auto|]. intros [[_ A]|[N _]]; auto. exfalso. eapply N; eauto.
  Qed.
  Lemma linked_allows n x v : PropC17.declared (tf_decls m) x ->
    allows (tf_decls m) (beyond n) n x v <-> module_allows (cc_globals_module c) G (tsfile_items m) amb n x v.
  Proof.
    intros D. unfold module_allows.
    assert (Ty : module_types (tsfile_items m) = List.map bare_decl (tf_decls m)) by (rewrite <- items_decls; reflexivity).
    rewrite Ty. rewrite <- (allows_bare (tf_decls m)). destruct n as [|n]; [reflexivity|].
    assert (Dx : PropC17.uses (tf_decls m) x \/ exists d, In d (tf_decls m) /\ decl_name d = x).
    { right. unfold PropC17.declared in D. apply in_map_iff in D. destruct D as (d & E & I). eauto. }
    split; apply allows_names; auto; intros y w U Nd; apply (link_means n y w U Nd).
  Qed.
End Link.
