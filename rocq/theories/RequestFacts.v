(** Lemmas for C73: values of input types and of the statements of the globals module. *)
From Verif Require Export SpecInput LinkData.
From Verif Require Import ShareWorlds GlobalRead JsonCheck WrittenEq Package RespFacts InputFacts VarFacts DeclFacts PropC22 PropC56 PropC04 PropC49 PropC18 PropC35.
From Verif Require PropC17 PropC13.

(** *** Values of type references *)
Lemma value_null_dec (v : value) : {v = VNull} + {v <> VNull}.
Proof. destruct v; first [left; reflexivity|right; discriminate]. Qed.
Lemma ginput_false inner g : forall v, ginput false inner g v <-> gvalues inner g v.
Proof.
  induction g as [b|g IH|g IH]; intros v; cbn [ginput gvalues]; [reflexivity| |].
  - split.
    + intros [H|[(l & -> & F)|[H _]]]; [auto| |discriminate]. right. exists l. split; auto. eapply Forall_impl; [|exact F]. intros a. apply IH.
    + intros [H|(l & -> & F)]; [auto|]. right. left. exists l. split; auto. eapply Forall_impl; [|exact F]. intros a. apply IH.
  - rewrite IH. reflexivity.
Qed.
Lemma ginput_mono len len' (inner inner' : string -> value -> Prop) g : (len = true -> len' = true) -> (forall y, inner (gbase g) y -> inner' (gbase g) y) ->
  forall v, ginput len inner g v -> ginput len' inner' g v.
Proof.
  intros Hl. induction g as [b|g IH|g IH]; cbn [gbase ginput]; intros H v.
  - intros [E|E]; auto.
  - intros [E|[(l & -> & F)|(E & N & X)]]; [auto| |].
    + right. left. exists l. split; auto. eapply Forall_impl; [|exact F]. intros a. apply IH. exact H.
    + right. right. split; auto.
  - intros [X N]. split; [apply IH; auto|exact N].
Qed.
Lemma input_value_mono js si len len' hd n : (len = true -> len' = true) -> forall n' b v, n <= n' -> input_value js si len hd n b v -> input_value js si len' hd n' b v.
Proof.
  intros Hl. induction n as [|n IH]; intros [|n'] b v Le; try (intros []; fail); [lia|].
  intros [H|[H|(j & kvs & L & K & Ev & A & B)]]; [left; exact H|right; left; exact H|]. right. right. exists j, kvs. split; auto. split; auto. split; auto. split.
  - intros k x E. destruct (A k x E) as (kind & g & T & X). exists kind, g. split; auto. revert X. apply ginput_mono; auto. intros y. apply IH. lia.
  - intros k kind g T N E. destruct (B k kind g T N E). auto.
Qed.
(** A request that is spelled out is a request *)
Lemma request_lenient js si hd vars v : request js si false hd vars v -> request js si true hd vars v.
Proof.
  intros (n & kvs & E & A & B). exists n, kvs. split; auto. split; auto. intros d I. specialize (B d I). destruct (aget (vd_name d) kvs).
  - revert B. apply ginput_mono; auto. intros y. apply input_value_mono; auto.
  - destruct B as [B|[B _]]; [auto|discriminate].
Qed.
Lemma json_of_inj k k' g : forall g', json_of k g = json_of k' g' -> (g = g' /\ k = k').
Proof.
  induction g as [b|g IH|g IH]; intros [b'|g'|g']; cbn [json_of]; intros E; try discriminate E.
  - injection E as -> ->. auto.
  - injection E as E. destruct (IH g' E) as [-> ->]. auto.
  - injection E as E. destruct (IH g' E) as [-> ->]. auto.
Qed.
Lemma takes_fun js T k kind g kind' g' : takes js T k kind g -> takes js T k kind' g' -> kind = kind' /\ g = g'.
Proof.
  intros (j & fs & f & L & _ & E & Lf & Et) (j' & fs' & f' & L' & _ & E' & Lf' & Et').
  pose proof (last_fun _ _ _ _ _ L L') as ->. rewrite E in E'. injection E' as <-. pose proof (last_fun _ _ _ _ _ Lf Lf') as ->.
  rewrite Et in Et'. apply json_of_inj in Et'. tauto.
Qed.

(** *** Names of scalars *)
Lemma scalar_total b : exists sc, scalar_is b sc.
Proof.
  destruct (in_dec string_dec b ["Boolean"; "String"; "Float"; "Int"; "ID"]) as [H|H]; [|eexists; apply si_custom; exact H].
  destruct H as [<-|[<-|[<-|[<-|[<-|[]]]]]]; eexists; constructor.
Qed.
Lemma scalar_fun b sc sc' : scalar_is b sc -> scalar_is b sc' -> sc = sc'.
Proof. intros H H'. destruct H; inversion H'; subst; auto; exfalso; match goal with N : ~ In _ _ |- _ => apply N; cbn; tauto end. Qed.
Lemma scalar_text_written c b sc : scalar_is b sc -> scalar_written c sc (scalar_text (cc_bottom c) b).
Proof.
  intros H. destruct H as [| | | | |n N]; try reflexivity. unfold scalar_written.
  assert (E : is_builtin n = false).
  { destruct (is_builtin n) eqn:E; auto. exfalso. apply N. unfold is_builtin in E. apply existsb_exists in E. destruct E as (x & I & E).
    apply String.eqb_eq in E. subst x. cbn in I |- *. tauto. }
  rewrite (scalar_custom _ _ E). destruct (cc_bottom c); reflexivity.
Qed.
Lemma builtin_in b : is_builtin b = true <-> In b builtin_scalars.
Proof. unfold is_builtin. rewrite existsb_exists. split; [intros (x & I & E); apply String.eqb_eq in E; subst; auto|intros I; exists b; split; auto; apply String.eqb_refl]. Qed.
Lemma scalar_text_builtin c b : In b builtin_scalars -> In (scalar_text (cc_bottom c) b) ["boolean"; "string"; "number"].
Proof. intros [<-|[<-|[<-|[<-|[<-|[]]]]]]; vm_compute; tauto. Qed.
Lemma scalar_text_custom c b : ~ In b builtin_scalars -> custom_written c b (scalar_text (cc_bottom c) b).
Proof.
  intros N. assert (E : is_builtin b = false) by (destruct (is_builtin b) eqn:E; auto; apply builtin_in in E; contradiction).
  unfold custom_written. rewrite (scalar_custom _ _ E). destruct (cc_bottom c); reflexivity.
Qed.

Lemma written_fun c sc x y : scalar_written c sc x -> scalar_written c sc y -> x = y.
Proof. destruct sc; cbn; try congruence. destruct (cc_bottom c); congruence. Qed.

(** *** Scalars that may be null *)
Lemma snug_list inner g v : snug_values inner (GList g) v <-> exists l, v = VList l /\ Forall (wide_values inner g) l.
Proof. cbn [snug_values]. unfold wide_values. destruct g; reflexivity. Qed.
Lemma snug_values_mono (inner inner' : value -> Prop) g : (forall y, inner y -> inner' y) -> forall v, snug_values inner g v -> snug_values inner' g v.
Proof.
  intros H. induction g as [b|g IH|g IH]; intros v; [apply H| |apply IH].
  rewrite !snug_list. intros (l & -> & F). exists l. split; auto. eapply Forall_impl; [|exact F]. intros w. unfold wide_values. destruct g; auto; intros [X|X]; auto.
Qed.
Lemma wide_values_mono (inner inner' : value -> Prop) g : (forall y, inner y -> inner' y) -> forall v, wide_values inner g v -> wide_values inner' g v.
Proof. intros H v. pose proof (snug_values_mono inner inner' g H v) as M. unfold wide_values. destruct g; auto; intros [X|X]; auto. Qed.
Lemma snug_gvalues (inner : value -> Prop) g : ~ inner VNull -> forall v, snug_values inner g v <-> gvalues (fun _ => inner) g v /\ v <> VNull.
Proof.
  intros N. induction g as [b|g IH|g IH]; intros v.
  - cbn. split; [intros X; split; auto; intros ->; auto|intros [[->|X] Y]; auto; congruence].
  - rewrite snug_list. cbn [gvalues].
    assert (W : forall w, wide_values inner g w <-> gvalues (fun _ => inner) g w).
    { intros w. unfold wide_values. destruct g as [b|g|g].
      - rewrite IH. cbn. split; [intros [->|[X _]]; auto|]. intros [->|X]; auto. destruct (value_null_dec w) as [->|]; auto.
      - rewrite IH. split; [intros [->|[X _]]; auto; left; reflexivity|]. intros X. destruct (value_null_dec w) as [->|]; auto.
      - rewrite IH. cbn. tauto. }
    split.
    + intros (l & -> & F). split; [|discriminate]. right. exists l. split; auto. eapply Forall_impl; [|exact F]. intros w. apply W.
    + intros [[->|(l & -> & F)] X]; [congruence|]. exists l. split; auto. eapply Forall_impl; [|exact F]. intros w. apply W.
  - cbn [snug_values gvalues]. rewrite IH. tauto.
Qed.
Lemma wide_gvalues (inner : value -> Prop) g : ~ inner VNull -> forall v, wide_values inner g v <-> gvalues (fun _ => inner) g v.
Proof.
  intros N v. pose proof (snug_gvalues inner g N v) as H. unfold wide_values. destruct g as [b|g|g]; rewrite H.
  - cbn. split; [intros [->|[X _]]; auto|]. intros [->|X]; auto. destruct (value_null_dec v) as [->|]; auto.
  - split; [intros [->|[X _]]; auto; left; reflexivity|]. intros X. destruct (value_null_dec v) as [->|]; auto.
  - cbn. tauto.
Qed.
(** from requests that a server takes, and to such *)
Lemma wide_taken c js si hd amb : tight c js si amb -> forall n b v, wide_value js (surrounding c amb) n b v -> input_value js si false hd n b v /\ v <> VNull.
Proof.
  intros Ti. induction n as [|n IH]; [intros b v []|]. intros b v [(Sb & sc & Si & x & W & A)|[(j & vs & w & L & K & Ev & I & ->)|(j & kvs & L & K & -> & A & B)]].
  - destruct (Ti b sc x v Sb Si W A) as [X N]. split; auto. left. eauto.
  - split; [|discriminate]. right. left. exists j, vs, w. auto.
  - split; [|discriminate]. right. right. exists j, kvs. split; auto. split; auto. split; auto. split.
    + intros k x E. destruct (A k x E) as (kind & g & T & X). exists kind, g. split; auto. apply ginput_false.
      apply wide_gvalues in X; [|intros Y; apply IH in Y; destruct Y; congruence]. revert X. apply gvalues_mono. intros y Y. apply IH. exact Y.
    + intros k kind g T N E. exfalso. exact (B k kind g T N E).
Qed.
Lemma wide_request_taken c js si hd amb vars v : tight c js si amb -> wide_request js (surrounding c amb) vars v -> request js si false hd vars v.
Proof.
  intros Ti (n & kvs & -> & Ks & Vs). exists n, kvs. split; auto. split; auto. intros d I. specialize (Vs d I). destruct (aget (vd_name d) kvs) as [x|]; auto.
  apply ginput_false. apply wide_gvalues in Vs; [|intros Y; apply (wide_taken c js si hd amb Ti) in Y; destruct Y; congruence].
  revert Vs. apply gvalues_mono. intros y Y. apply (wide_taken c js si hd amb Ti) in Y. apply Y.
Qed.
Lemma taken_wide c js si hd amb : loose c js si amb -> forall n b v, input_value js si false hd n b v -> v <> VNull -> wide_value js (surrounding c amb) n b v.
Proof.
  intros Lo. induction n as [|n IH]; [intros b v []|]. intros b v [(Sb & sc & Si & X)|[H|(j & kvs & L & K & -> & A & B)]] N.
  - left. split; auto. exists sc. split; auto. exists (scalar_text (cc_bottom c) b). pose proof (scalar_text_written c b sc Si) as W. split; auto. eapply Lo; eauto.
  - right. left. exact H.
  - right. right. exists j, kvs. split; auto. split; auto. split; auto. split.
    + intros k x E. destruct (A k x E) as (kind & g & T & X). exists kind, g. split; auto. apply ginput_false in X. apply gvalues_some in X.
      apply (wide_values_mono (fun y => wide_value js (surrounding c amb) n (gbase g) y /\ y <> VNull)); [tauto|]. apply wide_gvalues; [tauto|].
      revert X. apply gvalues_mono. intros y [Y Ny]. split; auto.
    + intros k kind g T Nn E. destruct (B k kind g T Nn E) as [Z _]. discriminate.
Qed.
Lemma taken_request_wide c js si hd amb vars v : loose c js si amb -> request js si false hd vars v -> wide_request js (surrounding c amb) vars v.
Proof.
  intros Lo (n & kvs & -> & Ks & Vs). exists n, kvs. split; auto. split; auto. intros d I. specialize (Vs d I). destruct (aget (vd_name d) kvs) as [x|].
  - apply ginput_false in Vs. apply gvalues_some in Vs.
    apply (wide_values_mono (fun y => wide_value js (surrounding c amb) n (gbase (vgtype d)) y /\ y <> VNull)); [tauto|]. apply wide_gvalues; [tauto|].
    revert Vs. apply gvalues_mono. intros y [Y Ny]. split; auto. eapply taken_wide; eauto.
  - destruct Vs as [Vs|[Vs _]]; [exact Vs|discriminate].
Qed.
Lemma wide_value_mono js si n : forall n' b v, n <= n' -> wide_value js si n b v -> wide_value js si n' b v.
Proof.
  induction n as [|n IH]; intros [|n'] b v Le; try (intros []; fail); [lia|].
  intros [H|[H|(j & kvs & L & K & Ev & A & B)]]; [left; exact H|right; left; exact H|]. right. right. exists j, kvs. split; auto. split; auto. split; auto. split; auto.
  intros k x E. destruct (A k x E) as (kind & g & T & X). exists kind, g. split; auto. revert X. apply wide_values_mono. intros y. apply IH. lia.
Qed.

(** *** Acceptance *)
Lemma allows_accepts D base n : forall x v, allows D base n x v -> accepts D base n x v.
Proof.
  induction n as [|n IH]; intros x v; [intros []|]. cbn [allows accepts]. intros [A B]. split; auto. intros d I E. destruct (A d I E) as [H _].
  destruct d as [a ms|a l]; cbn [decl_values] in *.
  - destruct H as (kvs & Ev & F). exists kvs. split; auto. eapply Forall_impl; [|exact F]. intros m Hm. cbn beta in Hm |- *.
    destruct (aget (m_name m) kvs); auto. revert Hm. apply denote_mono. auto.
  - destruct H as (y & J & X). eauto.
Qed.
(** A name that is not declared *)
Lemma allows_free D base n x v : (forall d, In d D -> decl_name d <> x) -> allows D base (S n) x v <-> base x v.
Proof.
  intros N. cbn [allows]. split.
  - intros [_ [(d & I & E)|H]]; auto. exfalso. exact (N d I E).
  - intros H. split; auto. intros d I E. exfalso. exact (N d I E).
Qed.

Section Globals.
  Variables (c : cconfig) (js : jschema) (amb : string -> value -> Prop).
  Hypothesis Jn : json_nameable c js.
  Hypothesis Al : aliases_apart c js.
  Hypothesis Ip : inputs_proper js.
  Hypothesis Fl : flat_inputs js.
  Variables (l : list (string * jtypedef)) (G : list item).
  Hypothesis F : Forall2 (fun x it => stmt_for c (fst x) (snd x) it) l G.
  Hypothesis Ks : forall n j, In (n, j) l -> last_named jt_name n js j.
  Hypothesis Cl : forall n k kind g, In n (List.map fst l) -> takes js n k kind g -> kind <> "SCALAR" -> In (gbase g) (List.map fst l).
  Notation base := (enum_or G amb).
  Notation D := (module_types G).

  (** What [G] declares is an enum or input object of the introspection data *)
  Lemma declared_kind x : (exists d, In d D /\ decl_name d = x) \/ (exists vs, In (ItEnum x vs) G) ->
    exists j, last_named jt_name x js j /\ (jt_kind j = "ENUM" \/ jt_kind j = "INPUT_OBJECT").
  Proof.
    intros [(d & I & E)|(vs & I)].
    - apply in_types in I. destruct (proj1 (stmt_of c l G F) _ I) as (n & j & J & S). inversion S; subst. cbn [decl_name]. eauto.
    - destruct (proj1 (stmt_of c l G F) _ I) as (n & j & J & S). inversion S; subst. eauto.
  Qed.
  (** The name of a scalar is not declared *)
  Lemma scalar_free b : scalar_known js b -> forall j, last_named jt_name (scalar_text (cc_bottom c) b) js j -> jt_kind j = "SCALAR".
  Proof.
    intros Sb j L. destruct (in_dec string_dec b builtin_scalars) as [I|N].
    - apply (reserved_scalar c js (scalar_text (cc_bottom c) b)); auto. destruct (scalar_text_builtin c b I) as [<-|[<-|[<-|[]]]]; right; vm_compute; tauto.
    - destruct Sb as [I|Sb]; [contradiction|]. destruct (Al b _ Sb (scalar_text_custom c b N)) as [_ K]. apply K. exact L.
  Qed.
  Lemma scalar_allowed n b v : scalar_known js b -> allows D base (S n) (scalar_text (cc_bottom c) b) v <-> amb (scalar_text (cc_bottom c) b) v.
  Proof.
    intros Sb. rewrite allows_free.
    - unfold enum_or. split.
      + intros [[(vs & I) _]|[_ H]]; auto. destruct (declared_kind _ (or_intror (ex_intro _ vs I))) as (j & L & K).
        pose proof (scalar_free b Sb j L). destruct K; congruence.
      + intros H. right. split; auto. intros vs I. destruct (declared_kind _ (or_intror (ex_intro _ vs I))) as (j & L & K).
        pose proof (scalar_free b Sb j L). destruct K; congruence.
    - intros d I E. destruct (declared_kind _ (or_introl (ex_intro _ d (conj I E)))) as (j & L & K).
      pose proof (scalar_free b Sb j L). destruct K; congruence.
  Qed.
  Lemma enum_allowed n b j vs v : In (b, j) l -> jt_kind j = "ENUM" -> jt_enum_values j = Some vs ->
    allows D base (S n) b v <-> exists w, In w vs /\ v = VStr w.
  Proof.
    intros I K E.
    assert (Nt : forall d, In d D -> decl_name d <> b).
    { intros d Id Ed. apply in_types in Id. destruct (proj1 (stmt_of c l G F) _ Id) as (m & j' & I' & S). inversion S; subst. cbn [decl_name] in *.
      pose proof (last_fun _ _ _ _ _ (Ks _ _ I) (Ks _ _ I')). congruence. }
    rewrite <- (enum_accepted c js l G amb F Ks b j vs v I K E). split.
    - intros A. exists (S n). split; [|apply allows_accepts; exact A].
      destruct (proj2 (stmt_of c l G F) b j I) as (it & Iit & S). inversion S; subst; [right; eauto|congruence].
    - intros (k & _ & A). destruct k as [|k]; [destruct A|]. rewrite allows_free by exact Nt. destruct A as [_ [(d & Id & Ed)|A]]; auto. exfalso. eapply Nt; eauto.
  Qed.

  (** [b] is a type of this kind, and declared if it is not a scalar *)
  Definition present (kind b : string) : Prop :=
    kind = "SCALAR" /\ scalar_known js b \/
    exists j, In (b, j) l /\ jt_kind j = kind /\ (kind = "ENUM" \/ kind = "INPUT_OBJECT").
  Lemma takes_present n k kind g : In n (List.map fst l) -> takes js n k kind g -> present kind (gbase g).
  Proof.
    intros I T. destruct (ip_kinds _ Ip _ _ _ _ T) as (j & L & K). pose proof T as (j0 & fs & f & L0 & K0 & Ef & Lf & Et).
    destruct (ip_refs _ Ip _ _ _ _ _ L0 K0 Ef Lf) as (kind' & g' & Et' & Ki & _). rewrite Et in Et'. apply json_of_inj in Et'. destruct Et' as [_ <-].
    cbn in Ki. destruct Ki as [<-|Ki]; [left; split; auto; right; exists j; auto|]. right.
    assert (J : In (gbase g) (List.map fst l)) by (eapply Cl; eauto; destruct Ki as [<-|[<-|[]]]; discriminate).
    apply in_map_iff in J. destruct J as ([b' j'] & E & J). cbn in E. subst b'. exists j'. split; auto.
    rewrite (last_fun _ _ _ _ _ (Ks _ _ J) L). split; auto. destruct Ki as [<-|[<-|[]]]; auto.
  Qed.
  Lemma input_decl b j fs d : In (b, j) l -> jt_kind j = "INPUT_OBJECT" -> jt_input_fields j = Some fs -> In d D -> decl_name d = b ->
    exists ms, d = DObj b ms /\ NoDup (List.map m_name ms) /\ (forall f, In f fs -> exists m, In m ms /\ m_name m = jf_name f) /\
      (forall m, In m ms -> exists f, last_named jf_name (m_name m) fs f /\ member_for c f m).
  Proof.
    intros I K E Id Ed. apply in_types in Id. destruct (proj1 (stmt_of c l G F) _ Id) as (m & j' & I' & S).
    inversion S as [|fs' ms K1 E1 N So A B]; subst. cbn [decl_name] in *. assert (j' = j) by (eapply last_fun; eauto). subst j'.
    rewrite E in E1. injection E1 as <-. exists ms. auto.
  Qed.
  Lemma member_means b j fs k f m kind g : In (b, j) l -> jt_kind j = "INPUT_OBJECT" -> jt_input_fields j = Some fs ->
    last_named jf_name k fs f -> member_for c f m -> takes js b k kind g ->
    In kind taken_kinds /\ valid_gtype g = true /\ m_optional m = nullable g /\
    forall env v, denote env (m_type m) v <-> wide_values (env (input_base (cc_bottom c) kind (gbase g))) g v.
  Proof.
    intros I K E Lf (_ & _ & _ & M) T. pose proof (Ks _ _ I) as L. pose proof T as (j' & fs' & f' & L' & _ & E' & Lf' & Et).
    pose proof (last_fun _ _ _ _ _ L L') as <-. rewrite E in E'. injection E' as <-. pose proof (last_fun _ _ _ _ _ Lf Lf') as <-.
    destruct (ip_refs _ Ip _ _ _ _ _ L K E Lf) as (kind' & g' & Et' & Ki & V). rewrite Et in Et'. apply json_of_inj in Et'. destruct Et' as [<- <-].
    split; auto. split; auto. destruct (M kind g) as (Mo & _ & Mw); auto. eapply Fl; eauto.
  Qed.
  Lemma field_takes b j fs k f : In (b, j) l -> jt_kind j = "INPUT_OBJECT" -> jt_input_fields j = Some fs -> last_named jf_name k fs f ->
    exists kind g, takes js b k kind g.
  Proof.
    intros I K E Lf. destruct (ip_refs _ Ip _ _ _ _ _ (Ks _ _ I) K E Lf) as (kind & g & Et & _). exists kind, g. exists j, fs, f.
    split; [exact (Ks _ _ I)|]. auto.
  Qed.

  Lemma input_base_scalar b : input_base (cc_bottom c) "SCALAR" b = scalar_text (cc_bottom c) b.
  Proof. reflexivity. Qed.
  (** The values allowed under the name of a type *)
  Lemma allowed_wide : forall n kind b v, present kind b ->
    allows D base n (input_base (cc_bottom c) kind b) v <-> wide_value js (surrounding c amb) n b v.
  Proof.
    induction n as [|n IH]; [reflexivity|]. intros kind b v P.
    assert (Ks' : forall j j', In (b, j) l -> last_named jt_name b js j' -> j' = j) by (intros j j' I L; eapply last_fun; eauto).
    destruct P as [[-> Sb]|(j & I & K & Ke)].
    - rewrite input_base_scalar, (scalar_allowed n b v Sb). split.
      + intros A. left. split; auto. destruct (scalar_total b) as (sc & Si). exists sc. split; auto. exists (scalar_text (cc_bottom c) b).
        split; [apply scalar_text_written; exact Si|exact A].
      + intros [(_ & sc & Si & x & W & A)|[(j & vs & w & L & K & _)|(j & kvs & L & K & _)]].
        * rewrite (written_fun _ _ _ _ (scalar_text_written c b sc Si) W). exact A.
        * exfalso. destruct Sb as [Ib|(j' & L' & K')]; [|rewrite (last_fun _ _ _ _ _ L L') in K; congruence].
          pose proof (last_in _ _ _ _ L) as [Ij En]. rewrite (ip_builtin _ Ip j Ij) in K; [discriminate|rewrite En; exact Ib].
        * exfalso. destruct Sb as [Ib|(j' & L' & K')]; [|rewrite (last_fun _ _ _ _ _ L L') in K; congruence].
          pose proof (last_in _ _ _ _ L) as [Ij En]. rewrite (ip_builtin _ Ip j Ij) in K; [discriminate|rewrite En; exact Ib].
    - assert (Ns : ~ scalar_known js b).
      { pose proof (Ks _ _ I) as L. intros [Ib|(j' & L' & K')].
        - pose proof (last_in _ _ _ _ L) as [Ij En]. rewrite (ip_builtin _ Ip j Ij) in K; [destruct Ke; congruence|rewrite En; exact Ib].
        - rewrite (last_fun _ _ _ _ _ L L') in K. destruct Ke; congruence. }
      destruct Ke as [-> | ->].
      + change (input_base (cc_bottom c) "ENUM" b) with b.
        assert (Ev : exists vs, jt_enum_values j = Some vs).
        { destruct (proj2 (stmt_of c l G F) b j I) as (it & _ & S). inversion S; subst; [eauto|congruence]. }
        destruct Ev as (vs & Ev). rewrite (enum_allowed n b j vs v I K Ev). split.
        * intros (w & J & ->). right. left. exists j, vs, w. split; [exact (Ks _ _ I)|]. auto.
        * intros [[Sb _]|[(j' & vs' & w & L & _ & Ev' & J & ->)|(j' & kvs & L & K' & _)]]; [contradiction| |]; rewrite (Ks' _ _ I L) in *; [|congruence].
          assert (vs' = vs) by congruence. subst vs'. eauto.
      + change (input_base (cc_bottom c) "INPUT_OBJECT" b) with b.
        destruct (proj2 (stmt_of c l G F) b j I) as (it & Iit & S). inversion S as [|fs ms0 K1 E1 N0 So0 H10 H20]; subst; [congruence|]. clear S.
        assert (Ib : In b (List.map fst l)) by (apply in_map_iff; exists (b, j); auto). split.
        * intros [A B]. destruct (A (DObj b ms0)) as [(kvs & -> & Fm) Ex]; [apply in_types; exact Iit|reflexivity|].
          right. right. exists j, kvs. split; [exact (Ks _ _ I)|]. split; auto. split; auto. split.
          -- intros k x Ek. pose proof (Ex kvs k x eq_refl Ek) as J. apply in_map_iff in J. destruct J as (m & <- & J).
             destruct (H20 m J) as (f & Lf & Mf). destruct (field_takes b j fs _ f I K E1 Lf) as (kind & g & T). exists kind, g. split; auto.
             destruct (member_means b j fs _ f m kind g I K E1 Lf Mf T) as (Ki & V & Mo & Md).
             rewrite Forall_forall in Fm. specialize (Fm m J). rewrite Ek in Fm. apply Md in Fm.
             pose proof (takes_present b _ kind g Ib T) as Pr. revert Fm. apply wide_values_mono. intros y. apply IH. exact Pr.
          -- intros k kind g T Nn Ek. pose proof T as (j' & fs' & f & L' & _ & E' & Lf & Et).
             pose proof (last_fun _ _ _ _ _ (Ks _ _ I) L') as <-. rewrite E1 in E'. injection E' as <-.
             destruct (H10 f (proj1 (last_in _ _ _ _ Lf))) as (m & J & Em). destruct (H20 m J) as (f2 & Lf2 & Mf).
             assert (Ek2 : m_name m = k) by (rewrite Em; apply (last_in _ _ _ _ Lf)). rewrite Ek2 in Lf2.
             destruct (member_means b j fs k f2 m kind g I K E1 Lf2 Mf T) as (_ & _ & Mo & _).
             rewrite Forall_forall in Fm. specialize (Fm m J). rewrite Ek2, Ek in Fm. congruence.
        * intros [[Sb _]|[(j' & vs & w & L & K' & _)|(j' & kvs & L & K' & -> & A & B)]]; [contradiction| |]; rewrite (Ks' _ _ I L) in *; [congruence|].
          split; [|left; exists (DObj b ms0); split; [apply in_types; exact Iit|reflexivity]].
          intros d Id Ed. destruct (input_decl b j fs d I K1 E1 Id Ed) as (ms & -> & N & H1 & H2). split.
          -- exists kvs. split; auto. apply Forall_forall. intros m J. destruct (H2 m J) as (f & Lf & Mf).
             destruct (field_takes b j fs _ f I K1 E1 Lf) as (kind & g & T). destruct (member_means b j fs _ f m kind g I K1 E1 Lf Mf T) as (Ki & V & Mo & Md).
             destruct (aget (m_name m) kvs) as [x|] eqn:Ek.
             ++ destruct (A _ _ Ek) as (kind' & g' & T' & X). destruct (takes_fun _ _ _ _ _ _ _ T T') as [<- <-].
                pose proof (takes_present b _ kind g Ib T) as Pr. apply Md. revert X. apply wide_values_mono. intros y. apply IH. exact Pr.
             ++ rewrite Mo. destruct (nullable g) eqn:En; auto. exfalso. exact (B _ _ _ T En Ek).
          -- intros kvs' k x E Ek. injection E as <-. destruct (A k x Ek) as (kind & g & T & _). pose proof T as (j'' & fs' & f & L' & _ & E' & Lf & Et).
             rewrite (Ks' _ _ I L') in E'. rewrite E1 in E'. injection E' as <-.
             destruct (H1 f (proj1 (last_in _ _ _ _ Lf))) as (m & J & Em). apply in_map_iff. exists m. split; auto. rewrite Em. apply (last_in _ _ _ _ Lf).
  Qed.
End Globals.
