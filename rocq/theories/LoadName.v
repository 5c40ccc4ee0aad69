(** Loaded schemas have usable names when the introspection data does. *)
From Verif Require Export NameFacts LoadFacts InputFacts PathFacts.

(** ** Descriptions: trimming lines adds no comment terminator *)
Lemma occurs_refl p : occurs p p.
Proof. exists "", "". rewrite sapp_nil_r. reflexivity. Qed.
Lemma occurs_trans p q s : occurs p q -> occurs q s -> occurs p s.
Proof. intros (a & b & ->) (x & y & ->). exists (x +++ a), (b +++ y). rewrite !sapp_assoc. reflexivity. Qed.
Lemma strip_cr_part s : exists b, s = strip_cr s +++ b.
Proof.
  induction s as [|c s (b & IH)]; [exists ""; reflexivity|]. destruct s as [|d s].
  - cbn [strip_cr]. destruct (Ascii.eqb c (ascii_of_nat 13)); [exists (String c ""); reflexivity|exists ""; reflexivity].
  - exists b. cbn [strip_cr String.append]. f_equal. exact IH.
Qed.
Lemma lines_from_part s : forall acc l, In l (lines_from acc s) -> occurs l (acc +++ s).
Proof.
  induction s as [|c s IH]; intros acc l I; cbn [lines_from] in I.
  - destruct acc as [|x acc]; [destruct I|]. destruct I as [<-|[]]. rewrite sapp_nil_r. apply occurs_refl.
  - destruct (Ascii.eqb c (ascii_of_nat 10)).
    + destruct I as [<-|I].
      * destruct (strip_cr_part acc) as (b & E). exists "", (b +++ String c s). cbn [String.append]. rewrite <- sapp_assoc, <- E. reflexivity.
      * apply IH in I. destruct I as (a & b & E). exists (acc +++ String c a), b. cbn [String.append] in E. rewrite sapp_assoc. cbn [String.append].
        rewrite <- E. reflexivity.
    + apply IH in I. rewrite sapp_assoc in I. exact I.
Qed.
Lemma first_strip_part l s r : first_strip l s = Some r -> exists a, s = a +++ r.
Proof.
  induction l as [|p l IH]; cbn; [discriminate|]. destruct (strip_prefix p s) as [q|] eqn:E; auto.
  intros H. injection H as <-. exists p. apply strip_prefix_Some in E. exact E.
Qed.
Lemma trim_start_part fuel : forall s, exists a, s = a +++ trim_start_fuel fuel s.
Proof.
  induction fuel as [|f IH]; intros s; cbn [trim_start_fuel]; [exists ""; reflexivity|].
  destruct (first_strip whitespace s) as [r|] eqn:E; [|exists ""; reflexivity].
  destruct (first_strip_part _ _ _ E) as (a & ->). destruct (IH r) as (b & Eb). exists (a +++ b). rewrite sapp_assoc, <- Eb. reflexivity.
Qed.
Lemma trim_end_part fuel : forall s, exists a, s = a +++ trim_end_rev_fuel fuel s.
Proof.
  induction fuel as [|f IH]; intros s; cbn [trim_end_rev_fuel]; [exists ""; reflexivity|].
  destruct (first_strip (List.map srev whitespace) s) as [r|] eqn:E; [|exists ""; reflexivity].
  destruct (first_strip_part _ _ _ E) as (a & ->). destruct (IH r) as (b & Eb). exists (a +++ b). rewrite sapp_assoc, <- Eb. reflexivity.
Qed.
Lemma trim_part s : occurs (trim s) s.
Proof.
  unfold trim, trim_end, trim_start. set (u := trim_start_fuel _ s).
  destruct (trim_start_part (String.length s) s) as (a & Ea). fold u in Ea.
  destruct (trim_end_part (String.length u) (srev u)) as (b & Eb). set (w := trim_end_rev_fuel _ _) in *.
  exists a, (srev b). rewrite <- srev_app, <- Eb, srev_srev. exact Ea.
Qed.
Lemma has_close_nl a b : has_close (a +++ nl +++ b) = has_close a || has_close b.
Proof. rewrite has_close_app. cbn [starts_slash nl String.append]. rewrite andb_false_r, orb_false_r. reflexivity. Qed.
Lemma join_close l : has_close (join nl l) = true -> exists x, In x l /\ has_close x = true.
Proof.
  unfold join. induction l as [|x l IH]; [discriminate|]. destruct l as [|y l].
  - cbn [String.concat]. exists x. cbn; auto.
  - change (String.concat nl (x :: y :: l)) with (x +++ nl +++ String.concat nl (y :: l)). rewrite has_close_nl, orb_true_iff.
    intros [H|H]; [exists x; cbn; auto|]. destruct (IH H) as (z & I & Hz). exists z. split; auto. right. exact I.
Qed.
Lemma doc_kept d : occurs "*/" (normalize_doc d) -> occurs "*/" d.
Proof.
  intros H. apply has_close_spec in H. apply join_close in H. destruct H as (x & I & H). apply filter_In in I. destruct I as [I _].
  apply in_map_iff in I. destruct I as (l & <- & I). apply has_close_spec in H. eapply occurs_trans; [exact H|].
  eapply occurs_trans; [apply trim_part|]. apply (lines_from_part d "" l I).
Qed.

(** ** Types and fields of a loaded schema *)
Lemma loaded_type js s n t : load_schema js = Ok s -> get_type s n = Some t ->
  exists j, In j js /\ jt_name j = n /\ st_doc t = jt_description j /\ type_matches j (st_def t).
Proof.
  intros L G. destruct (load_ok _ _ L) as (_ & La & No).
  destruct (named_dec jt_name n js) as [N|(j & Lj)]; [rewrite (No n N) in G; discriminate|].
  destruct (La n j Lj) as (t' & G' & Ed & M). rewrite G in G'. injection G' as <-.
  destruct Lj as (pre & suf & -> & En & _). exists j. split; [apply in_or_app; right; left; reflexivity|]. auto.
Qed.
Lemma lookup_field tn fs m n f : lookup_matches tn fs m -> aget n m = Some f ->
  f = typename_field /\ tn = true \/ exists j, In j fs /\ jf_name j = n /\ field_matches j f.
Proof.
  intros [A B] G. destruct (named_dec jf_name n fs) as [N|(j & Lj)].
  - rewrite (B _ N) in G. destruct tn; [|discriminate]. cbn [andb] in G. destruct (String.eqb n "__typename"); [|discriminate]. injection G as <-. auto.
  - destruct (A _ _ Lj) as (f' & G' & M). rewrite G in G'. injection G' as <-. right.
    destruct Lj as (pre & suf & -> & En & _). exists j. split; [apply in_or_app; right; left; reflexivity|]. auto.
Qed.
Lemma field_loaded js s P n f : load_schema js = Ok s -> field_of s P n f ->
  f = typename_field \/ exists j fj, In j js /\ some_field j fj /\ field_matches fj f.
Proof.
  intros L (t & G & F). destruct (loaded_type _ _ _ _ L G) as (j & J & _ & _ & M). destruct M as [fs m _ Ef Lm| | |fs ps m _ Ef _ Lm| |ps m _ _ Lm]; try contradiction.
  - destruct (lookup_field _ _ _ _ _ Lm F) as [[-> _]|(fj & I & _ & Mf)]; auto. right. exists j, fj. split; auto. split; auto. exists fs. auto.
  - destruct (lookup_field _ _ _ _ _ Lm F) as [[-> _]|(fj & I & _ & Mf)]; auto. right. exists j, fj. split; auto. split; auto. exists fs. auto.
  - destruct (lookup_field _ _ _ _ _ Lm F) as [[-> _]|(fj & [] & _)]. auto.
Qed.
Lemma input_loaded js s n t nm m k f : load_schema js = Ok s -> get_type s n = Some t -> st_def t = TInputObject nm m -> In (k, f) m ->
  exists j fj, In j js /\ some_field j fj /\ jf_name fj = k /\ field_matches fj f.
Proof.
  intros L G D I. destruct (loaded_input _ _ _ _ _ _ L G D) as (_ & N & _). apply (In_aget k f m N) in I.
  destruct (loaded_type _ _ _ _ L G) as (j & J & _ & _ & M). rewrite D in M. inversion M as [| | | |fs m' _ Ef Lm|]; subst.
  destruct (lookup_field _ _ _ _ _ Lm I) as [[_ X]|(fj & If & En & Mf)]; [discriminate|].
  exists j, fj. split; auto. split; auto. exists fs. auto.
Qed.
Lemma matches_doc fj f d : field_matches fj f -> sf_doc f = Some d -> exists d0, jf_description fj = Some d0 /\ d = normalize_doc d0.
Proof.
  intros (_ & _ & E & _) D. rewrite D in E. destruct (jf_description fj) as [d0|]; [|discriminate]. injection E as E. exists d0. split; auto.
Qed.
Lemma matches_scalar fj f sc : field_matches fj f -> ft_def (sf_type f) = FDScalar (ScCustom sc) -> base_of (jf_type fj) "SCALAR" sc.
Proof.
  intros (_ & _ & _ & k & B & D) E. rewrite E in D. inversion D as [|x Sc| | | |]; subst. inversion Sc; subst. congruence.
Qed.
Lemma matches_not_typename fj f : field_matches fj f -> ft_def (sf_type f) <> FDTypeName.
Proof. intros (_ & _ & _ & k & B & D) E. rewrite E in D. inversion D. Qed.

Lemma loaded_nameable c js s : load_schema js = Ok s -> json_nameable c js -> nameable c s.
Proof.
  intros L J. constructor.
  - intros n t G. destruct (loaded_type _ _ _ _ L G) as (j & I & <- & _). apply (jn_types _ _ J). auto.
  - intros P T (t & G & Po). destruct (loaded_type _ _ _ _ L G) as (j & I & En & _ & M). destruct M as [fs m| | |fs ps m _ _ Ep _|fs m|ps m _ Ep _]; try contradiction.
    + cbn in Po. subst T. rewrite <- En. apply (jn_types _ _ J). auto.
    + eapply (jn_possible _ _ J); eauto.
    + eapply (jn_possible _ _ J); eauto.
  - intros n t G N. destruct (loaded_type _ _ _ _ L G) as (j & I & <- & _ & M). apply (jn_reserved _ _ J); auto.
    intros E. inversion M; try congruence.
  - intros P n f sc F D. destruct (field_loaded _ _ _ _ _ L F) as [->|(j & fj & I & Sf & M)]; [discriminate|].
    eapply (jn_refs _ _ J); eauto. eapply matches_scalar; eauto.
  - intros n t x G D. destruct (loaded_type _ _ _ _ L G) as (j & I & <- & _ & M). apply (jn_scalars _ _ J); auto.
    rewrite D in M. inversion M. auto.
  - intros P n f F D. destruct (field_loaded _ _ _ _ _ L F) as [->|(j & fj & I & Sf & M)]; [split; reflexivity|].
    destruct (matches_not_typename _ _ M D).
  - intros P n f d F D. destruct (field_loaded _ _ _ _ _ L F) as [->|(j & fj & I & Sf & M)]; [discriminate|].
    destruct (matches_doc _ _ _ M D) as (d0 & E0 & ->). intros O. apply doc_kept in O. eapply (jn_docs _ _ J); eauto.
  - apply (jn_node_from _ _ J).
  - apply (jn_globals_from _ _ J).
Qed.
Lemma loaded_globals_nameable c js s : load_schema js = Ok s -> json_nameable c js -> globals_nameable c s.
Proof.
  intros L J. constructor.
  - intros n t vs v G D I. destruct (loaded_type _ _ _ _ L G) as (j & Ij & <- & _ & M). rewrite D in M. inversion M; subst.
    eapply (jn_values _ _ J); eauto.
  - intros n t vs d G D Ed. destruct (loaded_type _ _ _ _ L G) as (j & Ij & <- & Eq & M). rewrite Eq in Ed. eapply (jn_descr _ _ J); eauto.
  - intros n t nm fs k f G D I. destruct (input_loaded _ _ _ _ _ _ _ _ L G D I) as (j & fj & Ij & Sf & <- & M). eapply (jn_fields _ _ J); eauto.
  - intros n t nm fs k f d G D I Ed. destruct (input_loaded _ _ _ _ _ _ _ _ L G D I) as (j & fj & Ij & Sf & <- & M).
    destruct (matches_doc _ _ _ M Ed) as (d0 & E0 & ->). intros O. apply doc_kept in O. eapply (jn_docs _ _ J); eauto.
  - intros n t nm fs k f sc G D I Es. destruct (input_loaded _ _ _ _ _ _ _ _ L G D I) as (j & fj & Ij & Sf & <- & M).
    eapply (jn_refs _ _ J); eauto. eapply matches_scalar; eauto.
Qed.
